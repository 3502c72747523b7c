From Coq Require Import Reals Lra Lia Arith List Bool.
From Verif.Lib Require Import RSum Py.
From Verif.Spec Require Import Slider JenkinsCalls.
From Verif.Model Require Import Jenkins JenkinsOps.
From Verif.Proofs Require Import SliderP JenkinsP.
Import ListNotations.
Open Scope R_scope.

(** forces in a return value *)
Lemma clamp_abs Fs x : 0 <= Fs -> Rabs (clamp (- Fs) Fs x) <= Fs.
Proof.
  intros H. pose proof (clamp_range (- Fs) Fs x ltac:(lra)). apply Rabs_le. lra.
Qed.

Lemma j_law_bound kt Fs up fp u : 0 <= Fs -> Rabs (j_f (j_law kt Fs up fp u)) <= Fs.
Proof. intros H. rewrite j_law_clamp by exact H. apply clamp_abs. exact H. Qed.

Definition jinv (F0 : R) (s : jenkins) : Prop :=
  j_prestress_Fs s = 0 /\ j_real_Fs s = F0 /\ (j_Fs s = 0 \/ j_Fs s = F0).

Lemma instant_force_params s u b s' r :
  j_instant_force s u b = Ok (s', r) -> same_params s s'.
Proof.
  unfold j_instant_force. destruct (j_hist s) as [[up fp]|]; [|discriminate].
  intros E. injection E as <- _. destruct b; repeat split.
Qed.

Lemma step_params s x s' r : jenkins_step s x = Ok (s', r) -> same_params s s'.
Proof.
  unfold jenkins_step, j_instant_force_harmonic.
  destruct (j_instant_force s (fst x) true) as [[s1 [[[f a] b] c]]|] eqn:E; [|discriminate].
  cbn [bind]. pose proof (instant_force_params _ _ _ _ _ E) as P.
  destruct (j_dhist s1) as [[d e]|]; [|discriminate].
  intros H. injection H as <- _. exact P.
Qed.

Lemma same_params_trans a b c : same_params a b -> same_params b c -> same_params a c.
Proof. unfold same_params. intuition congruence. Qed.

Lemma step_force_bound s x s' f d :
  0 <= j_Fs s -> jenkins_step s x = Ok (s', (f, d)) -> Rabs f <= j_Fs s.
Proof.
  intros H0. unfold jenkins_step, j_instant_force_harmonic, j_instant_force.
  destruct (j_hist s) as [[up fp]|]; [|discriminate]. cbn [bind].
  pose proof (j_law_bound (j_kt s) (j_Fs s) up fp (fst x) H0) as B.
  destruct (j_law (j_kt s) (j_Fs s) up fp (fst x)) as [[[f' a] b] c].
  cbn [j_f] in *. destruct (j_dhist _) as [[e g]|]; [|discriminate].
  intros E. injection E as _ <- _. exact B.
Qed.

Lemma time_loop_bound l : forall s s' os,
  0 <= j_Fs s -> time_loop jenkins_step s l = Ok (s', os) ->
  same_params s s' /\ Forall (fun o => Rabs (fst o) <= j_Fs s) os.
Proof.
  induction l as [|x l IH]; intros s s' os H0 E; cbn [time_loop] in E.
  - injection E as <- <-. split; [repeat split|constructor].
  - destruct (jenkins_step s x) as [[s1 [f d]]|] eqn:Es; [|discriminate]. cbn [bind] in E.
    destruct (time_loop jenkins_step s1 l) as [[s2 os']|] eqn:Et; [|discriminate].
    cbn [bind] in E. injection E as <- <-.
    pose proof (step_params _ _ _ _ Es) as P.
    assert (P' := P). destruct P' as (_ & HF & _).
    destruct (IH _ _ _ ltac:(rewrite HF; exact H0) Et) as [P2 B].
    split; [eapply same_params_trans; eauto|].
    constructor; [simpl; eapply step_force_bound; eauto|].
    rewrite HF in B. exact B.
Qed.

Lemma repeat_loop_bound n : forall s s' atol rtol l os os' ac,
  0 <= j_Fs s -> Forall (fun o => Rabs (fst o) <= j_Fs s) os ->
  repeat_loop jenkins_step n atol rtol l s os ac = Ok (s', os') ->
  same_params s s' /\ Forall (fun o => Rabs (fst o) <= j_Fs s) os'.
Proof.
  induction n as [|n IH]; intros s s' atol rtol l os os' ac H0 B E; cbn [repeat_loop] in E.
  - injection E as <- <-. split; [repeat split|exact B].
  - destruct (not_converged atol rtol ac (last_force os)).
    + destruct (time_loop jenkins_step s l) as [[s1 os1]|] eqn:Et; [|discriminate].
      cbn [bind] in E. destruct (time_loop_bound _ _ _ _ H0 Et) as [P B1].
      assert (P' := P). destruct P' as (_ & HF & _).
      apply IH in E; [|rewrite HF; exact H0|rewrite HF; exact B1].
      rewrite HF in E. destruct E as [P2 B2]. split; [eapply same_params_trans; eauto|exact B2].
    + injection E as <- <-. split; [repeat split|exact B].
Qed.

Lemma history_bound s l u0 m atol rtol s' os :
  0 <= j_Fs s -> jenkins_local_force_history s l u0 m atol rtol = Ok (s', os) ->
  same_params s s' /\ Forall (fun o => Rabs (fst o) <= j_Fs s) os.
Proof.
  intros H0. unfold jenkins_local_force_history, local_force_history.
  destruct l as [|x l]; [discriminate|].
  destruct (time_loop jenkins_step (j_init_history_harmonic s u0) (x :: l)) as [[s1 os1]|] eqn:Et;
    [|discriminate].
  cbn [bind]. intros E.
  destruct (time_loop_bound _ (j_init_history_harmonic s u0) _ _ H0 Et) as [P B].
  change (j_Fs (j_init_history_harmonic s u0)) with (j_Fs s) in B.
  assert (P' := P). destruct P' as (_ & HF & _).
  change (j_Fs (j_init_history_harmonic s u0)) with (j_Fs s) in HF.
  apply repeat_loop_bound in E; [|rewrite HF; exact H0|rewrite HF; exact B].
  rewrite HF in E. destruct E as [P2 B2].
  split; [eapply same_params_trans; [exact P|exact P2]|exact B2].
Qed.

Lemma jinv_params F0 s s' : jinv F0 s -> same_params s s' -> jinv F0 s'.
Proof. unfold jinv, same_params. intros (A & B & C) (P & Q & S & T). rewrite Q, S, T. auto. Qed.

Lemma jcall_inv F0 s c :
  0 <= F0 -> jinv F0 s ->
  jinv F0 (fst (jcall_exec s c)) /\
  forall f, In f (forces_of (snd (jcall_exec s c))) -> Rabs f <= j_Fs s.
Proof.
  intros HF I. assert (I' := I). destruct I' as (Ip & Ir & Is).
  assert (H0 : 0 <= j_Fs s) by (destruct Is as [-> | ->]; lra).
  destruct c; cbn [jcall_exec].
  - split; [exact I|simpl; tauto].
  - split; [exact I|simpl; tauto].
  - unfold j_force. destruct (j_hist s) as [[up fp]|]; [|split; [exact I|simpl; tauto]].
    pose proof (j_law_bound (j_kt s) (j_Fs s) up fp unl H0) as B.
    destruct (j_law (j_kt s) (j_Fs s) up fp unl) as [[[f a] b] c]. cbn [j_f] in B.
    split; [destruct update_hist; exact I|]. simpl. intros f' [<-|[]]. exact B.
  - unfold j_instant_force. destruct (j_hist s) as [[up fp]|]; [|split; [exact I|simpl; tauto]].
    pose proof (j_law_bound (j_kt s) (j_Fs s) up fp unl H0) as B.
    destruct (j_law (j_kt s) (j_Fs s) up fp unl) as [[[f a] b] c]. cbn [j_f] in B.
    split; [destruct update_prev; exact I|]. simpl. intros f' [<-|[]]. exact B.
  - unfold j_instant_force_harmonic.
    unfold j_instant_force. destruct (j_hist s) as [[up fp]|] eqn:Eh; [|split; [exact I|simpl; tauto]].
    pose proof (j_law_bound (j_kt s) (j_Fs s) up fp unl H0) as B.
    destruct (j_law (j_kt s) (j_Fs s) up fp unl) as [[[f a] b] c]. cbn [j_f bind] in *.
    destruct (j_dhist _) as [[d e]|].
    + split; [destruct update_prev; exact I|]. simpl. intros f' [<-|[]]. exact B.
    + split; [destruct update_prev; exact I|simpl; tauto].
  - destruct (jenkins_local_force_history s rows unlth0 max_repeats atol rtol) as [[s' os]|] eqn:E.
    + destruct (history_bound _ _ _ _ _ _ _ _ H0 E) as [P B].
      split; [eapply jinv_params; eauto|].
      simpl. intros f Hf. apply in_map_iff in Hf. destruct Hf as [o [<- Ho]].
      rewrite Forall_forall in B. auto.
    + split; [exact I|simpl; tauto].
  - split; [|simpl; tauto]. unfold jinv. simpl. repeat split; auto.
  - split; [|simpl; tauto]. unfold jinv. simpl. repeat split; auto.
Qed.

Lemma jcalls_bound F0 cs : forall s,
  0 <= F0 -> jinv F0 s ->
  jinv F0 (fst (jcalls_exec s cs)) /\
  forall r f, In r (snd (jcalls_exec s cs)) -> In f (forces_of r) -> Rabs f <= F0.
Proof.
  induction cs as [|c cs IH]; intros s H0 I; cbn [jcalls_exec].
  - split; [exact I|simpl; tauto].
  - destruct (jcall_inv F0 s c H0 I) as [I1 B1].
    destruct (jcall_exec s c) as [s1 r1]. simpl in I1, B1.
    destruct (IH s1 H0 I1) as [I2 B2].
    destruct (jcalls_exec s1 cs) as [s2 rs]. simpl in *.
    split; [exact I2|]. intros r f [<-|Hr] Hf.
    + specialize (B1 f Hf). destruct I as (_ & _ & [E|E]); rewrite E in B1; lra.
    + eapply B2; eauto.
Qed.

Lemma jcalls_app s a b :
  jcalls_exec s (a ++ b) =
  let '(s1, ra) := jcalls_exec s a in
  let '(s2, rb) := jcalls_exec s1 b in (s2, ra ++ rb).
Proof.
  revert s. induction a as [|c a IH]; intros s; cbn [app jcalls_exec].
  - destruct (jcalls_exec s b); reflexivity.
  - destruct (jcall_exec s c) as [s1 r]. rewrite IH.
    destruct (jcalls_exec s1 a) as [s2 ra]. destruct (jcalls_exec s2 b). reflexivity.
Qed.

(** calls that only look *)
Lemma non_updating_state s c : non_updating c -> fst (jcall_exec s c) = s.
Proof.
  destruct c; simpl; try tauto.
  - destruct update_hist; [tauto|]. intros _. unfold j_force.
    destruct (j_hist s) as [[up fp]|]; [|reflexivity].
    destruct (j_law _ _ _ _ _) as [[[f a] b] c]. reflexivity.
  - destruct update_prev; [tauto|]. intros _. unfold j_instant_force.
    destruct (j_hist s) as [[up fp]|]; [|reflexivity].
    destruct (j_law _ _ _ _ _) as [[[f a] b] c]. reflexivity.
Qed.

Lemma jcalls_skip s before c after :
  non_updating c ->
  exists r, snd (jcalls_exec s (before ++ c :: after)) =
     firstn (length before) (snd (jcalls_exec s (before ++ after))) ++ r ::
     skipn (length before) (snd (jcalls_exec s (before ++ after))).
Proof.
  intros Hn. rewrite !jcalls_app.
  destruct (jcalls_exec s before) as [s1 ra] eqn:Ea.
  assert (L : length ra = length before).
  { revert s s1 ra Ea. induction before as [|b before IH]; intros s s1 ra Ea; cbn in Ea.
    - injection Ea as _ <-. reflexivity.
    - destruct (jcall_exec s b) as [s' r]. destruct (jcalls_exec s' before) as [s'' rs] eqn:E'.
      injection Ea as _ <-. simpl. f_equal. eapply IH; eauto. }
  cbn [jcalls_exec].
  pose proof (non_updating_state s1 c Hn) as Hs.
  destruct (jcall_exec s1 c) as [s1' r]. simpl in Hs. subst s1'.
  destruct (jcalls_exec s1 after) as [s2 rb]. simpl.
  exists r. rewrite <- L, firstn_app, skipn_app, Nat.sub_diag, firstn_all, skipn_all. simpl.
  rewrite app_nil_r. reflexivity.
Qed.

(** prestress round trip: the last switch decides *)
Lemma jcall_params s c : is_switch c = false -> 0 <= j_Fs s -> same_params s (fst (jcall_exec s c)).
Proof.
  intros Hs H0. destruct c; try discriminate; cbn [jcall_exec]; try (repeat split; fail).
  - unfold j_force. destruct (j_hist s) as [[up fp]|]; [|repeat split].
    destruct (j_law _ _ _ _ _) as [[[f a] b] c]. destruct update_hist; repeat split.
  - destruct (j_instant_force s unl update_prev) as [[s' [[[f a] b] c]]|] eqn:E; [|repeat split].
    eapply instant_force_params; eauto.
  - unfold j_instant_force_harmonic.
    destruct (j_instant_force s unl update_prev) as [[s' [[[f a] b] c]]|] eqn:E; cbn [bind].
    + pose proof (instant_force_params _ _ _ _ _ E) as P.
      destruct (j_dhist s') as [[d e]|]; exact P.
    + repeat split.
  - destruct (jenkins_local_force_history s rows unlth0 max_repeats atol rtol) as [[s' os]|] eqn:E.
    + eapply history_bound; eauto.
    + repeat split.
Qed.

Lemma jcalls_params cs : forall s,
  forallb (fun c => negb (is_switch c)) cs = true -> 0 <= j_Fs s ->
  same_params s (fst (jcalls_exec s cs)).
Proof.
  induction cs as [|c cs IH]; intros s H H0; cbn [jcalls_exec]; [repeat split|].
  simpl in H. apply andb_true_iff in H. destruct H as [H1 H2].
  apply negb_true_iff in H1. pose proof (jcall_params s c H1 H0) as P.
  destruct (jcall_exec s c) as [s1 r]. simpl in P.
  assert (H0' : 0 <= j_Fs s1) by (destruct P as (_ & -> & _); exact H0).
  specialize (IH s1 H2 H0'). destruct (jcalls_exec s1 cs) as [s2 rs]. simpl in *.
  eapply same_params_trans; eauto.
Qed.

Lemma jenkins_reset_roundtrip kt Fs before after :
  0 <= Fs -> forallb (fun c => negb (is_switch c)) after = true ->
  j_Fs (fst (jcalls_exec (j_new kt Fs) (before ++ CResetRealMu :: after))) = Fs.
Proof.
  intros H0 Ha. rewrite jcalls_app.
  destruct (jcalls_bound Fs before (j_new kt Fs) H0) as [I _].
  { unfold jinv; simpl; auto. }
  destruct (jcalls_exec (j_new kt Fs) before) as [s1 ra]. simpl in I.
  cbn [jcalls_exec jcall_exec].
  destruct I as (_ & Ir & _).
  pose proof (jcalls_params after (j_reset_real_mu s1) Ha) as P.
  destruct (jcalls_exec (j_reset_real_mu s1) after) as [s2 rb]. simpl in *.
  destruct P as (_ & -> & _); [rewrite Ir; exact H0|exact Ir].
Qed.

Lemma jenkins_prestress_zero kt Fs before after :
  0 <= Fs -> forallb (fun c => negb (is_switch c)) after = true ->
  j_Fs (fst (jcalls_exec (j_new kt Fs) (before ++ CSetPrestressMu :: after))) = 0.
Proof.
  intros H0 Ha. rewrite jcalls_app.
  destruct (jcalls_bound Fs before (j_new kt Fs) H0) as [I _].
  { unfold jinv; simpl; auto. }
  destruct (jcalls_exec (j_new kt Fs) before) as [s1 ra]. simpl in I.
  cbn [jcalls_exec jcall_exec].
  destruct I as (Ip & _ & _).
  pose proof (jcalls_params after (j_set_prestress_mu s1) Ha) as P.
  destruct (jcalls_exec (j_set_prestress_mu s1) after) as [s2 rb]. simpl in *.
  destruct P as (_ & -> & _); [rewrite Ip; lra|exact Ip].
Qed.

(** ---- dissipation ---- *)
(** one slider step never creates energy *)
Lemma slider_step_energy kt Fs f d :
  0 < kt -> - Fs <= f <= Fs ->
  let f' := clamp (- Fs) Fs (f + kt * d) in
  (f' * f' - f * f) / (2 * kt) <= f' * d.
Proof.
  intros Hk Hf f'.
  apply Rmult_le_reg_r with (2 * kt); [lra|].
  unfold Rdiv. rewrite Rmult_assoc, Rinv_l by lra. rewrite Rmult_1_r.
  assert (Hc : (f' = f + kt * d) \/ (f' = Fs /\ Fs < f + kt * d) \/ (f' = - Fs /\ f + kt * d < - Fs)).
  { unfold f'. minmax. }
  destruct Hc as [E|[[E H]|[E H]]]; rewrite E.
  - replace ((f + kt * d) * d * (2 * kt)) with (2 * (f + kt * d) * ((f + kt * d) - f)) by ring.
    nra.
  - nra.
  - nra.
Qed.

Lemma slider_energy kt Fs u u0 n :
  0 < kt -> 0 <= Fs ->
  let f := jenkins_law kt Fs u u0 in
  (f n * f n - f O * f O) / (2 * kt) <= rsum n (fun k => f (S k) * (u (S k) - u k)).
Proof.
  intros Hk H0 f. induction n as [|n IH].
  - simpl. unfold Rdiv. rewrite Rminus_diag_eq by reflexivity. lra.
  - rewrite rsum_S.
    assert (R0 : - Fs <= f n <= Fs).
    { unfold f, jenkins_law. apply (slider_range kt (fun _ => - Fs) (fun _ => Fs) u). intros; lra. }
    pose proof (slider_step_energy kt Fs (f n) (u (S n) - u n) Hk R0) as E. cbv zeta in E.
    change (clamp (- Fs) Fs (f n + kt * (u (S n) - u n))) with (f (S n)) in E.
    assert (D : (f (S n) * f (S n) - f O * f O) / (2 * kt)
                = (f n * f n - f O * f O) / (2 * kt) + (f (S n) * f (S n) - f n * f n) / (2 * kt))
      by (field; lra).
    rewrite D. lra.
Qed.

(** work over one steady period is nonnegative; g is the steady state *)
Lemma steady_dissipation kt Fs N u u0 g :
  0 < kt -> 0 <= Fs -> (0 < N)%nat ->
  steady_state N (jenkins_law kt Fs (repeat_samples N u) u0) g ->
  0 <= rsum N (fun k => g k * (u k - u ((k + N - 1) mod N)%nat)).
Proof.
  intros Hk H0 HN [n0 Hs].
  set (uu := repeat_samples N u). set (f := jenkins_law kt Fs uu u0).
  (* energy between the ends of two consecutive steady passes *)
  set (m := (S n0)).
  assert (Eq : forall k, (k < N)%nat ->
     f (S (m * N - 1 + k)) = g k /\
     uu (S (m * N - 1 + k)) - uu (m * N - 1 + k)%nat = u k - u ((k + N - 1) mod N)%nat).
  { intros k Hk'. assert (M : (0 < m * N)%nat) by (unfold m; nia).
    replace (S (m * N - 1 + k)) with (m * N + k)%nat by lia.
    split; [apply Hs; unfold m; lia|].
    unfold uu, repeat_samples. f_equal.
    - f_equal. rewrite Nat.add_comm, Nat.mod_add by lia. apply Nat.mod_small. lia.
    - f_equal. replace (m * N - 1 + k)%nat with (k + N - 1 + n0 * N)%nat by (unfold m; nia).
      rewrite Nat.mod_add by lia. reflexivity. }
  assert (En : forall n p, (f (n + p)%nat * f (n + p)%nat - f n * f n) / (2 * kt)
       <= rsum p (fun k => f (S (n + k)) * (uu (S (n + k)) - uu (n + k)%nat))).
  { intros n p. induction p as [|p IH].
    - rewrite Nat.add_0_r. simpl. unfold Rdiv. rewrite Rminus_diag_eq by reflexivity. lra.
    - rewrite rsum_S. replace (n + S p)%nat with (S (n + p)) by lia.
      assert (R0 : - Fs <= f (n + p)%nat <= Fs).
      { unfold f, jenkins_law. apply (slider_range kt (fun _ => - Fs) (fun _ => Fs) uu). intros; lra. }
      pose proof (slider_step_energy kt Fs (f (n + p)%nat) (uu (S (n + p)) - uu (n + p)%nat) Hk R0) as E.
      cbv zeta in E.
      change (clamp (- Fs) Fs (f (n + p)%nat + kt * (uu (S (n + p)) - uu (n + p)%nat)))
        with (f (S (n + p))) in E.
      replace ((f (S (n + p)) * f (S (n + p)) - f n * f n) / (2 * kt)) with
        ((f (n + p)%nat * f (n + p)%nat - f n * f n) / (2 * kt)
         + (f (S (n + p)) * f (S (n + p)) - f (n + p)%nat * f (n + p)%nat) / (2 * kt)) by (field; lra).
      lra. }
  specialize (En (m * N - 1)%nat N).
  assert (Hend : f (m * N - 1 + N)%nat = f (m * N - 1)%nat).
  { replace (m * N - 1 + N)%nat with (m * N + (N - 1))%nat by (unfold m; nia).
    replace (m * N - 1)%nat with (n0 * N + (N - 1))%nat by (unfold m; nia).
    unfold f. rewrite !Hs by (unfold m; lia). reflexivity. }
  rewrite Hend in En. unfold Rdiv in En. rewrite Rminus_diag_eq, Rmult_0_l in En by reflexivity.
  erewrite rsum_ext; [exact En|].
  intros k Hk'. cbv beta. destruct (Eq k Hk') as [E1 E2]. rewrite E1, E2. reflexivity.
Qed.
