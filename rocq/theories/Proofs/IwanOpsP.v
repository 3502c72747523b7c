(** Call sequences on an Iwan element. *)
From Coq Require Import Reals Lra Lia Arith List Bool FunctionalExtensionality.
From Verif.Lib Require Import RSum Py Calc.
From Verif.Spec Require Import Slider Calculus JenkinsCalls IwanCalls.
From Verif.Model Require Import Jenkins VectorJenkins Iwan IwanOps.
From Verif.Proofs Require Import SliderP JenkinsP JenkinsOpsP VectorJenkinsP JenkinsDerivP HysteresisP IwanP VectorIwanP.
Import ListNotations.
Open Scope R_scope.

Definition w_ok (s : iwan) : Prop := forall i, (i < iw_n s)%nat -> 0 <= iw_w s i.
Definition fs_ok (s : iwan) : Prop := forall i, (i < iw_n s)%nat -> Rabs (iw_fs s i) <= iw_phi s i.
Definition lim (s : iwan) : R := bank_limit (iw_n s) (iw_w s) (iw_phi s).

Lemma iw_slider_bound phi up fs u : 0 <= phi -> Rabs (fst (iw_slider phi up fs u)) <= phi.
Proof. intros H. destruct (iw_slider_clamp phi up fs u H) as [-> _]. apply clamp_abs. exact H. Qed.

Lemma sum_bound s (f : vec) : w_ok s -> (forall i, (i < iw_n s)%nat -> Rabs (f i) <= iw_phi s i) -> Rabs (rsum (iw_n s) (fun i => f i * iw_w s i)) <= lim s.
Proof.
  intros Hw Hf. eapply Rle_trans; [apply rsum_abs|]. apply rsum_le. intros i Hi. rewrite Rabs_mult. rewrite (Rabs_right (iw_w s i)) by (apply Rle_ge, Hw, Hi).
  rewrite Rmult_comm. apply Rmult_le_compat_l; [apply Hw, Hi|apply Hf, Hi].
Qed.

Lemma iw_same_trans a b c : iw_same a b -> iw_same b c -> iw_same a c.
Proof. unfold iw_same. intuition congruence. Qed.
Lemma iw_same_refl a : iw_same a a. Proof. repeat split. Qed.
Lemma iw_same_ok a b : iw_same a b -> (phi_ok a -> phi_ok b) /\ (w_ok a -> w_ok b) /\ lim b = lim a.
Proof. intros (A & B & C). unfold phi_ok, w_ok, lim. rewrite A, B, C. auto. Qed.

Lemma instant_inv s u b : phi_ok s -> w_ok s -> fs_ok s ->
  let s' := fst (iw_instant_force s u b) in iw_same s s' /\ fs_ok s' /\ Rabs (fst (fst (snd (iw_instant_force s u b)))) <= lim s.
Proof.
  intros HP HW HF. unfold iw_instant_force. cbn [fst snd]. split; [destruct b; repeat split|]. split.
  - destruct b; [|exact HF]. intros i Hi. cbn in *. apply iw_slider_bound. apply HP. exact Hi.
  - apply sum_bound; [exact HW|]. intros i Hi. apply iw_slider_bound. apply HP. exact Hi.
Qed.

Lemma harmonic_inv s u cst b s' o : phi_ok s -> w_ok s -> fs_ok s -> iw_instant_force_harmonic s u cst b = Ok (s', o) -> iw_same s s' /\ fs_ok s' /\ Rabs (fst o) <= lim s.
Proof.
  intros HP HW HF. unfold iw_instant_force_harmonic. pose proof (instant_inv s u b HP HW HF) as I. cbv zeta in I. destruct (iw_instant_force s u b) as [s1 [[f d] st]]. cbn [fst snd] in I.
  destruct I as (I1 & I2 & I3). destruct (iw_dhist s1) as [[dup dfs]|]; [|discriminate]. intros E. injection E as <- <-. repeat split; try apply I1; [exact I2|exact I3].
Qed.

Lemma crit_inv s x s' o : phi_ok s -> w_ok s -> fs_ok s -> iw_step_crit s x = Ok (s', o) -> iw_same s s' /\ fs_ok s' /\ Rabs (fst o) <= lim s.
Proof.
  intros HP HW HF. unfold iw_step_crit, iw_step. destruct (iw_instant_force_harmonic s (fst x) (snd x) true) as [[s1 [f d]]|] eqn:E; [|discriminate]. cbn [bind]. intros E'. injection E' as <- <-.
  apply (harmonic_inv _ _ _ _ _ _ HP HW HF E).
Qed.

Section LoopInv.
  Context {D : Type}.
  Variable step : iwan -> R * vec -> result (iwan * (R * D)).
  Hypothesis step_inv : forall s x s' o, phi_ok s -> w_ok s -> fs_ok s -> step s x = Ok (s', o) -> iw_same s s' /\ fs_ok s' /\ Rabs (fst o) <= lim s.

  Lemma loop_inv l : forall s s' os, phi_ok s -> w_ok s -> fs_ok s -> time_loop step s l = Ok (s', os) -> iw_same s s' /\ fs_ok s' /\ Forall (fun o => Rabs (fst o) <= lim s) os.
  Proof.
    induction l as [|x l IH]; intros s s' os HP HW HF E; cbn [time_loop] in E; [injection E as <- <-; split; [repeat split|split; [exact HF|constructor]]|].
    destruct (step s x) as [[s1 o]|] eqn:E1; [|discriminate]. cbn [bind] in E. destruct (time_loop step s1 l) as [[s2 os2]|] eqn:E2; [|discriminate]. cbn [bind] in E. injection E as <- <-.
    destruct (step_inv _ _ _ _ HP HW HF E1) as (A & B & C). destruct (iw_same_ok _ _ A) as (P1 & W1 & L1). destruct (IH _ _ _ (P1 HP) (W1 HW) B E2) as (A2 & B2 & C2). rewrite L1 in C2.
    split; [eapply iw_same_trans; eauto|]. split; [exact B2|]. constructor; assumption.
  Qed.

  Lemma repeat_inv n : forall s s' atol rtol l os os' ac, phi_ok s -> w_ok s -> fs_ok s -> Forall (fun o => Rabs (fst o) <= lim s) os ->
    repeat_loop step n atol rtol l s os ac = Ok (s', os') -> iw_same s s' /\ fs_ok s' /\ Forall (fun o => Rabs (fst o) <= lim s) os'.
  Proof.
    induction n as [|n IH]; intros s s' atol rtol l os os' ac HP HW HF B E; cbn [repeat_loop] in E; [injection E as <- <-; split; [repeat split|split; assumption]|].
    destruct (not_converged atol rtol ac (last_force os)); [|injection E as <- <-; split; [repeat split|split; assumption]].
    destruct (time_loop step s l) as [[s1 os1]|] eqn:Et; [|discriminate]. cbn [bind] in E. destruct (loop_inv _ _ _ _ HP HW HF Et) as (A & F1 & B1).
    destruct (iw_same_ok _ _ A) as (P1 & W1 & L1). rewrite <- L1 in B1. destruct (IH _ _ _ _ _ _ _ _ (P1 HP) (W1 HW) F1 B1 E) as (A2 & F2 & B2). rewrite L1 in B2.
    split; [eapply iw_same_trans; eauto|]. split; assumption.
  Qed.

  Lemma hist_inv s u0 l m atol rtol s' os : phi_ok s -> w_ok s -> local_force_history step (iw_init_history_harmonic s u0) 0 l m atol rtol = Ok (s', os) ->
    iw_same s s' /\ fs_ok s' /\ Forall (fun o => Rabs (fst o) <= lim s) os.
  Proof.
    intros HP HW. unfold local_force_history. destruct l as [|x l]; [discriminate|]. destruct (time_loop step (iw_init_history_harmonic s u0) (x :: l)) as [[s1 os1]|] eqn:Et; [|discriminate]. cbn [bind].
    assert (F0 : fs_ok (iw_init_history_harmonic s u0)) by (intros i Hi; cbn; unfold vzero; rewrite Rabs_R0; apply HP; exact Hi).
    destruct (loop_inv _ (iw_init_history_harmonic s u0) _ _ HP HW F0 Et) as (A & F1 & B1). destruct (iw_same_ok _ _ A) as (P1 & W1 & L1). rewrite <- L1 in B1.
    intros E. destruct (repeat_inv _ _ _ _ _ _ _ _ _ (P1 HP) (W1 HW) F1 B1 E) as (A2 & F2 & B2). rewrite L1 in B2. split; [exact (iw_same_trans _ _ _ A A2)|]. split; assumption.
  Qed.
End LoopInv.

Lemma scatter_keep {A} (P : A -> Prop) : forall crit vals (init : nat -> A) i, P (init i) -> Forall P vals -> P (vj_scatter crit vals init i).
Proof.
  induction crit as [|c crit IH]; intros vals init i Hi Hv; [exact Hi|]. destruct vals as [|v vals]; [exact Hi|]. cbn [vj_scatter]. inversion Hv; subst. apply IH; [|assumption].
  destruct (Nat.eqb _ _); assumption.
Qed.

Lemma fill_bound s N u cst acc p i : phi_ok s -> w_ok s -> Rabs (fst acc i) <= lim s -> Rabs (fst (vi_fill s N u cst acc p) i) <= lim s.
Proof.
  intros HP HW H. unfold vi_fill. destruct acc as [ft df]. destruct p as [[c c'] [fps dfps]]. destruct (Nat.ltb _ _); [|exact H]. cbv zeta. cbn [fst] in *. destruct (_ && _)%bool; [|exact H].
  apply (sum_bound s (fun k => if Rleb (Rabs (u i - u (c + 1 - 1)%nat + fps k)) (iw_phi s k) then u i - u (c + 1 - 1)%nat + fps k else iw_phi s k * Rsign (u i - u (c + 1 - 1)%nat + fps k)) HW).
  intros k Hk. destruct (Rleb _ _) eqn:E; [apply Rleb_true in E; exact E|]. apply Rleb_false in E. rewrite Rmult_comm, slip_sign by (try apply HP; assumption). apply clamp_abs. apply HP. exact Hk.
Qed.

Lemma vector_inv s N u cst u0 s' ft df : phi_ok s -> w_ok s -> vector_iwan_local_force_history s N u cst u0 = Ok (s', ft, df) ->
  iw_same s s' /\ fs_ok s' /\ forall k, Rabs (ft k) <= lim s.
Proof.
  intros HP HW. unfold vector_iwan_local_force_history. destruct (local_force_history iw_step_crit _ _ _ _ _ _) as [[s1 os]|] eqn:E; [|discriminate]. cbn [bind].
  destruct (hist_inv iw_step_crit crit_inv s u0 _ _ _ _ _ _ HP HW E) as (A & F & B).
  set (l := combine _ _). set (a0 := (vj_scatter (vj_crit N u) (map fst os) (fun _ => 0), vj_scatter (vj_crit N u) (map (fun o => fst (snd o)) os) (fun _ _ => 0))).
  assert (L0 : 0 <= lim s).
  { unfold lim, bank_limit. apply rsum_nonneg. intros i Hi. apply Rmult_le_pos; [apply HW|apply HP]; exact Hi. }
  assert (H0 : forall k, Rabs (fst a0 k) <= lim s).
  { intros k. unfold a0. cbn [fst]. apply (scatter_keep (fun x => Rabs x <= lim s)); [rewrite Rabs_R0; exact L0|]. apply Forall_forall. intros x Hx. apply in_map_iff in Hx. destruct Hx as [o [<- Ho]].
    rewrite Forall_forall in B. apply B. exact Ho. }
  assert (G : forall l a, (forall k, Rabs (fst a k) <= lim s) -> forall k, Rabs (fst (fold_left (vi_fill s N u cst) l a) k) <= lim s).
  { clear -HP HW. induction l as [|p l IH]; intros a Ha; [exact Ha|]. cbn [fold_left]. apply IH. intros k. apply fill_bound; auto. }
  specialize (G l a0 H0). destruct (fold_left (vi_fill s N u cst) l a0) as [ft' df']. intros E'. injection E' as <- <- <-. split; [exact A|]. split; [exact F|]. exact G.
Qed.

Definition good (s : iwan) : Prop := phi_ok s /\ w_ok s /\ fs_ok s.

Lemma icall_inv s c : good s -> let '(s', r) := icall_exec s c in iw_same s s' /\ good s' /\ forall f, In f (iforces_of r) -> Rabs f <= lim s.
Proof.
  intros (HP & HW & HF).
  assert (K : forall s', iw_same s s' -> fs_ok s' -> iw_same s s' /\ good s').
  { intros s' A F. destruct (iw_same_ok _ _ A) as (P1 & W1 & L1). split; [exact A|]. split; auto. }
  assert (Z : forall i, (i < iw_n s)%nat -> Rabs (vzero i) <= iw_phi s i) by (intros i Hi; unfold vzero; rewrite Rabs_R0; apply HP; exact Hi).
  assert (KH : forall u0, iw_same s (iw_init_history_harmonic s u0) /\ good (iw_init_history_harmonic s u0)).
  { intros u0. apply K; [repeat split|exact Z]. }
  destruct c; cbn [icall_exec].
  - destruct (K (iw_init_history s)) as [A B]; [repeat split|exact Z|]. split; [exact A|]. split; [exact B|]. simpl; tauto.
  - destruct (KH unlth0) as [A B]. split; [exact A|]. split; [exact B|]. simpl; tauto.
  - unfold iw_force. pose proof (instant_inv s unl update_hist HP HW HF) as I. cbv zeta in I. destruct (iw_instant_force s unl update_hist) as [s1 [[f d] st]]. cbn [fst snd] in I. destruct I as (I1 & I2 & I3).
    destruct (K s1 I1 I2) as [A B]. split; [exact A|]. split; [exact B|]. simpl. intros f' [<-|[]]. exact I3.
  - pose proof (instant_inv s unl update_prev HP HW HF) as I. cbv zeta in I. destruct (iw_instant_force s unl update_prev) as [s1 [[f d] st]]. cbn [fst snd] in I. destruct I as (I1 & I2 & I3).
    destruct (K s1 I1 I2) as [A B]. split; [exact A|]. split; [exact B|]. simpl. intros f' [<-|[]]. exact I3.
  - destruct (iw_instant_force_harmonic s unl cst update_prev) as [[s1 o]|] eqn:E.
    + destruct (harmonic_inv _ _ _ _ _ _ HP HW HF E) as (I1 & I2 & I3). destruct (K s1 I1 I2) as [A B]. split; [exact A|]. split; [exact B|]. simpl. intros f' [<-|[]]. exact I3.
    + pose proof (instant_inv s unl update_prev HP HW HF) as I. cbv zeta in I. destruct I as (I1 & I2 & _). destruct (K _ I1 I2) as [A B]. split; [exact A|]. split; [exact B|]. simpl; tauto.
  - destruct (iwan_local_force_history s rows unlth0 max_repeats atol rtol) as [[s1 os]|] eqn:E.
    + destruct (hist_inv iw_step (fun s x s' o P W F => harmonic_inv s (fst x) (snd x) true s' o P W F) s unlth0 _ _ _ _ _ _ HP HW E) as (I1 & I2 & I3). destruct (K s1 I1 I2) as [A B]. split; [exact A|]. split; [exact B|].
      simpl. intros f Hf. apply in_map_iff in Hf. destruct Hf as [o [<- Ho]]. rewrite Forall_forall in I3. auto.
    + destruct (KH unlth0) as [A B]. split; [exact A|]. split; [exact B|]. simpl; tauto.
  - destruct (vector_iwan_local_force_history s Nt u cst unlth0) as [[[s1 ft] df]|] eqn:E.
    + destruct (vector_inv _ _ _ _ _ _ _ _ HP HW E) as (I1 & I2 & I3). destruct (K s1 I1 I2) as [A B]. split; [exact A|]. split; [exact B|].
      simpl. intros f Hf. rewrite map_map in Hf. apply in_map_iff in Hf. destruct Hf as [k [<- Hk]]. apply I3.
    + destruct (KH unlth0) as [A B]. split; [exact A|]. split; [exact B|]. simpl; tauto.
Qed.

Lemma icalls_inv cs : forall s, good s -> iw_same s (fst (icalls_exec s cs)) /\ good (fst (icalls_exec s cs)) /\ forall r f, In r (snd (icalls_exec s cs)) -> In f (iforces_of r) -> Rabs f <= lim s.
Proof.
  induction cs as [|c cs IH]; intros s G; cbn [icalls_exec]; [split; [repeat split|split; [exact G|simpl; tauto]]|].
  pose proof (icall_inv s c G) as I. destruct (icall_exec s c) as [s1 r1]. destruct I as (A & G1 & B1). destruct (IH s1 G1) as (A2 & G2 & B2). destruct (icalls_exec s1 cs) as [s2 rs]. cbn [fst snd] in *.
  split; [eapply iw_same_trans; eauto|]. split; [exact G2|]. intros r f [<-|Hr] Hf; [auto|]. destruct (iw_same_ok _ _ A) as (_ & _ & L). rewrite <- L. eapply B2; eauto.
Qed.

(** ---- static calls ---- *)
Definition on_track (s : iwan) (us : list R) : Prop := iw_up s = last us 0 /\ forall i, (i < iw_n s)%nat -> iw_fs s i = force_after 1 (iw_phi s i) us.

Lemma instant_track s us u b : phi_ok s -> on_track s us ->
  let s' := fst (iw_instant_force s u b) in
  on_track s' (if b then us ++ [u] else us) /\ iw_same s s' /\
  fst (fst (snd (iw_instant_force s u b))) = bank_after (iw_n s) (iw_w s) (iw_phi s) (us ++ [u]).
Proof.
  intros HP [Hu Hf].
  assert (SL : forall i, (i < iw_n s)%nat -> fst (iw_slider (iw_phi s i) (iw_up s) (iw_fs s i) u) = force_after 1 (iw_phi s i) (us ++ [u])).
  { intros i Hi. destruct (iw_slider_clamp (iw_phi s i) (iw_up s) (iw_fs s i) u (HP i Hi)) as [-> _]. rewrite force_after_snoc, Hu, Hf by exact Hi. reflexivity. }
  unfold iw_instant_force. cbn [fst snd]. split; [|split; [destruct b; repeat split|]].
  - destruct b; [|split; assumption]. split; [cbn; rewrite last_last; reflexivity|exact SL].
  - unfold bank_after. apply rsum_ext. intros i Hi. rewrite SL by exact Hi. ring.
Qed.

Lemma static_track cs : forall s us, phi_ok s -> on_track s us -> forallb istatic_call cs = true ->
  let s' := fst (icalls_exec s cs) in
  let us' := fold_left (fun us c => match c with
                         | IInitHistory => []
                         | IForce u true | IInstantForce u true => us ++ [u]
                         | _ => us
                         end) cs us in
  on_track s' us' /\ iw_same s s'.
Proof.
  induction cs as [|c cs IH]; intros s us HP T H; [split; [exact T|repeat split]|]. simpl in H. apply andb_true_iff in H. destruct H as [Hc Hcs]. cbn [icalls_exec fold_left].
  assert (STEP : forall s1 r us1, iw_same s s1 -> on_track s1 us1 ->
     let s' := fst (let '(s2, rs) := icalls_exec s1 cs in (s2, r :: rs)) in
     let us' := fold_left (fun us c => match c with
                         | IInitHistory => []
                         | IForce u true | IInstantForce u true => us ++ [u]
                         | _ => us
                         end) cs us1 in on_track s' us' /\ iw_same s s').
  { intros s1 r us1 A T1. destruct (iw_same_ok _ _ A) as (P1 & _). destruct (IH s1 us1 (P1 HP) T1 Hcs) as [A1 A2]. destruct (icalls_exec s1 cs) as [s2 rs]. cbn [fst] in *. split; [exact A1|]. eapply iw_same_trans; eauto. }
  destruct c; try discriminate; cbn [icall_exec].
  - apply (STEP (iw_init_history s) IRNone []); [repeat split|]. split; [reflexivity|]. intros i _. reflexivity.
  - unfold iw_force. pose proof (instant_track s us unl update_hist HP T) as I. cbv zeta in I. destruct (iw_instant_force s unl update_hist) as [s1 [[f d] st]]. cbn [fst snd] in I. destruct I as (I1 & I2 & _).
    replace (if update_hist then us ++ [unl] else us) with (match update_hist with true => us ++ [unl] | false => us end) in I1 by reflexivity. apply STEP; assumption.
  - pose proof (instant_track s us unl update_prev HP T) as I. cbv zeta in I. destruct (iw_instant_force s unl update_prev) as [s1 [[f d] st]]. cbn [fst snd] in I. destruct I as (I1 & I2 & _). apply STEP; assumption.
Qed.

Lemma static_iwan_force s cs u b : phi_ok s -> iw_up s = 0 -> (forall i, iw_fs s i = 0) -> forallb istatic_call cs = true ->
  iforces_of (snd (icall_exec (fst (icalls_exec s cs)) (IForce u b))) = [bank_after (iw_n s) (iw_w s) (iw_phi s) (irecorded cs ++ [u])].
Proof.
  intros HP Hu Hf Hc. destruct (static_track cs s [] HP) as [T A]; [split; [exact Hu|intros i _; apply Hf]|exact Hc|]. cbv zeta in T, A. fold (irecorded cs) in T.
  destruct (iw_same_ok _ _ A) as (P1 & _). set (s1 := fst (icalls_exec s cs)) in *. pose proof (instant_track s1 (irecorded cs) u b (P1 HP) T) as I. cbv zeta in I.
  cbn [icall_exec]. unfold iw_force. destruct (iw_instant_force s1 u b) as [s2 [[f d] st]]. cbn [fst snd iforces_of map] in *. destruct I as (_ & _ & ->). destruct A as (-> & -> & ->). reflexivity.
Qed.

Lemma icalls_app s a b : icalls_exec s (a ++ b) = let '(s1, ra) := icalls_exec s a in let '(s2, rb) := icalls_exec s1 b in (s2, ra ++ rb).
Proof.
  revert s. induction a as [|c a IH]; intros s; cbn [app icalls_exec]; [destruct (icalls_exec s b); reflexivity|].
  destruct (icall_exec s c) as [s1 r]. rewrite IH. destruct (icalls_exec s1 a) as [s2 ra]. destruct (icalls_exec s2 b). reflexivity.
Qed.

Lemma icalls_skip s before c after : inon_updating c ->
  exists r, snd (icalls_exec s (before ++ c :: after)) = firstn (length before) (snd (icalls_exec s (before ++ after))) ++ r :: skipn (length before) (snd (icalls_exec s (before ++ after))).
Proof.
  intros Hn. rewrite !icalls_app. destruct (icalls_exec s before) as [s1 ra] eqn:Ea.
  assert (L : length ra = length before).
  { revert s s1 ra Ea. induction before as [|b before IH]; intros s s1 ra Ea; cbn in Ea; [injection Ea as _ <-; reflexivity|].
    destruct (icall_exec s b) as [s' r]. destruct (icalls_exec s' before) as [s'' rs] eqn:E'. injection Ea as _ <-. simpl. f_equal. eapply IH; eauto. }
  cbn [icalls_exec]. assert (Hs : fst (icall_exec s1 c) = s1). { destruct c; try (destruct Hn); destruct update_hist || destruct update_prev; try (destruct Hn); reflexivity. }
  destruct (icall_exec s1 c) as [s1' r]. simpl in Hs. subst s1'. destruct (icalls_exec s1 after) as [s2 rb]. simpl. exists r. rewrite <- L, firstn_app, skipn_app, Nat.sub_diag, firstn_all, skipn_all. simpl. rewrite app_nil_r. reflexivity.
Qed.

(** ---- energy ---- *)
Lemma bank_energy n w phi u u0 m : (forall i, (i < n)%nat -> 0 <= w i) -> (forall i, (i < n)%nat -> 0 <= phi i) ->
  let f := bank_law n w phi u u0 in
  let energy := fun k => rsum n (fun i => w i * (jenkins_law 1 (phi i) u u0 k * jenkins_law 1 (phi i) u u0 k) / 2) in
  energy m - energy O <= rsum m (fun k => f (S k) * (u (S k) - u k)).
Proof.
  intros Hw HP f energy. unfold energy, f, bank_law. rewrite <- rsum_minus.
  rewrite (rsum_ext m _ (fun k => rsum n (fun i => w i * (jenkins_law 1 (phi i) u u0 (S k) * (u (S k) - u k))))).
  2:{ intros k _. rewrite <- rsum_scal_r. apply rsum_ext. intros; ring. }
  rewrite rsum_swap. apply rsum_le. intros i Hi. rewrite rsum_scal_l. pose proof (slider_energy 1 (phi i) u u0 m ltac:(lra) (HP i Hi)) as E. cbv zeta in E.
  apply (Rmult_le_compat_l (w i)) in E; [|apply Hw; exact Hi]. lra.
Qed.

Lemma bank_cycle n w phi N u u0 g : (forall i, (i < n)%nat -> 0 <= w i) -> (forall i, (i < n)%nat -> 0 <= phi i) -> (0 < N)%nat ->
  steady_state N (bank_law n w phi (repeat_samples N u) u0) g -> 0 <= rsum N (fun k => g k * (u k - u ((k + N - 1) mod N)%nat)).
Proof.
  intros Hw HP HN Hs.
  pose proof (bank_steady n w phi N u u0 HN HP) as Hb. pose proof (steady_state_unique N _ _ _ Hs Hb) as Eg.
  rewrite (rsum_ext N _ (fun k => rsum n (fun i => w i * (jenkins_law 1 (phi i) (repeat_samples N u) u0 (N + k) * (u k - u ((k + N - 1) mod N)%nat))))).
  2:{ intros k Hk. rewrite Eg by exact Hk. unfold bank_law. rewrite <- rsum_scal_r. apply rsum_ext. intros; ring. }
  rewrite rsum_swap. apply rsum_nonneg. intros i Hi. rewrite rsum_scal_l. apply Rmult_le_pos; [apply Hw; exact Hi|].
  apply (steady_dissipation 1 (phi i) N u u0); [lra|apply HP; exact Hi|exact HN|]. apply jenkins_second_pass_steady; [exact HN|apply HP; exact Hi].
Qed.

(** ---- derivatives ---- *)
Section Deriv.
  Variables (s : iwan) (N nc : nat) (cst : nat -> vec).
  Hypothesis HN : (0 < N)%nat.
  Hypothesis Hnc : (0 < nc)%nat.
  Hypothesis HP : phi_ok s.
  Let sm := samples nc cst.

  Lemma bank_jacobian X n : (forall i, (i < iw_n s)%nat -> forall j, (j < S n * N)%nat -> Rabs (trial 1 (iw_phi s i) (repeat_samples N (sm X)) (X O) j) <> iw_phi s i) ->
    is_jacobian nc N (fun X k => bank_pass s N (sm X) (X O) n k) X (fun k => bank_dpass s N (sm X) cst (X O) n k).
  Proof.
    intros Hne g v t0 Hg Hd k Hk. unfold bank_pass, bank_dpass.
    eapply dlim_eq.
    - apply (dlim_rsum (iw_n s) (fun i t => pass_law 1 (iw_phi s i) N (sm (g t)) (g t O) n k * iw_w s i) t0
        (fun i => rsum nc (fun c => dpass_law 1 (iw_phi s i) N (sm X) cst (X O) n k c * v c) * iw_w s i)).
      intros i Hi. pose proof (pass_jacobian 1 (iw_phi s i) N nc cst HN Hnc (HP i Hi) X n (Hne i Hi) g v t0 Hg Hd k Hk) as J. cbv beta in J.
      exact (dlim_scal_r (iw_w s i) _ _ _ J).
    - rewrite (rsum_ext (iw_n s) _ (fun i => rsum nc (fun c => dpass_law 1 (iw_phi s i) N (sm X) cst (X O) n k c * iw_w s i * v c))).
      2:{ intros i _. rewrite <- rsum_scal_r. apply rsum_ext. intros; ring. }
      rewrite rsum_swap. apply rsum_ext. intros c _. rewrite <- rsum_scal_r. reflexivity.
  Qed.

  Lemma bank_no_local X p : (p < N)%nat -> (forall i, (i < iw_n s)%nat -> forall j, (j < N)%nat -> Rabs (trial 1 (iw_phi s i) (repeat_samples N (sm X)) (X O) j) <> iw_phi s i) ->
    Rabs (bank_pass s N (sm X) (X O) 0 p) <> default_tol ->
    forall (g : R -> vec) (v : vec) (t0 : R), (forall j, (j < nc)%nat -> g t0 j = X j) -> (forall j, (j < nc)%nat -> derivable_pt_lim (fun t => g t j) t0 (v j)) ->
    exists d, 0 < d /\ forall t, Rabs (t - t0) < d -> pass_no (bank_pass s N (sm (g t)) (g t O) 0 p) = pass_no (bank_pass s N (sm X) (X O) 0 p).
  Proof.
    intros Hp Hne Htol g v t0 Hg Hd. pose proof (bank_jacobian X 0) as J. specialize (J ltac:(intros i Hi j Hj; apply Hne; [exact Hi|lia]) g v t0 Hg Hd p Hp). cbv beta in J.
    assert (E0 : bank_pass s N (sm (g t0)) (g t0 O) 0 p = bank_pass s N (sm X) (X O) 0 p).
    { rewrite Hg by exact Hnc. unfold bank_pass. apply rsum_ext. intros i _. f_equal. unfold pass_law. apply slider_ext. intros j Hj. unfold repeat_samples, sm, samples. apply rsum_ext. intros c Hc. rewrite Hg by exact Hc. reflexivity. }
    set (f0 := bank_pass s N (sm X) (X O) 0 p) in *. destruct (dlim_cont _ _ _ J (Rabs (Rabs f0 - default_tol))) as [d [Hdp Hc]]; [apply Rabs_pos_lt; lra|].
    exists d. split; [exact Hdp|]. intros t Ht. specialize (Hc t Ht). rewrite E0 in Hc. unfold pass_no. set (f := bank_pass s N (sm (g t)) (g t O) 0 p) in *. pose proof (Rabs_triang_inv2 f f0) as T.
    destruct (Rltb default_tol (Rabs f0)) eqn:E.
    - apply Rltb_true in E. replace (Rltb default_tol (Rabs f)) with true; [reflexivity|]. symmetry. apply Rltb_true. rewrite (Rabs_right (Rabs f0 - default_tol)) in Hc by lra.
      assert (T' : Rabs (Rabs f - Rabs f0) < Rabs f0 - default_tol) by lra. apply Rabs_def2 in T'. lra.
    - apply Rltb_false in E. replace (Rltb default_tol (Rabs f)) with false; [reflexivity|]. symmetry. apply Rltb_false. rewrite (Rabs_left (Rabs f0 - default_tol)) in Hc by lra.
      assert (T' : Rabs (Rabs f - Rabs f0) < - (Rabs f0 - default_tol)) by lra. apply Rabs_def2 in T'. lra.
  Qed.

  Lemma bank_returned_jacobian X p : (p < N)%nat -> (forall i, (i < iw_n s)%nat -> forall j, (j < 2 * N)%nat -> Rabs (trial 1 (iw_phi s i) (repeat_samples N (sm X)) (X O) j) <> iw_phi s i) ->
    Rabs (bank_pass s N (sm X) (X O) 0 p) <> default_tol ->
    is_jacobian nc N (fun X k => bank_pass s N (sm X) (X O) (pass_no (bank_pass s N (sm X) (X O) 0 p)) k) X
      (fun k => bank_dpass s N (sm X) cst (X O) (pass_no (bank_pass s N (sm X) (X O) 0 p)) k).
  Proof.
    intros Hp Hne Htol g v t0 Hg Hd k Hk. destruct (bank_no_local X p Hp) with (g := g) (v := v) (t0 := t0) as [d [Hdp Hloc]]; auto.
    { intros i Hi j Hj. apply Hne; [exact Hi|lia]. }
    set (n := pass_no (bank_pass s N (sm X) (X O) 0 p)) in *. apply dlim_ext_loc with (fun t => bank_pass s N (sm (g t)) (g t O) n k).
    - exists d. split; [exact Hdp|]. intros t Ht. rewrite Hloc by exact Ht. reflexivity.
    - apply (bank_jacobian X n); auto. intros i Hi j Hj. apply Hne; [exact Hi|]. assert (n <= 1)%nat by (unfold n, pass_no; destruct (Rltb _ _); lia). nia.
  Qed.
End Deriv.

Lemma iwan_history_jacobian s N nc (cst : nat -> vec) X : (0 < N)%nat -> (0 < nc)%nat -> phi_ok s ->
  let hist := fun X : vec => iwan_local_force_history s (rows N (fun j => rsum nc (fun c => cst j c * X c)) cst) (X O) 2 default_tol default_tol in
  let u := repeat_samples N (fun j => rsum nc (fun c => cst j c * X c)) in
  (forall i, (i < iw_n s)%nat -> forall j, (j < 2 * N)%nat -> Rabs (trial 1 (iw_phi s i) u (X O) j) <> iw_phi s i) ->
  Rabs (bank_law (iw_n s) (iw_w s) (iw_phi s) u (X O) (N - 1)) <> default_tol ->
  is_jacobian nc N (fun X k => iforces_at (hist X) k) X (fun k c => iderivs_at (hist X) k c).
Proof.
  intros HN Hnc HP hist u Hne Htol.
  assert (Htol' : Rabs (bank_pass s N (samples nc cst X) (X O) 0 (N - 1)) <> default_tol) by (rewrite bank_pass_law; exact Htol).
  pose proof (bank_returned_jacobian s N nc cst HN Hnc HP X (N - 1) ltac:(lia) Hne Htol') as J. intros g v t0 Hg Hd k Hk. specialize (J g v t0 Hg Hd k Hk).
  eapply dlim_ext; [|eapply dlim_eq; [exact J|]].
  - intros t. cbv beta. symmetry. destruct (iwan_history_default s N (samples nc cst (g t)) cst (g t O) HN HP) as (s' & os & E & _ & _ & V). unfold hist. unfold samples in E. rewrite E. apply (V k Hk).
  - apply rsum_ext. intros c Hc. f_equal. symmetry. destruct (iwan_history_default s N (samples nc cst X) cst (X O) HN HP) as (s' & os & E & _ & _ & V). unfold hist. unfold samples in E. rewrite E. apply (V k Hk).
Qed.
