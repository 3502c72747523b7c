(** Lemmas behind Props/HysteresisProps.v that combine the earlier files, and the witnesses of the
    refuted claims. *)
From Coq Require Import Reals Lra Lia Arith List Bool.
From Verif.Lib Require Import RSum Calc Py.
From Verif.Spec Require Import Slider Calculus JenkinsCalls.
From Verif.Model Require Import Jenkins VectorJenkins JenkinsOps.
From Verif.Proofs Require Import SliderP JenkinsP JenkinsOpsP VectorJenkinsP JenkinsDerivP.
Import ListNotations.
Open Scope R_scope.

(** ---- C16: the returned forces follow the slider law ---- *)
Lemma force_seq kt Fs us : forall s um x,
  0 <= Fs -> j_kt s = kt -> j_Fs s = Fs -> j_hist s = Some (um, x) ->
  map forces_of (snd (jcalls_exec s (map (fun u => CForce u true) us)))
  = map (fun f => [f]) (jforces kt Fs um x us).
Proof.
  induction us as [|u us IH]; intros s um x H0 Hk HF Hh; [reflexivity|].
  cbn [map jcalls_exec jcall_exec jforces]. unfold j_force. rewrite Hh, Hk, HF.
  pose proof (j_law_clamp kt Fs um x u H0) as L.
  destruct (j_law kt Fs um x u) as [[[f a] b] c]. cbn [j_f] in L.
  specialize (IH (j_update_history s u f) u f H0 Hk HF eq_refl).
  destruct (jcalls_exec (j_update_history s u f) (map (fun u => CForce u true) us)) as [s2 rs].
  cbn [snd map forces_of fst] in *. rewrite IH.
  cbv zeta. rewrite <- L. reflexivity.
Qed.

(** states with the same friction parameters and the same force history (up, fp) *)
Definition same_force_state (s s' : jenkins) : Prop := same_params s s' /\ j_hist s = j_hist s'.

Lemma static_call_same c s s' :
  static_call c = true -> same_force_state s s' ->
  same_force_state (fst (jcall_exec s c)) (fst (jcall_exec s' c)) /\
  snd (jcall_exec s c) = snd (jcall_exec s' c).
Proof.
  intros Hc [(Hk & HF & Hp & Hr) Hh]. destruct c; try discriminate; cbn [jcall_exec].
  - repeat split; auto.
  - unfold j_force. rewrite <- Hh, Hk, HF. destruct (j_hist s) as [[up fp]|] eqn:E.
    + destruct (j_law _ _ _ _ _) as [[[f a] b] c]. destruct update_hist; repeat split; cbn; auto; congruence.
    + repeat split; cbn; auto; congruence.
  - unfold j_instant_force. rewrite <- Hh, Hk, HF. destruct (j_hist s) as [[up fp]|] eqn:E.
    + destruct (j_law _ _ _ _ _) as [[[f a] b] c]. cbn [j_f].
      destruct update_prev; repeat split; cbn; auto; congruence.
    + repeat split; cbn; auto; congruence.
  - repeat split; cbn; auto.
  - repeat split; cbn; auto.
Qed.

Lemma static_calls_same cs : forall s s',
  forallb static_call cs = true -> same_force_state s s' ->
  snd (jcalls_exec s cs) = snd (jcalls_exec s' cs).
Proof.
  induction cs as [|c cs IH]; intros s s' Hc Hs; [reflexivity|].
  simpl in Hc. apply andb_true_iff in Hc. destruct Hc as [Hc Hcs].
  destruct (static_call_same c s s' Hc Hs) as [Hs1 E]. cbn [jcalls_exec].
  destruct (jcall_exec s c) as [s1 r1], (jcall_exec s' c) as [s1' r1']. cbn [fst snd] in *.
  specialize (IH s1 s1' Hcs Hs1).
  destruct (jcalls_exec s1 cs), (jcalls_exec s1' cs). cbn [snd] in *. congruence.
Qed.

Lemma snd_app s a b :
  snd (jcalls_exec s (a ++ b)) = snd (jcalls_exec s a) ++ snd (jcalls_exec (fst (jcalls_exec s a)) b).
Proof.
  rewrite jcalls_app. destruct (jcalls_exec s a) as [s1 ra]. cbn [fst snd].
  destruct (jcalls_exec s1 b). reflexivity.
Qed.

Lemma jcalls_length cs : forall s, length (snd (jcalls_exec s cs)) = length cs.
Proof.
  induction cs as [|c cs IH]; intros s; [reflexivity|]. cbn [jcalls_exec].
  destruct (jcall_exec s c) as [s1 r]. specialize (IH s1).
  destruct (jcalls_exec s1 cs). cbn [snd length] in *. congruence.
Qed.

Lemma skipn_snd_app s a b :
  skipn (length a) (snd (jcalls_exec s (a ++ b))) = snd (jcalls_exec (fst (jcalls_exec s a)) b).
Proof.
  rewrite snd_app. rewrite <- (jcalls_length a s). rewrite skipn_app, skipn_all, Nat.sub_diag.
  reflexivity.
Qed.

(** after init_history the static results do not depend on what was evaluated before *)
Lemma static_after_init kt Fs before after :
  0 <= Fs ->
  forallb (fun c => negb (is_switch c)) before = true ->
  forallb static_call after = true ->
  skipn (length before) (snd (jcalls_exec (j_new kt Fs) (before ++ CInitHistory :: after)))
  = snd (jcalls_exec (j_new kt Fs) (CInitHistory :: after)).
Proof.
  intros H0 Hb Ha. rewrite skipn_snd_app.
  assert (P : same_params (j_new kt Fs) (fst (jcalls_exec (j_new kt Fs) before)))
    by (apply jcalls_params; auto).
  set (s := fst (jcalls_exec (j_new kt Fs) before)) in *.
  cbn [jcalls_exec jcall_exec].
  pose proof (static_calls_same after (j_init_history s) (j_init_history (j_new kt Fs)) Ha) as E.
  destruct (jcalls_exec (j_init_history s) after), (jcalls_exec (j_init_history (j_new kt Fs)) after).
  cbn [snd] in *. rewrite E; [reflexivity|].
  destruct P as (A & B & C & D). repeat split; cbn; auto.
Qed.

(** switching to the prestress friction and straight back leaves the element as it was *)
Lemma prestress_roundtrip kt Fs before :
  0 <= Fs -> forallb (fun c => negb (is_switch c)) before = true ->
  fst (jcalls_exec (j_new kt Fs) (before ++ [CSetPrestressMu; CResetRealMu])) = fst (jcalls_exec (j_new kt Fs) before).
Proof.
  intros H0 Hb. assert (P : same_params (j_new kt Fs) (fst (jcalls_exec (j_new kt Fs) before)))
    by (apply jcalls_params; auto).
  rewrite jcalls_app. destruct (jcalls_exec (j_new kt Fs) before) as [s1 ra]. cbn [fst] in *.
  cbn [jcalls_exec jcall_exec fst]. destruct P as (A & B & C & D). cbn in A, B, C, D.
  destruct s1 as [k f p r h d]. cbn in *. subst. reflexivity.
Qed.

(** and what follows returns the same results *)
Lemma prestress_roundtrip_results kt Fs before after :
  0 <= Fs -> forallb (fun c => negb (is_switch c)) before = true ->
  skipn (length before + 2) (snd (jcalls_exec (j_new kt Fs) (before ++ CSetPrestressMu :: CResetRealMu :: after)))
  = skipn (length before) (snd (jcalls_exec (j_new kt Fs) (before ++ after))).
Proof.
  intros H0 Hb. replace (length before + 2)%nat with (length (before ++ [CSetPrestressMu; CResetRealMu])) by (rewrite app_length; reflexivity).
  change (before ++ CSetPrestressMu :: CResetRealMu :: after) with (before ++ [CSetPrestressMu; CResetRealMu] ++ after).
  rewrite app_assoc, !skipn_snd_app, prestress_roundtrip by assumption. reflexivity.
Qed.

(** ---- evaluation of concrete instances ---- *)
Lemma Rltb_lt a b : a < b -> Rltb a b = true. Proof. apply Rltb_true. Qed.
Lemma Rltb_ge a b : b <= a -> Rltb a b = false. Proof. apply Rltb_false. Qed.

(** ---- C20 ---- *)
Lemma same_direction_sign a b : same_direction a b <-> Rsign a = Rsign b.
Proof.
  unfold same_direction, Rsign.
  destruct (Rlt_dec 0 a), (Rlt_dec 0 b); try destruct (Rlt_dec a 0); try destruct (Rlt_dec b 0);
    split; intros; try lra; try (left; lra); try (right; left; lra); try (right; right; lra).
Qed.

Lemma vs_reverses N u i : (0 < i)%nat -> vj_vector_set N u i = true <-> ~ reverses N u i.
Proof.
  intros Hi. unfold vj_vector_set, reverses, vj_dup, vj_dun.
  destruct (Nat.eqb_spec i 0); [lia|]. rewrite Reqb_true, <- same_direction_sign.
  split; [tauto|]. intros H. unfold same_direction in *.
  destruct (Rtotal_order (u i - u ((i + N - 1) mod N)%nat) 0) as [A|[A|A]];
  destruct (Rtotal_order (u ((i + 1) mod N)%nat - u i) 0) as [B|[B|B]];
    try tauto; exfalso; apply H; lra.
Qed.

Lemma last_crit_unique N u c :
  (0 < N)%nat -> last_reversal N u c -> last (vj_crit N u) O = c.
Proof.
  intros HN (Hc & Hr & Ha). destruct (crit_chain N u HN) as [cs [Ec Hch]].
  destruct (chain_nth N u HN cs O Hch) as [A [B C]].
  rewrite Ec, last_nth. replace (length (O :: cs) - 1)%nat with (length cs) by (simpl; lia).
  set (d := nth (length cs) (O :: cs) O) in *.
  assert (Hd : In d (vj_crit N u)) by (rewrite Ec; apply nth_In; simpl; lia).
  unfold vj_crit in Hd. apply filter_In in Hd. destruct Hd as [HdN Hd].
  apply in_seq in HdN. apply negb_true_iff in Hd.
  destruct (Nat.lt_total d c) as [L|[E|L]]; [|exact E|].
  - exfalso. specialize (C c ltac:(lia)). destruct Hr as [->|Hr]; [lia|].
    apply vs_reverses in C; [tauto|lia].
  - exfalso. specialize (Ha d ltac:(lia)).
    apply (vs_reverses N u d ltac:(lia)) in Ha. congruence.
Qed.

Lemma vector_history_default s N u cst u0 c :
  (0 < N)%nat -> 0 <= j_Fs s -> last_reversal N u c ->
  exists s' ft dfduh,
    vector_jenkins_local_force_history s N u cst u0 = Ok (s', ft, dfduh) /\ same_params s s' /\
    let n := pass_no (pass_law (j_kt s) (j_Fs s) N u u0 0 c) in
    forall k, (k < N)%nat ->
      ft k = pass_law (j_kt s) (j_Fs s) N u u0 n k /\
      forall i, dfduh k i = dpass_law (j_kt s) (j_Fs s) N u cst u0 n k i.
Proof.
  intros HN H0 Hc.
  destruct (vector_history_spec s N u cst u0 HN H0) as (s' & ft & df & c' & E & P & Ec & Hv).
  exists s', ft, df. split; [exact E|]. split; [exact P|].
  rewrite (last_crit_unique N u c HN Hc) in Ec. subst c'. cbv zeta in *.
  rewrite not_converged_default_iff in Hv. exact Hv.
Qed.

Lemma vector_equals_jenkins s N u cst u0 c :
  (0 < N)%nat -> 0 <= j_Fs s -> last_reversal N u c ->
  let f0 := jenkins_law (j_kt s) (j_Fs s) (repeat_samples N u) u0 in
  (default_tol < Rabs (f0 (N - 1)%nat) <-> default_tol < Rabs (f0 c)) ->
  exists s1 os s2 ft dfduh,
    jenkins_local_force_history s (rows N u cst) u0 2 default_tol default_tol = Ok (s1, os) /\
    vector_jenkins_local_force_history s N u cst u0 = Ok (s2, ft, dfduh) /\
    length os = N /\
    forall k, (k < N)%nat ->
      ft k = nth k (map fst os) 0 /\
      forall i, dfduh k i = nth k (map snd os) (fun _ => 0) i.
Proof.
  intros HN H0 Hc f0 Hiff.
  destruct (jenkins_history_default s N u cst u0 HN H0) as [(s1 & os & E1 & L1 & _) V1].
  destruct (vector_history_default s N u cst u0 c HN H0 Hc) as (s2 & ft & df & E2 & _ & V2).
  exists s1, os, s2, ft, df. split; [exact E1|]. split; [exact E2|]. split; [exact L1|].
  cbv zeta in V1, V2. rewrite E1 in V1. cbn [forces_at derivs_at] in V1.
  assert (En : pass_no (pass_law (j_kt s) (j_Fs s) N u u0 0 (N - 1))
             = pass_no (pass_law (j_kt s) (j_Fs s) N u u0 0 c)).
  { unfold pass_no, pass_law. cbn [Nat.mul Nat.add]. fold (f0 (N - 1)%nat) (f0 c).
    destruct (Rltb default_tol (Rabs (f0 (N - 1)%nat))) eqn:A,
             (Rltb default_tol (Rabs (f0 c))) eqn:B; try reflexivity; exfalso;
      rewrite ?Rltb_true, ?Rltb_false in A; rewrite ?Rltb_true, ?Rltb_false in B; lra. }
  rewrite En in V1. intros k Hk. destruct (V1 k Hk) as [A B], (V2 k Hk) as [C D].
  split; [congruence|]. intros i. rewrite B, D. reflexivity.
Qed.

(** ---- the witness of early stopping ---- *)
Definition wit_u (k : nat) : R :=
  match k with 0 => / 2 | 1 => 7 / 2 | 2 => - (5 / 2) | _ => - (3 / 2) end.

Lemma wit_pass :
  let f := jenkins_law 1 1 (repeat_samples 4 wit_u) 0 in
  f 0%nat = / 2 /\ f 1%nat = 1 /\ f 2%nat = - 1 /\ f 3%nat = 0 /\ f 4%nat = 1 /\
  f 5%nat = 1 /\ f 6%nat = - 1 /\ f 7%nat = 0.
Proof.
  intros f.
  assert (S : forall k, f (S k) = clamp (- 1) 1 (f k + 1 * (wit_u (S k mod 4) - wit_u (k mod 4))))
    by reflexivity.
  assert (E0 : f 0%nat = / 2).
  { change (f 0%nat) with (clamp (- 1) 1 (1 * (/ 2 - 0))). minmax. }
  assert (E1 : f 1%nat = 1) by (rewrite S, E0; simpl; minmax).
  assert (E2 : f 2%nat = - 1) by (rewrite S, E1; simpl; minmax).
  assert (E3 : f 3%nat = 0) by (rewrite S, E2; simpl; minmax).
  assert (E4 : f 4%nat = 1) by (rewrite S, E3; simpl; minmax).
  assert (E5 : f 5%nat = 1) by (rewrite S, E4; simpl; minmax).
  assert (E6 : f 6%nat = - 1) by (rewrite S, E5; simpl; minmax).
  assert (E7 : f 7%nat = 0) by (rewrite S, E6; simpl; minmax).
  auto 10.
Qed.

Lemma wit_reversal : last_reversal 4 wit_u 2.
Proof.
  split; [lia|]. split.
  - right. unfold reverses, same_direction. simpl. lra.
  - intros i Hi. assert (i = 3%nat) as -> by lia. unfold reverses, same_direction. simpl. lra.
Qed.

Lemma default_tol_range : 0 < default_tol < 1.
Proof.
  unfold default_tol. split; [apply Rinv_0_lt_compat; simpl; lra|].
  rewrite <- Rinv_1. apply Rinv_lt_contravar; simpl; lra.
Qed.

Lemma wit_jenkins cst : exists s os,
  jenkins_local_force_history (j_new 1 1) (rows 4 wit_u cst) 0 2 default_tol default_tol = Ok (s, os) /\
  nth 0 (map fst os) 0 = / 2.
Proof.
  destruct (jenkins_history_default (j_new 1 1) 4 wit_u cst 0) as [(s & os & E & L & P) V];
    [lia|simpl; lra|].
  exists s, os. split; [exact E|]. cbv zeta in V. rewrite E in V. cbn [forces_at j_kt j_Fs j_new] in V.
  destruct (V 0%nat ltac:(lia)) as [A _]. rewrite A.
  destruct wit_pass as (E0 & E1 & E2 & E3 & _).
  replace (pass_no (pass_law 1 1 4 wit_u 0 0 (4 - 1))) with 0%nat; [exact E0|].
  unfold pass_no, pass_law. simpl (0 * 4 + (4 - 1))%nat. rewrite E3, Rabs_R0.
  rewrite Rltb_ge; [reflexivity|]. pose proof default_tol_range; lra.
Qed.

Lemma wit_vector cst : exists s ft df,
  vector_jenkins_local_force_history (j_new 1 1) 4 wit_u cst 0 = Ok (s, ft, df) /\ ft 0%nat = 1.
Proof.
  destruct (vector_history_default (j_new 1 1) 4 wit_u cst 0 2) as (s & ft & df & E & P & V);
    [lia|simpl; lra|apply wit_reversal|].
  exists s, ft, df. split; [exact E|]. cbv zeta in V. cbn [j_kt j_Fs j_new] in V.
  destruct (V 0%nat ltac:(lia)) as [A _]. rewrite A.
  destruct wit_pass as (E0 & E1 & E2 & E3 & E4 & _).
  replace (pass_no (pass_law 1 1 4 wit_u 0 0 2)) with 1%nat; [exact E4|].
  unfold pass_no, pass_law. simpl (0 * 4 + 2)%nat. rewrite E2.
  rewrite Rltb_lt; [reflexivity|]. pose proof default_tol_range.
  unfold Rabs. destruct (Rcase_abs (- 1)); lra.
Qed.

Lemma wit_not_steady g :
  steady_state 4 (jenkins_law 1 1 (repeat_samples 4 wit_u) 0) g -> g 0%nat = 1.
Proof.
  intros H.
  pose proof (pass_law_steady 1 1 4 wit_u 0 ltac:(lia) ltac:(lra)) as H'.
  rewrite (steady_state_unique 4 _ _ _ H H' 0 ltac:(lia)).
  unfold pass_law. apply wit_pass.
Qed.

Lemma history_steady s N u cst u0 m :
  (0 < N)%nat -> 0 <= j_Fs s -> (2 <= m)%nat ->
  default_tol < Rabs (jenkins_law (j_kt s) (j_Fs s) (repeat_samples N u) u0 (N - 1)) ->
  exists s' os,
    jenkins_local_force_history s (rows N u cst) u0 m default_tol default_tol = Ok (s', os) /\
    length os = N /\
    steady_state N (jenkins_law (j_kt s) (j_Fs s) (repeat_samples N u) u0)
      (fun k => nth k (map fst os) 0).
Proof.
  intros HN H0 Hm Htol.
  destruct (jenkins_history_spec s N u cst u0 m default_tol default_tol HN H0)
    as (s' & os & E & L & P & V); [left; pose proof default_tol_range; lra|].
  exists s', os. split; [exact E|]. split; [exact L|].
  cbv zeta in V. rewrite not_converged_default in V by exact Htol.
  replace (Nat.ltb 1 m) with true in V by (symmetry; apply Nat.ltb_lt; lia).
  cbn [andb] in V.
  destruct (pass_law_steady (j_kt s) (j_Fs s) N u u0 HN H0) as [n0 Hs].
  exists n0. intros n k Hn Hk. rewrite Hs by assumption. symmetry. apply V. exact Hk.
Qed.

(** more than two repeats change nothing *)
Lemma history_repeats s N u cst u0 m atol rtol :
  (0 < N)%nat -> 0 <= j_Fs s -> 0 <= atol \/ 0 <= rtol -> (2 <= m)%nat ->
  exists s1 os1 s2 os2,
    jenkins_local_force_history s (rows N u cst) u0 m atol rtol = Ok (s1, os1) /\
    jenkins_local_force_history s (rows N u cst) u0 2 atol rtol = Ok (s2, os2) /\
    forall k, (k < N)%nat -> nth k (map fst os1) 0 = nth k (map fst os2) 0.
Proof.
  intros HN H0 Ht Hm.
  destruct (jenkins_history_spec s N u cst u0 m atol rtol HN H0 Ht) as (s1 & os1 & E1 & L1 & P1 & V1).
  destruct (jenkins_history_spec s N u cst u0 2 atol rtol HN H0 Ht) as (s2 & os2 & E2 & L2 & P2 & V2).
  exists s1, os1, s2, os2. split; [exact E1|]. split; [exact E2|]. cbv zeta in *.
  replace (Nat.ltb 1 m) with true in V1 by (symmetry; apply Nat.ltb_lt; lia).
  intros k Hk. destruct (V1 k Hk) as [A _], (V2 k Hk) as [B _]. rewrite A, B. reflexivity.
Qed.

(** ---- every static call history ---- *)
Lemma force_after_snoc kt Fs us u :
  force_after kt Fs (us ++ [u]) = clamp (- Fs) Fs (kt * (u - last us 0) + force_after kt Fs us).
Proof.
  unfold force_after. destruct us as [|a us].
  - simpl. unfold jenkins_law. cbn [slider nth]. f_equal. ring.
  - cbn [app]. set (l := a :: us). change (a :: us ++ [u]) with (l ++ [u]).
    assert (L : (length l = S (length us))%nat) by reflexivity.
    rewrite app_length. cbn [length Nat.add]. rewrite L.
    replace (S (length us) + 1 - 1)%nat with (S (length us)) by lia.
    replace (S (length us) - 1)%nat with (length us) by lia.
    unfold jenkins_law. cbn [slider].
    rewrite (app_nth2 l [u]) by lia. rewrite L, Nat.sub_diag. cbn [nth].
    rewrite (app_nth1 l [u]) by lia.
    replace (last l 0) with (nth (length us) l 0).
    2:{ rewrite last_nth, L. f_equal. lia. }
    rewrite Rplus_comm.
    f_equal. f_equal. apply slider_ext. intros i Hi. apply app_nth1. lia.
Qed.

Lemma static_history_inv kt Fs cs : forall s us,
  0 <= Fs -> j_kt s = kt -> j_Fs s = Fs ->
  j_hist s = Some (last us 0, force_after kt Fs us) ->
  forallb (fun c => static_call c && negb (is_switch c)) cs = true ->
  let s' := fst (jcalls_exec s cs) in
  let us' := fold_left (fun us c => match c with
                         | CInitHistory => []
                         | CForce u true | CInstantForce u true => us ++ [u]
                         | _ => us
                         end) cs us in
  j_kt s' = kt /\ j_Fs s' = Fs /\ j_hist s' = Some (last us' 0, force_after kt Fs us').
Proof.
  induction cs as [|c cs IH]; intros s us H0 Hk HF Hh Hc; [simpl; auto|].
  simpl in Hc. apply andb_true_iff in Hc. destruct Hc as [Hc Hcs].
  cbn [jcalls_exec fold_left].
  assert (STEP : forall s1 us1, j_kt s1 = kt -> j_Fs s1 = Fs ->
            j_hist s1 = Some (last us1 0, force_after kt Fs us1) ->
            forall r us'',
            us1 = us'' ->
            let s' := fst (let '(s2, rs) := jcalls_exec s1 cs in (s2, r :: rs)) in
            let us' := fold_left (fun us c => match c with
                         | CInitHistory => []
                         | CForce u true | CInstantForce u true => us ++ [u]
                         | _ => us
                         end) cs us'' in
            j_kt s' = kt /\ j_Fs s' = Fs /\ j_hist s' = Some (last us' 0, force_after kt Fs us')).
  { intros s1 us1 A B C r us'' <-. specialize (IH s1 us1 H0 A B C Hcs). cbv zeta in *.
    destruct (jcalls_exec s1 cs). exact IH. }
  destruct c; try discriminate; cbn [jcall_exec].
  - apply (STEP _ []); auto.
  - unfold j_force. rewrite Hh, Hk, HF.
    pose proof (j_law_clamp kt Fs (last us 0) (force_after kt Fs us) unl H0) as L.
    destruct (j_law kt Fs (last us 0) (force_after kt Fs us) unl) as [[[f a] b] c]. cbn [j_f] in L.
    destruct update_hist; [|apply (STEP _ us); auto].
    apply (STEP _ (us ++ [unl])); auto. cbn. rewrite last_last, force_after_snoc, L. reflexivity.
  - unfold j_instant_force. rewrite Hh, Hk, HF.
    pose proof (j_law_clamp kt Fs (last us 0) (force_after kt Fs us) unl H0) as L.
    destruct (j_law kt Fs (last us 0) (force_after kt Fs us) unl) as [[[f a] b] c]. cbn [j_f] in *.
    destruct update_prev; [|apply (STEP _ us); auto].
    apply (STEP _ (us ++ [unl])); auto. cbn. rewrite last_last, force_after_snoc, L. reflexivity.
Qed.

Lemma static_history_force kt Fs cs u b :
  0 <= Fs -> forallb (fun c => static_call c && negb (is_switch c)) cs = true ->
  forces_of (snd (jcall_exec (fst (jcalls_exec (j_new kt Fs) (CInitHistory :: cs))) (CForce u b)))
  = [force_after kt Fs (recorded cs ++ [u])].
Proof.
  intros H0 Hc. cbn [jcalls_exec jcall_exec].
  pose proof (static_history_inv kt Fs cs (j_init_history (j_new kt Fs)) [] H0 eq_refl eq_refl eq_refl Hc)
    as I. cbv zeta in I. fold (recorded cs) in I.
  destruct (jcalls_exec (j_init_history (j_new kt Fs)) cs) as [s rs]. cbn [fst] in *.
  destruct I as (Hk & HF & Hh). unfold j_force. rewrite Hh, Hk, HF.
  pose proof (j_law_clamp kt Fs (last (recorded cs) 0) (force_after kt Fs (recorded cs)) u H0) as L.
  destruct (j_law kt Fs (last (recorded cs) 0) (force_after kt Fs (recorded cs)) u) as [[[f a] d] c].
  cbn [j_f snd forces_of map fst] in *. rewrite force_after_snoc, L. reflexivity.
Qed.

(** ---- C25: harmonic evaluations overwrite the static history ---- *)
Ltac rabs := unfold Rabs; repeat match goal with
  | |- context [Rcase_abs ?x] => destruct (Rcase_abs x) end; lra.
(** decide the comparisons of a concrete evaluation *)
Ltac rdec := repeat match goal with
  | |- context [Rltb ?a ?b] => first [rewrite (Rltb_lt a b) by rabs | rewrite (Rltb_ge a b) by rabs]
  end.

Lemma force_eval kt Fs up fp u b s :
  0 <= Fs -> j_kt s = kt -> j_Fs s = Fs -> j_hist s = Some (up, fp) ->
  exists d, jcall_exec s (CForce u b) =
    (if b then j_update_history s u (clamp (- Fs) Fs (kt * (u - up) + fp)) else s,
     RForces [(clamp (- Fs) Fs (kt * (u - up) + fp), d)]).
Proof.
  intros H0 Hk HF Hh. cbn [jcall_exec]. unfold j_force. rewrite Hh, Hk, HF.
  pose proof (j_law_clamp kt Fs up fp u H0) as L.
  destruct (j_law kt Fs up fp u) as [[[f a] c] d]. cbn [j_f] in L. subst f.
  exists (fun _ => a). reflexivity.
Qed.

Definition c25_static := [CInitHistory; CForce 3 true; CForce (5 / 2) false].
Definition c25_mixed :=
  [CInitHistory; CForce 3 true;
   CLocalForceHistory [(0, fun _ => 1)] 0 2 default_tol default_tol; CForce (5 / 2) false].

Lemma c25_static_force :
  forces_of (last (snd (jcalls_exec (j_new 1 1) c25_static)) RNone) = [/ 2].
Proof.
  unfold c25_static.
  change [CInitHistory; CForce 3 true; CForce (5 / 2) false]
    with ((CInitHistory :: [CForce 3 true]) ++ [CForce (5 / 2) false]).
  rewrite snd_app. cbn [jcalls_exec].
  match goal with |- context [jcall_exec ?s (CForce (5/2) false)] =>
    change s with (fst (jcalls_exec (j_new 1 1) (CInitHistory :: [CForce 3 true]))) end.
  pose proof (static_history_force 1 1 [CForce 3 true] (5 / 2) false ltac:(lra) eq_refl) as H.
  destruct (jcall_exec (fst (jcalls_exec (j_new 1 1) (CInitHistory :: [CForce 3 true])))
             (CForce (5 / 2) false)) as [s r].
  cbn [snd] in *. rewrite last_last. rewrite H. f_equal.
  change (recorded [CForce 3 true] ++ [5 / 2]) with (([] ++ [3]) ++ [5 / 2]).
  rewrite !force_after_snoc, last_last. cbn [force_after last]. minmax.
Qed.

Lemma c25_mixed_force :
  forces_of (last (snd (jcalls_exec (j_new 1 1) c25_mixed)) RNone) = [1].
Proof.
  unfold c25_mixed. cbn [jcalls_exec].
  change (jcall_exec (j_new 1 1) CInitHistory) with (j_init_history (j_new 1 1), RNone).
  destruct (force_eval 1 1 0 0 3 true (j_init_history (j_new 1 1))) as [d1 ->];
    [lra|reflexivity|reflexivity|reflexivity|].
  match goal with |- context [jcall_exec ?s (CLocalForceHistory ?r ?u ?m ?a ?b)] =>
    set (s1 := s); assert (H : exists s2 rr, jcall_exec s1 (CLocalForceHistory r u m a b) = (s2, rr) /\
       j_kt s2 = 1 /\ j_Fs s2 = 1 /\ j_hist s2 = Some (0, 0)) end.
  { cbn [jcall_exec]. unfold jenkins_local_force_history, local_force_history.
    cbn [time_loop]. unfold jenkins_step, j_instant_force_harmonic, j_instant_force.
    cbn [j_init_history_harmonic j_set_dhist j_set_hist j_hist j_kt j_Fs j_dhist fst snd].
    unfold j_law. change (j_kt s1) with 1. change (j_Fs s1) with 1. rdec.
    cbn [bind j_f j_set_hist j_dhist]. replace (2 - 1)%nat with 1%nat by reflexivity.
    unfold last_force. cbn [repeat_loop map fst last read_fp].
    assert (E : 1 * (0 - 0) + 0 = 0) by ring. rewrite E.
    replace (Rabs (0 - 0)) with 0 by (rewrite Rminus_0_r, Rabs_R0; reflexivity).
    unfold j_init_history_harmonic. cbn [j_dhist j_set_dhist bind map fst last].
    replace (Rabs (0 - 0)) with 0 by (rewrite Rminus_0_r, Rabs_R0; reflexivity).
    rewrite not_converged_zero by (left; pose proof default_tol_range; lra).
    eexists _, _. split; [reflexivity|]. repeat split. }
  destruct H as (s2 & rr & -> & Hk & HF & Hh).
  destruct (force_eval 1 1 0 0 (5 / 2) false s2) as [d2 ->]; [lra|assumption|assumption|assumption|].
  cbn. f_equal. minmax.
Qed.

(** ---- remaining statements of Props/HysteresisProps.v ---- *)
Lemma jcalls_slip_bound kt Fs : 0 <= Fs -> forall calls r f,
  In r (snd (jcalls_exec (j_new kt Fs) calls)) -> In f (forces_of r) -> Rabs f <= Fs.
Proof.
  intros H0 calls. apply (jcalls_bound Fs calls (j_new kt Fs) H0). unfold jinv; simpl; auto.
Qed.

Lemma harmonic_look_changes :
  exists kt Fs before after c,
    (exists u cst, c = CInstantForceHarmonic u cst false) /\
    last (snd (jcalls_exec (j_new kt Fs) (before ++ c :: after))) RNone
    <> last (snd (jcalls_exec (j_new kt Fs) (before ++ after))) RNone.
Proof.
  exists 1, 1, [CInitHistoryHarmonic 0], [CInstantForceHarmonic 0 (fun _ => 0) true],
    (CInstantForceHarmonic 3 (fun _ => 5) false).
  split; [eexists _, _; reflexivity|].
  cbn -[Rltb j_law]. unfold j_law. rdec. cbn -[Rltb]. unfold j_law. rdec. cbn -[Rltb].
  intros H. apply (f_equal (fun r => match r with RForces [(_, d)] => d 1%nat | _ => 0 end)) in H.
  cbn in H. lra.
Qed.

Lemma c16_case : force_after 1 1 (recorded [CForce 3 true; CForce 7 false] ++ [5 / 2]) = / 2.
Proof.
  change (recorded [CForce 3 true; CForce 7 false] ++ [5 / 2]) with (([] ++ [3]) ++ [5 / 2]).
  rewrite !force_after_snoc, last_last. cbn [force_after last]. minmax.
Qed.

Lemma slider_all_passes kt N lo hi u u0 :
  (0 < N)%nat -> (forall k, lo k <= hi k) -> periodic N lo -> periodic N hi -> periodic N u ->
  forall n k, (1 <= n)%nat -> slider kt lo hi u u0 (n * N + k) = slider kt lo hi u u0 (N + k).
Proof.
  intros HN Hl Plo Phi Pu n k Hn.
  assert (E : (k = (k / N) * N + k mod N)%nat) by (rewrite Nat.mul_comm; apply Nat.div_mod; lia).
  assert (Hm : (k mod N < N)%nat) by (apply Nat.mod_upper_bound; lia).
  rewrite E.
  replace (n * N + (k / N * N + k mod N))%nat with ((n + k / N) * N + k mod N)%nat by nia.
  replace (N + (k / N * N + k mod N))%nat with (S (k / N) * N + k mod N)%nat by nia.
  rewrite !(slider_two_pass kt N lo hi u HN) by (auto; lia). reflexivity.
Qed.

Lemma jenkins_second_pass_steady kt Fs N u u0 :
  (0 < N)%nat -> 0 <= Fs ->
  steady_state N (jenkins_law kt Fs (repeat_samples N u) u0)
    (fun k => jenkins_law kt Fs (repeat_samples N u) u0 (N + k)).
Proof.
  intros HN H0. destruct (pass_law_steady kt Fs N u u0 HN H0) as [n0 H]. exists n0.
  intros n k Hn Hk. rewrite H by assumption. unfold pass_law. f_equal. lia.
Qed.

Lemma early_stop_not_steady :
  exists kt Fs N u u0, (0 < N)%nat /\ 0 < kt /\ 0 < Fs /\ forall cst, exists s' os,
    jenkins_local_force_history (j_new kt Fs) (rows N u cst) u0 2 default_tol default_tol = Ok (s', os) /\
    ~ steady_state N (jenkins_law kt Fs (repeat_samples N u) u0) (fun k => nth k (map fst os) 0).
Proof.
  exists 1, 1, 4%nat, wit_u, 0. split; [lia|]. split; [lra|]. split; [lra|]. intros cst.
  destruct (wit_jenkins cst) as (s & os & E & V). exists s, os. split; [exact E|].
  intros H. apply wit_not_steady in H. lra.
Qed.

Lemma vector_differs :
  exists kt Fs N u u0, (0 < N)%nat /\ 0 < kt /\ 0 < Fs /\ forall cst, exists s1 os s2 ft dfduh,
    jenkins_local_force_history (j_new kt Fs) (rows N u cst) u0 2 default_tol default_tol = Ok (s1, os) /\
    vector_jenkins_local_force_history (j_new kt Fs) N u cst u0 = Ok (s2, ft, dfduh) /\
    exists k, (k < N)%nat /\ ft k <> nth k (map fst os) 0.
Proof.
  exists 1, 1, 4%nat, wit_u, 0. split; [lia|]. split; [lra|]. split; [lra|]. intros cst.
  destruct (wit_jenkins cst) as (s & os & E & V).
  destruct (wit_vector cst) as (s2 & ft & df & E2 & V2).
  exists s, os, s2, ft, df. split; [exact E|]. split; [exact E2|].
  exists 0%nat. split; [lia|]. rewrite V, V2. lra.
Qed.

Lemma last_reversal_exists N u : (0 < N)%nat -> exists c, last_reversal N u c.
Proof.
  intros HN. destruct (crit_chain N u HN) as [cs [Ec Hch]].
  destruct (chain_nth N u HN cs O Hch) as [A [B C]].
  exists (nth (length cs) (O :: cs) O). split; [apply A; lia|]. split.
  - destruct (Nat.eq_dec (nth (length cs) (O :: cs) O) 0) as [E|E]; [left; exact E|right].
    assert (Hd : In (nth (length cs) (O :: cs) O) (vj_crit N u)) by (rewrite Ec; apply nth_In; simpl; lia).
    unfold vj_crit in Hd. apply filter_In in Hd. destruct Hd as [_ Hd]. apply negb_true_iff in Hd.
    intros H. assert (vj_vector_set N u (nth (length cs) (O :: cs) O) = true); [|congruence].
    apply vs_reverses; [lia|]. intros Hr. exact (Hr H).
  - intros i Hi. apply vs_reverses; [lia|]. apply C. exact Hi.
Qed.

Lemma vector_steady s N u cst u0 c :
  (0 < N)%nat -> 0 <= j_Fs s -> last_reversal N u c ->
  default_tol < Rabs (jenkins_law (j_kt s) (j_Fs s) (repeat_samples N u) u0 c) ->
  exists s' ft dfduh,
    vector_jenkins_local_force_history s N u cst u0 = Ok (s', ft, dfduh) /\
    steady_state N (jenkins_law (j_kt s) (j_Fs s) (repeat_samples N u) u0) ft.
Proof.
  intros HN H0 Hc Ht.
  destruct (vector_history_default s N u cst u0 c HN H0 Hc) as (s' & ft & df & E & P & V).
  exists s', ft, df. split; [exact E|]. cbv zeta in V.
  replace (pass_no (pass_law (j_kt s) (j_Fs s) N u u0 0 c)) with 1%nat in V.
  2:{ unfold pass_no, pass_law. cbn [Nat.mul Nat.add]. rewrite Rltb_lt by exact Ht. reflexivity. }
  destruct (pass_law_steady (j_kt s) (j_Fs s) N u u0 HN H0) as [n0 H]. exists n0.
  intros n k Hn Hk. rewrite H by assumption. symmetry. apply V. exact Hk.
Qed.

Definition case_u (k : nat) : R :=
  match k with 0 => / 2 | 1 => 7 / 2 | 2 => - (5 / 2) | _ => - (1) end.

Lemma case_values :
  let f := jenkins_law 1 1 (repeat_samples 4 case_u) 0 in
  f 2%nat = - 1 /\ f 3%nat = / 2 /\ f 4%nat = 1 /\ f 5%nat = 1 /\ f 6%nat = - 1 /\ f 7%nat = / 2.
Proof.
  intros f.
  assert (S : forall k, f (S k) = clamp (- 1) 1 (f k + 1 * (case_u (S k mod 4) - case_u (k mod 4))))
    by reflexivity.
  assert (E0 : f 0%nat = / 2).
  { change (f 0%nat) with (clamp (- 1) 1 (1 * (/ 2 - 0))). minmax. }
  assert (E1 : f 1%nat = 1) by (rewrite S, E0; simpl; minmax).
  assert (E2 : f 2%nat = - 1) by (rewrite S, E1; simpl; minmax).
  assert (E3 : f 3%nat = / 2) by (rewrite S, E2; simpl; minmax).
  assert (E4 : f 4%nat = 1) by (rewrite S, E3; simpl; minmax).
  assert (E5 : f 5%nat = 1) by (rewrite S, E4; simpl; minmax).
  assert (E6 : f 6%nat = - 1) by (rewrite S, E5; simpl; minmax).
  assert (E7 : f 7%nat = / 2) by (rewrite S, E6; simpl; minmax).
  auto 10.
Qed.

Lemma default_tol_small : default_tol < / 2.
Proof. unfold default_tol. apply Rinv_lt_contravar; simpl; lra. Qed.

Lemma case_pass :
  default_tol < Rabs (jenkins_law 1 1 (repeat_samples 4 case_u) 0 (4 - 1)) /\
  forall k, (k < 4)%nat ->
    jenkins_law 1 1 (repeat_samples 4 case_u) 0 (4 + k) = nth k [1; 1; -1; / 2] 0.
Proof.
  destruct case_values as (E2 & E3 & E4 & E5 & E6 & E7). split.
  - simpl (4 - 1)%nat. rewrite E3. pose proof default_tol_small. rewrite Rabs_right by lra. lra.
  - intros [|[|[|[|k]]]] Hk; try lia; simpl (4 + _)%nat; cbn [nth]; assumption.
Qed.

Lemma case_reversal : last_reversal 4 case_u 2 /\
  (default_tol < Rabs (jenkins_law 1 1 (repeat_samples 4 case_u) 0 (4 - 1)) <->
   default_tol < Rabs (jenkins_law 1 1 (repeat_samples 4 case_u) 0 2)).
Proof.
  split.
  - split; [lia|]. split.
    + right. unfold reverses, same_direction. simpl. lra.
    + intros i Hi. assert (i = 3%nat) as -> by lia. unfold reverses, same_direction. simpl. lra.
  - destruct case_values as (E2 & E3 & _). simpl (4 - 1)%nat. rewrite E2, E3.
    pose proof default_tol_range. pose proof default_tol_small.
    split; intros _; rabs.
Qed.

Lemma c22_case :
  let cst := fun k c => match c with O => 1 | _ => match k with 1%nat => 1 | 3%nat => -1 | _ => 0 end end in
  let X := fun c : nat => match c with O => 0 | _ => 5 / 4 end in
  let u := repeat_samples 4 (fun j => rsum 2 (fun c => cst j c * X c)) in
  (forall j, (j < 2 * 4)%nat -> Rabs (trial 1 1 u (X O) j) <> 1) /\
  Rabs (jenkins_law 1 1 u (X O) (4 - 1)) <> default_tol.
Proof.
  intros cst X u.
  set (f := jenkins_law 1 1 u (X O)).
  assert (T : forall k, trial 1 1 u (X O) (S k) = f k + 1 * (u (S k) - u k)) by reflexivity.
  assert (C : forall k, f k = clamp (- 1) 1 (trial 1 1 u (X O) k)) by (intros [|k]; reflexivity).
  assert (U0 : u 0%nat = 0) by (unfold u, repeat_samples, X, cst; simpl; lra).
  assert (U1 : u 1%nat = 5 / 4) by (unfold u, repeat_samples, X, cst; simpl; lra).
  assert (U2 : u 2%nat = 0) by (unfold u, repeat_samples, X, cst; simpl; lra).
  assert (U3 : u 3%nat = - (5 / 4)) by (unfold u, repeat_samples, X, cst; simpl; lra).
  assert (U4 : u 4%nat = 0) by exact U0. assert (U5 : u 5%nat = 5 / 4) by exact U1.
  assert (U6 : u 6%nat = 0) by exact U2. assert (U7 : u 7%nat = - (5 / 4)) by exact U3.
  assert (T0 : trial 1 1 u (X O) 0 = 0) by (unfold trial; rewrite U0; unfold X; lra).
  assert (F0 : f 0%nat = 0) by (rewrite C, T0; minmax).
  assert (T1 : trial 1 1 u (X O) 1 = 5 / 4) by (rewrite T, F0, U1, U0; lra).
  assert (F1 : f 1%nat = 1) by (rewrite C, T1; minmax).
  assert (T2 : trial 1 1 u (X O) 2 = - / 4) by (rewrite T, F1, U1, U2; lra).
  assert (F2 : f 2%nat = - / 4) by (rewrite C, T2; minmax).
  assert (T3 : trial 1 1 u (X O) 3 = - (3 / 2)) by (rewrite T, F2, U2, U3; lra).
  assert (F3 : f 3%nat = - 1) by (rewrite C, T3; minmax).
  assert (T4 : trial 1 1 u (X O) 4 = / 4) by (rewrite T, F3, U3, U4; lra).
  assert (F4 : f 4%nat = / 4) by (rewrite C, T4; minmax).
  assert (T5 : trial 1 1 u (X O) 5 = 3 / 2) by (rewrite T, F4, U4, U5; lra).
  assert (F5 : f 5%nat = 1) by (rewrite C, T5; minmax).
  assert (T6 : trial 1 1 u (X O) 6 = - / 4) by (rewrite T, F5, U5, U6; lra).
  assert (F6 : f 6%nat = - / 4) by (rewrite C, T6; minmax).
  assert (T7 : trial 1 1 u (X O) 7 = - (3 / 2)) by (rewrite T, F6, U6, U7; lra).
  split.
  - intros [|[|[|[|[|[|[|[|j]]]]]]]] Hj; try lia;
      rewrite ?T0, ?T1, ?T2, ?T3, ?T4, ?T5, ?T6, ?T7; rabs.
  - simpl (4 - 1)%nat. fold (f 3%nat). rewrite F3. pose proof default_tol_range. rabs.
Qed.

Lemma jenkins_prestress_forces kt Fs before after :
  0 <= Fs -> forallb (fun c => negb (is_switch c)) after = true ->
  forall r f, In r (skipn (S (length before))
                   (snd (jcalls_exec (j_new kt Fs) (before ++ CSetPrestressMu :: after)))) ->
    In f (forces_of r) -> f = 0.
Proof.
  intros H0 Ha r f Hr Hf.
  assert (E : skipn (S (length before))
                (snd (jcalls_exec (j_new kt Fs) (before ++ CSetPrestressMu :: after)))
            = snd (jcalls_exec (j_set_prestress_mu (fst (jcalls_exec (j_new kt Fs) before))) after)).
  { change (CSetPrestressMu :: after) with ([CSetPrestressMu] ++ after). rewrite app_assoc.
    replace (S (length before)) with (length (before ++ [CSetPrestressMu]))
      by (rewrite app_length; simpl; lia).
    rewrite skipn_snd_app. rewrite jcalls_app.
    destruct (jcalls_exec (j_new kt Fs) before) as [s1 ra]. reflexivity. }
  rewrite E in Hr. clear E.
  destruct (jcalls_bound Fs before (j_new kt Fs) H0) as [I _]; [unfold jinv; simpl; auto|].
  set (s := fst (jcalls_exec (j_new kt Fs) before)) in *. destruct I as (Ip & Ir & _).
  assert (Z : forall cs s0 r f, forallb (fun c => negb (is_switch c)) cs = true -> j_Fs s0 = 0 ->
            jinv Fs s0 ->
            In r (snd (jcalls_exec s0 cs)) -> In f (forces_of r) -> f = 0).
  { clear - H0. induction cs as [|c cs IH]; intros s0 r f Hc HF Hi Hr Hf; [destruct Hr|].
    simpl in Hc. apply andb_true_iff in Hc. destruct Hc as [Hc Hcs]. apply negb_true_iff in Hc.
    pose proof (jcall_params s0 c Hc ltac:(lra)) as P.
    destruct (jcall_inv Fs s0 c H0 Hi) as [Hi1 B].
    cbn [jcalls_exec] in Hr.
    destruct (jcall_exec s0 c) as [s1 r1] eqn:E1. cbn [fst snd] in *.
    destruct (jcalls_exec s1 cs) as [s2 rs] eqn:E2. cbn [snd] in Hr.
    destruct Hr as [<-|Hr].
    - specialize (B f Hf). rewrite HF in B. destruct (Req_dec f 0) as [|Hn]; [assumption|].
      apply Rabs_pos_lt in Hn. lra.
    - destruct P as (_ & PF & PP & _).
      apply (IH s1 r f Hcs); [congruence|exact Hi1|rewrite E2; exact Hr|exact Hf]. }
  apply (Z after (j_set_prestress_mu s) r f Ha); auto.
  unfold jinv; simpl; auto.
Qed.

Lemma aft_changes_static :
  exists kt Fs before rows u0 after,
    0 < kt /\ 0 < Fs /\
    forces_of (last (snd (jcalls_exec (j_new kt Fs)
      (before ++ CLocalForceHistory rows u0 2 default_tol default_tol :: after))) RNone)
    <> forces_of (last (snd (jcalls_exec (j_new kt Fs) (before ++ after))) RNone).
Proof.
  exists 1, 1, [CInitHistory; CForce 3 true], [(0, fun _ => 1)], 0, [CForce (5 / 2) false].
  split; [lra|]. split; [lra|].
  cbn [app]. fold c25_mixed c25_static. rewrite c25_mixed_force, c25_static_force.
  intros H. injection H as H. lra.
Qed.
