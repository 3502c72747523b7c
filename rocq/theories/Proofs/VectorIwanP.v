(** VectorIwan4 evaluates the same bank of sliders. *)
From Coq Require Import Reals Lra Lia Arith List Bool FunctionalExtensionality.
From Verif.Lib Require Import RSum Py.
From Verif.Spec Require Import Slider JenkinsCalls.
From Verif.Model Require Import Jenkins VectorJenkins Iwan.
From Verif.Proofs Require Import SliderP JenkinsP VectorJenkinsP JenkinsDerivP HysteresisP IwanP.
Import ListNotations.
Open Scope R_scope.

Section Fill.
  Variables (s : iwan) (N : nat) (u : nat -> R) (cst : nat -> vec) (u0 : R).
  Hypothesis HN : (0 < N)%nat.
  Hypothesis HP : phi_ok s.

  Definition bcorrect (n : nat) (acc : (nat -> R) * (nat -> vec)) (i : nat) : Prop :=
    fst acc i = bank_pass s N u u0 n i /\ forall q, snd acc i q = bank_dpass s N u cst u0 n i q.
  Definition scorrect (n : nat) (o : vec * mat) (c : nat) : Prop :=
    (forall i, (i < iw_n s)%nat -> fst o i = pass_law 1 (iw_phi s i) N u u0 n c) /\
    (forall i, (i < iw_n s)%nat -> forall q, snd o i q = dpass_law 1 (iw_phi s i) N u cst u0 n c q).

  Lemma bfill_correct n acc c d o : scorrect n o c -> (c < N)%nat -> (d = O \/ (c < d < N)%nat) ->
    (forall j, (c < j < (if Nat.eqb d 0 then N else d))%nat -> vj_vector_set N u j = true) ->
    (forall i, bcorrect n acc i -> bcorrect n (vi_fill s N u cst acc ((c, d), o)) i) /\
    (forall i, (c < i < (if Nat.eqb d 0 then N else d))%nat -> bcorrect n (vi_fill s N u cst acc ((c, d), o)) i).
  Proof.
    intros Ho HcN Hd Hg. set (stop := (if Nat.eqb d 0 then N else d)) in *.
    assert (Estop : (d + N * (if Nat.eqb d 0 then 1 else 0))%nat = stop) by (unfold stop; destruct (Nat.eqb_spec d 0); lia).
    assert (Hstop : (stop <= N)%nat) by (unfold stop; destruct (Nat.eqb_spec d 0); lia).
    destruct acc as [ft df]. destruct o as [fps dfps]. destruct Ho as [Hof Hod]. cbn [fst snd] in *.
    assert (IN : forall i, (c < i < stop)%nat -> bcorrect n (vi_fill s N u cst (ft, df) ((c, d), (fps, dfps))) i).
    { intros i Hi. unfold vi_fill, bcorrect. rewrite Estop. replace (c + 1 - 1)%nat with c by lia. replace (Nat.ltb (c + 1) stop) with true by (symmetry; apply Nat.ltb_lt; lia).
      cbv zeta. cbn [fst snd]. replace (Nat.leb (c + 1) i && Nat.ltb i stop)%bool with true by (symmetry; apply andb_true_intro; split; [apply Nat.leb_le; lia|apply Nat.ltb_lt; lia]).
      assert (FV : forall k, (k < iw_n s)%nat -> pass_law 1 (iw_phi s k) N u u0 n i = clamp (- iw_phi s k) (iw_phi s k) (pass_law 1 (iw_phi s k) N u u0 n c + 1 * (u i - u c)) /\
        forall q, dpass_law 1 (iw_phi s k) N u cst u0 n i q = if Rltb (iw_phi s k) (Rabs (pass_law 1 (iw_phi s k) N u u0 n c + 1 * (u i - u c))) then 0 else 1 * (cst i q - cst c q) + dpass_law 1 (iw_phi s k) N u cst u0 n c q).
      { intros k Hk. apply (fill_value 1 (iw_phi s k) N u cst u0 HN (HP k Hk)); [lia|]. intros j Hj. apply Hg. lia. }
      split.
      - apply rsum_ext. intros k Hk. f_equal. destruct (FV k Hk) as [-> _]. rewrite Hof by exact Hk. set (pl := pass_law 1 (iw_phi s k) N u u0 n c). replace (pl + 1 * (u i - u c)) with (u i - u c + pl) by ring.
        destruct (Rleb (Rabs (u i - u c + pl)) (iw_phi s k)) eqn:E; [apply Rleb_true in E; symmetry; apply stick_clamp; exact E|apply Rleb_false in E; rewrite Rmult_comm; apply slip_sign; [apply HP; exact Hk|exact E]].
      - intros q. apply rsum_ext. intros k Hk. f_equal. destruct (FV k Hk) as [_ ->]. rewrite Hof, Hod by exact Hk. set (pl := pass_law 1 (iw_phi s k) N u u0 n c). replace (pl + 1 * (u i - u c)) with (u i - u c + pl) by ring.
        destruct (Rleb (Rabs (u i - u c + pl)) (iw_phi s k)) eqn:E.
        + apply Rleb_true in E. rewrite (proj2 (Rltb_false _ _) E). cbn [b2R]. ring.
        + apply Rleb_false in E. rewrite (proj2 (Rltb_true _ _) E). cbn [b2R]. ring. }
    split; [|exact IN]. intros i Hi. destruct (le_lt_dec i c) as [L|L].
    - unfold vi_fill, bcorrect in *. cbn [fst snd] in *. rewrite Estop. destruct (Nat.ltb (c + 1) stop); [|exact Hi]. cbv zeta. cbn [fst snd].
      replace (Nat.leb (c + 1) i) with false by (symmetry; apply Nat.leb_gt; lia). exact Hi.
    - destruct (le_lt_dec stop i) as [L2|L2]; [|apply IN; lia]. unfold vi_fill, bcorrect in *. cbn [fst snd] in *. rewrite Estop. destruct (Nat.ltb (c + 1) stop); [|exact Hi]. cbv zeta. cbn [fst snd].
      replace (Nat.ltb i stop) with false by (symmetry; apply Nat.ltb_ge; lia). rewrite andb_false_r. exact Hi.
  Qed.

  Lemma bfill_all n : forall l c acc outs, chain N u c l -> (forall k, In k (c :: l) -> bcorrect n acc k) -> length outs = S (length l) ->
    (forall j, (j < S (length l))%nat -> scorrect n (nth j outs (vzero, mzero)) (nth j (c :: l) O)) ->
    let acc' := fold_left (vi_fill s N u cst) (combine (vj_pairs O (c :: l)) outs) acc in
    (forall i, bcorrect n acc i -> bcorrect n acc' i) /\ (forall i, (c <= i < N)%nat -> bcorrect n acc' i).
  Proof.
    induction l as [|d l IH]; intros c acc outs Hch Hk Hl Ho acc'.
    - destruct outs as [|o [|]]; try discriminate. unfold acc'. cbn [vj_pairs combine fold_left]. destruct Hch as [H1 H2].
      destruct (bfill_correct n acc c O o) as [F1 F2]; [apply (Ho O); cbn; lia|exact H1|left; reflexivity|exact H2|]. split; [exact F1|].
      intros i Hi. destruct (Nat.eq_dec i c) as [->|Hne]; [apply F1, Hk; left; reflexivity|]. apply F2. cbn. lia.
    - destruct outs as [|o outs]; [discriminate|]. unfold acc'. change (vj_pairs O (c :: d :: l)) with ((c, d) :: vj_pairs O (d :: l)). cbn [combine fold_left]. destruct Hch as [H1 [H2 H3]].
      destruct (bfill_correct n acc c d o) as [F1 F2]; [apply (Ho O); lia|lia|right; lia|destruct (Nat.eqb_spec d 0); [lia|exact H2]|].
      destruct (IH d (vi_fill s N u cst acc ((c, d), o)) outs H3) as [G1 G2].
      { intros k Hin. apply F1, Hk. right. exact Hin. } { cbn in Hl. lia. } { intros j Hj. apply (Ho (S j)). cbn. lia. }
      split; [intros i Hi; apply G1, F1, Hi|]. intros i Hi. destruct (le_lt_dec d i) as [L|L]; [apply G2; lia|]. apply G1.
      destruct (Nat.eq_dec i c) as [->|Hne]; [apply F1, Hk; left; reflexivity|]. apply F2. destruct (Nat.eqb_spec d 0); lia.
  Qed.
End Fill.

(** what VectorIwan4.local_force_history returns *)
Lemma vector_iwan_spec s N u cst u0 : (0 < N)%nat -> phi_ok s ->
  exists s' ft dfduh c, vector_iwan_local_force_history s N u cst u0 = Ok (s', ft, dfduh) /\ iw_same s s' /\ c = last (vj_crit N u) O /\
    let f0 := bank_pass s N u u0 0 c in
    let n := if not_converged default_tol default_tol (Rabs (f0 - 0)) f0 then 1%nat else 0%nat in
    forall k, (k < N)%nat -> ft k = bank_pass s N u u0 n k /\ forall i, dfduh k i = bank_dpass s N u cst u0 n k i.
Proof.
  intros HN HP. destruct (crit_chain N u HN) as [cs [Ec Hch]]. unfold vector_iwan_local_force_history. rewrite Ec. rewrite map_nth_rows.
  set (crit := O :: cs). set (m := length crit). assert (Hm : (0 < m)%nat) by (unfold m, crit; simpl; lia).
  assert (Htol : 0 <= default_tol \/ 0 <= default_tol) by (left; unfold default_tol; left; apply Rinv_0_lt_compat; simpl; lra).
  destruct (iw_crit_spec s m (fun j => u (nth j crit O)) (fun j => cst (nth j crit O)) u0 2 default_tol default_tol Hm HP Htol) as (s' & os & Eh & El & Ep & Hv).
  rewrite Eh. cbn [bind]. cbv zeta in Hv.
  assert (CL : forall n j, (j < m)%nat -> forall i, (i < iw_n s)%nat -> pass_law 1 (iw_phi s i) m (fun j => u (nth j crit O)) u0 n j = pass_law 1 (iw_phi s i) N u u0 n (nth j crit O) /\
     forall q, dpass_law 1 (iw_phi s i) m (fun j => u (nth j crit O)) (fun j => cst (nth j crit O)) u0 n j q = dpass_law 1 (iw_phi s i) N u cst u0 n (nth j crit O) q).
  { intros n j Hj i Hi. apply (crit_law 1 (iw_phi s i) N u cst u0 HN (HP i Hi) cs Hch n j Hj). }
  assert (CB : forall n j, (j < m)%nat -> bank_pass s m (fun j => u (nth j crit O)) u0 n j = bank_pass s N u u0 n (nth j crit O)).
  { intros n j Hj. apply rsum_ext. intros i Hi. destruct (CL n j Hj i Hi) as [-> _]. reflexivity. }
  rewrite (CB 0%nat (m - 1)%nat) in Hv by lia. set (c := nth (m - 1) crit O) in *. replace (Nat.ltb 1 2) with true in Hv by reflexivity. rewrite andb_true_r in Hv.
  set (n := if not_converged default_tol default_tol (Rabs (bank_pass s N u u0 0 c - 0)) (bank_pass s N u u0 0 c) then 1%nat else 0%nat) in *.
  assert (ND : NoDup crit) by (unfold crit; rewrite <- Ec; unfold vj_crit; apply NoDup_filter; apply seq_NoDup).
  set (ft0 := vj_scatter crit (map fst os) (fun _ => 0)). set (df0 := vj_scatter crit (map (fun o => fst (snd o)) os) (fun _ _ => 0)).
  assert (C0 : forall k, In k crit -> bcorrect s N u cst u0 n (ft0, df0) k).
  { intros k Hin. destruct (In_nth crit k O Hin) as [j [Hj <-]]. destruct (Hv j Hj) as (Vf & Vd & _). unfold bcorrect. cbn [fst snd]. split.
    - unfold ft0. rewrite (scatter_nth crit (map fst os) _ j (fst out0)); [|exact ND|rewrite map_length, El; reflexivity|exact Hj]. rewrite map_nth, Vf. apply CB. exact Hj.
    - intros q. unfold df0. rewrite (scatter_nth crit (map (fun o => fst (snd o)) os) _ j (fst (snd out0))); [|exact ND|rewrite map_length, El; reflexivity|exact Hj].
      rewrite (map_nth (fun o => fst (snd o)) os out0 j). rewrite Vd. apply rsum_ext. intros i Hi. destruct (CL n j Hj i Hi) as [_ ->]. reflexivity. }
  destruct (bfill_all s N u cst u0 HN HP n cs O (ft0, df0) (map (fun o => snd (snd o)) os) Hch C0) as [_ G].
  { rewrite map_length, El. reflexivity. }
  { intros j Hj. change (nth j (map (fun o => snd (snd o)) os) (vzero, mzero)) with (nth j (map (fun o : R * (vec * (vec * mat)) => snd (snd o)) os) (snd (snd out0))).
    rewrite (map_nth (fun o => snd (snd o)) os out0 j). destruct (Hv j Hj) as (_ & _ & Vs & Vds). split.
    - intros i Hi. rewrite Vs by exact Hi. apply (CL n j Hj i Hi).
    - intros i Hi q. rewrite Vds by exact Hi. apply (CL n j Hj i Hi). }
  fold crit in G. cbn [hd]. unfold hd, crit at 1. fold crit.
  destruct (fold_left (vi_fill s N u cst) (combine (vj_pairs O crit) (map (fun o => snd (snd o)) os)) (ft0, df0)) as [ft' df'] eqn:EF.
  exists s', ft', df', c. split; [reflexivity|]. split; [exact Ep|]. split; [unfold c, m; rewrite last_nth; reflexivity|].
  cbv zeta. intros k Hk. apply G. lia.
Qed.

Lemma bank_pass_law s N u u0 n k : bank_pass s N u u0 n k = bank_law (iw_n s) (iw_w s) (iw_phi s) (repeat_samples N u) u0 (n * N + k).
Proof. unfold bank_pass, bank_law, pass_law. apply rsum_ext. intros; ring. Qed.

Lemma tol_nonneg : 0 <= default_tol \/ 0 <= default_tol.
Proof. left. pose proof default_tol_range. lra. Qed.

Lemma iwan_history_default s N u cst u0 : (0 < N)%nat -> phi_ok s ->
  exists s' os, iwan_local_force_history s (rows N u cst) u0 2 default_tol default_tol = Ok (s', os) /\ length os = N /\ iw_same s s' /\
    forall k, (k < N)%nat -> nth k (map fst os) 0 = bank_pass s N u u0 (pass_no (bank_pass s N u u0 0 (N - 1))) k /\
      forall c, nth k (map snd os) (fun _ => 0) c = bank_dpass s N u cst u0 (pass_no (bank_pass s N u u0 0 (N - 1))) k c.
Proof.
  intros HN HP. destruct (iwan_history_spec s N u cst u0 2 default_tol default_tol HN HP tol_nonneg) as (s' & os & E & L & P & V).
  exists s', os. split; [exact E|]. split; [exact L|]. split; [exact P|]. cbv zeta in V. rewrite not_converged_default_iff in V. replace (Nat.ltb 1 2) with true in V by reflexivity. rewrite andb_true_r in V. exact V.
Qed.

Lemma vector_iwan_default s N u cst u0 c : (0 < N)%nat -> phi_ok s -> last_reversal N u c ->
  exists s' ft dfduh, vector_iwan_local_force_history s N u cst u0 = Ok (s', ft, dfduh) /\ iw_same s s' /\
    forall k, (k < N)%nat -> ft k = bank_pass s N u u0 (pass_no (bank_pass s N u u0 0 c)) k /\
      forall i, dfduh k i = bank_dpass s N u cst u0 (pass_no (bank_pass s N u u0 0 c)) k i.
Proof.
  intros HN HP Hc. destruct (vector_iwan_spec s N u cst u0 HN HP) as (s' & ft & df & c' & E & P & Ec & Hv). exists s', ft, df. split; [exact E|]. split; [exact P|].
  rewrite (last_crit_unique N u c HN Hc) in Ec. subst c'. cbv zeta in Hv. rewrite not_converged_default_iff in Hv. exact Hv.
Qed.

Lemma vector_equals_iwan s N u cst u0 c : (0 < N)%nat -> phi_ok s -> last_reversal N u c ->
  let f0 := bank_law (iw_n s) (iw_w s) (iw_phi s) (repeat_samples N u) u0 in
  (default_tol < Rabs (f0 (N - 1)%nat) <-> default_tol < Rabs (f0 c)) ->
  exists s1 os s2 ft dfduh, iwan_local_force_history s (rows N u cst) u0 2 default_tol default_tol = Ok (s1, os) /\
    vector_iwan_local_force_history s N u cst u0 = Ok (s2, ft, dfduh) /\ length os = N /\
    forall k, (k < N)%nat -> ft k = nth k (map fst os) 0 /\ forall i, dfduh k i = nth k (map snd os) (fun _ => 0) i.
Proof.
  intros HN HP Hc f0 Hiff. destruct (iwan_history_default s N u cst u0 HN HP) as (s1 & os & E1 & L1 & _ & V1).
  destruct (vector_iwan_default s N u cst u0 c HN HP Hc) as (s2 & ft & df & E2 & _ & V2). exists s1, os, s2, ft, df. split; [exact E1|]. split; [exact E2|]. split; [exact L1|].
  assert (En : pass_no (bank_pass s N u u0 0 (N - 1)) = pass_no (bank_pass s N u u0 0 c)).
  { rewrite !bank_pass_law. cbn [Nat.mul Nat.add]. fold (f0 (N - 1)%nat) (f0 c). unfold pass_no.
    destruct (Rltb default_tol (Rabs (f0 (N - 1)%nat))) eqn:A, (Rltb default_tol (Rabs (f0 c))) eqn:B; try reflexivity; exfalso;
      rewrite ?Rltb_true, ?Rltb_false in A; rewrite ?Rltb_true, ?Rltb_false in B; lra. }
  rewrite En in V1. intros k Hk. destruct (V1 k Hk) as [A B], (V2 k Hk) as [C D]. split; [congruence|]. intros i. rewrite B, D. reflexivity.
Qed.

(** second pass of the bank = steady state *)
Lemma bank_steady n w phi N u u0 : (0 < N)%nat -> (forall i, (i < n)%nat -> 0 <= phi i) ->
  steady_state N (bank_law n w phi (repeat_samples N u) u0) (fun k => bank_law n w phi (repeat_samples N u) u0 (N + k)).
Proof.
  intros HN HP. exists 1%nat. intros m k Hm Hk. unfold bank_law. apply rsum_ext. intros i Hi. f_equal. unfold jenkins_law.
  apply slider_all_passes; [exact HN|intros j; specialize (HP i Hi); lra|apply periodic_const|apply periodic_const|apply periodic_repeat; exact HN|exact Hm].
Qed.

Lemma iwan_steady s N u cst u0 m : (0 < N)%nat -> phi_ok s -> (2 <= m)%nat ->
  default_tol < Rabs (bank_law (iw_n s) (iw_w s) (iw_phi s) (repeat_samples N u) u0 (N - 1)) ->
  exists s' os, iwan_local_force_history s (rows N u cst) u0 m default_tol default_tol = Ok (s', os) /\ length os = N /\
    steady_state N (bank_law (iw_n s) (iw_w s) (iw_phi s) (repeat_samples N u) u0) (fun k => nth k (map fst os) 0).
Proof.
  intros HN HP Hm Ht. destruct (iwan_history_spec s N u cst u0 m default_tol default_tol HN HP tol_nonneg) as (s' & os & E & L & P & V).
  exists s', os. split; [exact E|]. split; [exact L|]. cbv zeta in V. rewrite bank_pass_law in V. cbn [Nat.mul Nat.add] in V. rewrite not_converged_default in V by exact Ht.
  replace (Nat.ltb 1 m) with true in V by (symmetry; apply Nat.ltb_lt; lia). cbn [andb] in V.
  destruct (bank_steady (iw_n s) (iw_w s) (iw_phi s) N u u0 HN HP) as [n0 Hs]. exists n0. intros n k Hn Hk. rewrite Hs by assumption. destruct (V k Hk) as [-> _]. rewrite bank_pass_law. f_equal. lia.
Qed.

Lemma vector_iwan_steady s N u cst u0 c : (0 < N)%nat -> phi_ok s -> last_reversal N u c ->
  default_tol < Rabs (bank_law (iw_n s) (iw_w s) (iw_phi s) (repeat_samples N u) u0 c) ->
  exists s' ft dfduh, vector_iwan_local_force_history s N u cst u0 = Ok (s', ft, dfduh) /\
    steady_state N (bank_law (iw_n s) (iw_w s) (iw_phi s) (repeat_samples N u) u0) ft.
Proof.
  intros HN HP Hc Ht. destruct (vector_iwan_default s N u cst u0 c HN HP Hc) as (s' & ft & df & E & _ & V). exists s', ft, df. split; [exact E|].
  destruct (bank_steady (iw_n s) (iw_w s) (iw_phi s) N u u0 HN HP) as [n0 Hs]. exists n0. intros n k Hn Hk. rewrite Hs by assumption. destruct (V k Hk) as [-> _].
  rewrite !bank_pass_law. cbn [Nat.mul Nat.add]. unfold pass_no. rewrite (proj2 (Rltb_true _ _) Ht). f_equal. lia.
Qed.
