(** The Iwan element is a bank of sliders. *)
From Coq Require Import Reals Lra Lia Arith List Bool FunctionalExtensionality.
From Verif.Lib Require Import RSum Py.
From Verif.Spec Require Import Slider JenkinsCalls.
From Verif.Model Require Import Jenkins VectorJenkins Iwan.
From Verif.Proofs Require Import SliderP JenkinsP VectorJenkinsP JenkinsDerivP.
Import ListNotations.
Open Scope R_scope.

Definition iw_same (s s' : iwan) : Prop := iw_n s' = iw_n s /\ iw_phi s' = iw_phi s /\ iw_w s' = iw_w s.
Definition phi_ok (s : iwan) : Prop := forall i, (i < iw_n s)%nat -> 0 <= iw_phi s i.

Lemma iw_slider_clamp phi um x u : 0 <= phi -> fst (iw_slider phi um x u) = clamp (- phi) phi (1 * (u - um) + x) /\
  snd (iw_slider phi um x u) = negb (Rltb phi (Rabs (1 * (u - um) + x))).
Proof.
  intros H. unfold iw_slider. cbv zeta. replace (1 * (u - um) + x) with (u - um + x) by ring. set (t := u - um + x).
  destruct (Rleb (Rabs t) phi) eqn:E.
  - apply Rleb_true in E. split; [symmetry; apply stick_clamp; exact E|]. cbn [snd]. symmetry. apply negb_true_iff. apply Rltb_false. exact E.
  - apply Rleb_false in E. split; [cbn [fst]; rewrite Rmult_comm; apply slip_sign; assumption|]. cbn [snd]. symmetry. apply negb_false_iff. apply Rltb_true. exact E.
Qed.

Definition out0 : R * (vec * (vec * mat)) := (0, (fun _ => 0, (vzero, mzero))).

Lemma iw_loop l : forall s x dum dfs dx, phi_ok s -> (forall i, (i < iw_n s)%nat -> iw_fs s i = x i) -> iw_dhist s = Some (dum, dfs) ->
  (forall i, (i < iw_n s)%nat -> dfs i = dx i) ->
  exists s' os dum' dfs', time_loop iw_step_crit s l = Ok (s', os) /\ length os = length l /\ iw_same s s' /\
    iw_up s' = last (map fst l) (iw_up s) /\
    (forall i, (i < iw_n s)%nat -> iw_fs s' i = last (jforces 1 (iw_phi s i) (iw_up s) (x i) (map fst l)) (x i)) /\
    iw_dhist s' = Some (dum', dfs') /\ dum' = last (map snd l) dum /\
    (forall i, (i < iw_n s)%nat -> dfs' i = last (jderivs 1 (iw_phi s i) (iw_up s) (x i) dum (dx i) l) (dx i)) /\
    forall k, (k < length l)%nat ->
      let o := nth k os out0 in
      fst o = rsum (iw_n s) (fun i => nth k (jforces 1 (iw_phi s i) (iw_up s) (x i) (map fst l)) 0 * iw_w s i) /\
      (forall c, fst (snd o) c = rsum (iw_n s) (fun i => nth k (jderivs 1 (iw_phi s i) (iw_up s) (x i) dum (dx i) l) (fun _ => 0) c * iw_w s i)) /\
      (forall i, (i < iw_n s)%nat -> fst (snd (snd o)) i = nth k (jforces 1 (iw_phi s i) (iw_up s) (x i) (map fst l)) 0) /\
      (forall i, (i < iw_n s)%nat -> snd (snd (snd o)) i = nth k (jderivs 1 (iw_phi s i) (iw_up s) (x i) dum (dx i) l) (fun _ => 0)).
Proof.
  assert (Hlast : forall A (a : A) (l0 : list A) d0, last (a :: l0) d0 = last l0 a).
  { intros A a l0. revert a. induction l0 as [|b l0 IHl]; intros a d0; [reflexivity|].
    change (last (a :: b :: l0) d0) with (last (b :: l0) d0). rewrite IHl. symmetry. apply IHl. }
  induction l as [|[u c] l IH]; intros s x dum dfs dx HP Hx Hd Hdx.
  - exists s, [], dum, dfs. cbn. split; [reflexivity|]. split; [reflexivity|]. split; [repeat split|]. split; [reflexivity|]. split; [exact Hx|].
    split; [exact Hd|]. split; [reflexivity|]. split; [exact Hdx|]. intros k Hk. lia.
  - set (x1 := fun i => clamp (- iw_phi s i) (iw_phi s i) (1 * (u - iw_up s) + x i)).
    set (dx1 := fun i => if Rltb (iw_phi s i) (Rabs (1 * (u - iw_up s) + x i)) then (fun q => 0 * c q + 0 * dum q + 0 * dx i q) else (fun q => 1 * c q + - 1 * dum q + 1 * dx i q)).
    assert (SL : forall i, (i < iw_n s)%nat -> fst (iw_slider (iw_phi s i) (iw_up s) (iw_fs s i) u) = x1 i /\
      snd (iw_slider (iw_phi s i) (iw_up s) (iw_fs s i) u) = negb (Rltb (iw_phi s i) (Rabs (1 * (u - iw_up s) + x i)))).
    { intros i Hi. rewrite Hx by exact Hi. apply iw_slider_clamp. apply HP. exact Hi. }
    cbn [time_loop]. unfold iw_step_crit at 1, iw_step at 1, iw_instant_force_harmonic, iw_instant_force. cbn [fst snd iw_set_hist iw_dhist]. rewrite Hd.
    cbn [bind iw_set_dhist iw_set_hist iw_dhist iw_fs iw_n iw_phi iw_w iw_up iw_fp].
    set (fs1 := fun i => fst (iw_slider (iw_phi s i) (iw_up s) (iw_fs s i) u)).
    set (dfs1 := (fun i c0 => b2R (snd (iw_slider (iw_phi s i) (iw_up s) (iw_fs s i) u)) * (c c0 - dum c0) + b2R (snd (iw_slider (iw_phi s i) (iw_up s) (iw_fs s i) u)) * dfs i c0) : mat).
    set (f1 := rsum (iw_n s) (fun i => fst (iw_slider (iw_phi s i) (iw_up s) (iw_fs s i) u) * iw_w s i)).
    set (s1 := mkIw (iw_n s) (iw_phi s) (iw_w s) u f1 fs1 (Some (c, dfs1))).
    assert (D1 : forall i, (i < iw_n s)%nat -> dfs1 i = dx1 i).
    { intros i Hi. unfold dfs1, dx1. destruct (SL i Hi) as [_ ->]. rewrite (Hdx i Hi). destruct (Rltb _ _); cbn [negb b2R]; extensionality q; ring. }
    destruct (IH s1 x1 c dfs1 dx1) as (s' & os & dum' & dfs' & E1 & E2 & E3 & E4 & E5 & E6 & E7 & E8 & E9).
    + exact HP.
    + intros i Hi. apply (SL i Hi).
    + reflexivity.
    + exact D1.
    + change (iw_set_dhist (iw_set_hist s u f1 fs1) c dfs1) with s1. rewrite E1. cbn [bind]. cbn [iw_n iw_phi iw_w iw_up s1] in *.
      exists s', ((f1, (fun c0 => rsum (iw_n s) (fun i => dfs1 i c0 * iw_w s i), (fs1, dfs1))) :: os), dum', dfs'.
      split; [reflexivity|]. split; [cbn; rewrite E2; reflexivity|]. split; [exact E3|]. split; [cbn [map fst]; rewrite Hlast; exact E4|].
      split; [intros i Hi; cbn [map fst jforces]; cbv zeta; rewrite Hlast; apply E5; exact Hi|]. split; [exact E6|].
      split; [cbn [map snd]; rewrite Hlast; exact E7|]. split; [intros i Hi; cbn [jderivs]; cbv zeta; rewrite Hlast; apply E8; exact Hi|].
      intros [|k] Hk; cbv zeta.
      * cbn [nth fst snd map jforces jderivs]. cbv zeta. split; [unfold f1; apply rsum_ext; intros i Hi; f_equal; apply (SL i Hi)|].
        split; [intros q; apply rsum_ext; intros i Hi; f_equal; rewrite D1 by exact Hi; reflexivity|].
        split; [intros i Hi; apply (SL i Hi)|intros i Hi; apply D1; exact Hi].
      * cbn [nth map fst jforces jderivs]. cbv zeta. apply E9. cbn in Hk. lia.
Qed.

(** one pass over the rows *)
Lemma iw_pass s N u cst x dum dfs dx : (0 < N)%nat -> phi_ok s -> (forall i, (i < iw_n s)%nat -> iw_fs s i = x i) -> iw_dhist s = Some (dum, dfs) ->
  (forall i, (i < iw_n s)%nat -> dfs i = dx i) ->
  exists s' os, time_loop iw_step_crit s (rows N u cst) = Ok (s', os) /\ length os = N /\ iw_same s s' /\ iw_up s' = u (N - 1)%nat /\
    let f i k := run 1 (fun _ => - iw_phi s i) (fun _ => iw_phi s i) u (iw_up s) (x i) k in
    let d i k := drun 1 (iw_phi s i) u cst (iw_up s) (x i) dum (dx i) k in
    (forall i, (i < iw_n s)%nat -> iw_fs s' i = f i (N - 1)%nat) /\
    (exists dfs', iw_dhist s' = Some (cst (N - 1)%nat, dfs') /\ forall i, (i < iw_n s)%nat -> dfs' i = d i (N - 1)%nat) /\
    forall k, (k < N)%nat -> let o := nth k os out0 in
      fst o = rsum (iw_n s) (fun i => f i k * iw_w s i) /\ (forall c, fst (snd o) c = rsum (iw_n s) (fun i => d i k c * iw_w s i)) /\
      (forall i, (i < iw_n s)%nat -> fst (snd (snd o)) i = f i k) /\ (forall i, (i < iw_n s)%nat -> snd (snd (snd o)) i = d i k).
Proof.
  intros HN HP Hx Hd Hdx. destruct (iw_loop (rows N u cst) s x dum dfs dx HP Hx Hd Hdx) as (s' & os & dum' & dfs' & E1 & E2 & E3 & E4 & E5 & E6 & E7 & E8 & E9).
  rewrite rows_length in *. exists s', os. split; [exact E1|]. split; [exact E2|]. split; [exact E3|].
  assert (F : forall i k, (k < N)%nat -> nth k (jforces 1 (iw_phi s i) (iw_up s) (x i) (map fst (rows N u cst))) 0 = run 1 (fun _ => - iw_phi s i) (fun _ => iw_phi s i) u (iw_up s) (x i) k).
  { intros i k Hk. rewrite rows_fst, jforces_run by (rewrite map_length, seq_length; exact Hk). apply run_ext. intros j Hj. apply nth_map_seq. lia. }
  assert (D : forall i k, (k < N)%nat -> nth k (jderivs 1 (iw_phi s i) (iw_up s) (x i) dum (dx i) (rows N u cst)) (fun _ => 0) = drun 1 (iw_phi s i) u cst (iw_up s) (x i) dum (dx i) k).
  { intros i k Hk. extensionality c. rewrite jderivs_drun by (rewrite rows_length; exact Hk). apply drun_ext.
    - intros j Hj. rewrite rows_fst. apply nth_map_seq. lia.
    - intros j i' Hj. rewrite rows_snd, nth_map_seqv by lia. reflexivity. }
  split. { rewrite E4, rows_fst, last_nth, map_length, seq_length. rewrite (nth_indep _ _ 0) by (rewrite map_length, seq_length; lia). apply nth_map_seq. lia. }
  cbv zeta. split.
  { intros i Hi. rewrite E5 by exact Hi. rewrite last_nth, jforces_length, map_length, rows_length. rewrite (nth_indep _ _ 0) by (rewrite jforces_length, map_length, rows_length; lia). apply F. lia. }
  split.
  { exists dfs'. rewrite E6, E7. split.
    - f_equal. f_equal. rewrite rows_snd, last_nth, map_length, seq_length. apply nth_map_seqv. lia.
    - intros i Hi. rewrite E8 by exact Hi. rewrite last_nth, jderivs_length, rows_length. rewrite (@nth_indep vec _ _ _ (fun _ => 0)) by (rewrite jderivs_length, rows_length; lia). apply D. lia. }
  intros k Hk. destruct (E9 k Hk) as (A & B & C & G). split; [rewrite A; apply rsum_ext; intros i _; rewrite F by exact Hk; reflexivity|].
  split; [intros c; rewrite B; apply rsum_ext; intros i _; rewrite D by exact Hk; reflexivity|].
  split; [intros i Hi; rewrite C by exact Hi; apply F; exact Hk|intros i Hi; rewrite G by exact Hi; apply D; exact Hk].
Qed.

(** forces and derivatives of the bank in pass n *)
Definition bank_pass (s : iwan) (N : nat) (u : nat -> R) (u0 : R) (n k : nat) : R := rsum (iw_n s) (fun i => pass_law 1 (iw_phi s i) N u u0 n k * iw_w s i).
Definition bank_dpass (s : iwan) (N : nat) (u : nat -> R) (cst : nat -> vec) (u0 : R) (n k : nat) : vec :=
  fun c => rsum (iw_n s) (fun i => dpass_law 1 (iw_phi s i) N u cst u0 n k c * iw_w s i).

Lemma iw_crit_spec s N u cst u0 m atol rtol : (0 < N)%nat -> phi_ok s -> 0 <= atol \/ 0 <= rtol ->
  exists s' os, local_force_history iw_step_crit (iw_init_history_harmonic s u0) 0 (rows N u cst) m atol rtol = Ok (s', os) /\
    length os = N /\ iw_same s s' /\
    let f0 := bank_pass s N u u0 0 (N - 1) in
    let n := if (not_converged atol rtol (Rabs (f0 - 0)) f0 && Nat.ltb 1 m)%bool then 1%nat else 0%nat in
    forall k, (k < N)%nat -> let o := nth k os out0 in
      fst o = bank_pass s N u u0 n k /\ (forall c, fst (snd o) c = bank_dpass s N u cst u0 n k c) /\
      (forall i, (i < iw_n s)%nat -> fst (snd (snd o)) i = pass_law 1 (iw_phi s i) N u u0 n k) /\
      (forall i, (i < iw_n s)%nat -> forall c, snd (snd (snd o)) i c = dpass_law 1 (iw_phi s i) N u cst u0 n k c).
Proof.
  intros HN HP Htol. unfold local_force_history. set (s0 := iw_init_history_harmonic s u0).
  destruct (iw_pass s0 N u cst (fun _ => 0) (fun c => if Nat.eqb c 0 then 1 else 0) mzero (fun _ _ => 0) HN) as (s1 & os1 & Et & El & Ep & Eu & Ef & (dfs1 & Ed & Edv) & Eo); [exact HP|reflexivity|reflexivity|reflexivity|].
  destruct (rows N u cst) as [|r rs] eqn:Er.
  { exfalso. assert (length (rows N u cst) = 0)%nat by (rewrite Er; reflexivity). rewrite rows_length in H. lia. }
  rewrite <- Er in *. rewrite Et. cbn [bind]. cbv zeta in *. change (iw_n s0) with (iw_n s) in *. change (iw_phi s0) with (iw_phi s) in *. change (iw_w s0) with (iw_w s) in *. change (iw_up s0) with u0 in *.
  assert (P0 : forall i k, (k < N)%nat -> run 1 (fun _ => - iw_phi s i) (fun _ => iw_phi s i) u u0 0 k = pass_law 1 (iw_phi s i) N u u0 0 k).
  { intros i k Hk. rewrite (pass_law_0 _ _ _ _ _ u0) by exact Hk. replace (1 * (u0 - u0)) with 0 by ring. reflexivity. }
  assert (Q0 : forall i k c, (k < N)%nat -> drun 1 (iw_phi s i) u cst u0 0 (fun c => if Nat.eqb c 0 then 1 else 0) (fun _ => 0) k c = dpass_law 1 (iw_phi s i) N u cst u0 0 k c).
  { intros i k c Hk. rewrite dpass_law_0 by exact Hk. reflexivity. }
  assert (O0 : forall k, (k < N)%nat -> let o := nth k os1 out0 in fst o = bank_pass s N u u0 0 k /\ (forall c, fst (snd o) c = bank_dpass s N u cst u0 0 k c) /\
      (forall i, (i < iw_n s)%nat -> fst (snd (snd o)) i = pass_law 1 (iw_phi s i) N u u0 0 k) /\ (forall i, (i < iw_n s)%nat -> forall c, snd (snd (snd o)) i c = dpass_law 1 (iw_phi s i) N u cst u0 0 k c)).
  { intros k Hk. destruct (Eo k Hk) as (A & B & C & D). cbv zeta. split; [rewrite A; apply rsum_ext; intros i _; rewrite P0 by exact Hk; reflexivity|].
    split; [intros c; rewrite B; apply rsum_ext; intros i _; rewrite Q0 by exact Hk; reflexivity|].
    split; [intros i Hi; rewrite C by exact Hi; apply P0; exact Hk|intros i Hi c; rewrite D by exact Hi; apply Q0; exact Hk]. }
  assert (LF : forall os : list (R * (vec * (vec * mat))), length os = N -> last_force os = fst (nth (N - 1) os out0)).
  { intros os Hl. unfold last_force. rewrite last_nth, map_length, Hl. change 0 with (fst out0) at 1. rewrite map_nth. reflexivity. }
  assert (Hl : last_force os1 = bank_pass s N u u0 0 (N - 1)) by (rewrite LF by exact El; apply O0; lia).
  rewrite Hl. cbn [read_fp]. set (f0 := bank_pass s N u u0 0 (N - 1)) in *.
  destruct m as [|[|m]]; [exists s1, os1; rewrite andb_false_r; simpl; auto|exists s1, os1; rewrite andb_false_r; simpl; auto|].
  replace (S (S m) - 1)%nat with (S m) by lia. cbn [repeat_loop]. rewrite Hl. replace (Nat.ltb 1 (S (S m))) with true by reflexivity. rewrite andb_true_r.
  destruct (not_converged atol rtol (Rabs (f0 - 0)) f0) eqn:Enc; [|exists s1, os1; auto].
  destruct Ep as (Epn & Epp & Epw).
  destruct (iw_pass s1 N u cst (fun i => pass_law 1 (iw_phi s i) N u u0 0 (N - 1)) (cst (N - 1)%nat) dfs1 (fun i => dpass_law 1 (iw_phi s i) N u cst u0 0 (N - 1)) HN) as (s2 & os2 & Et2 & El2 & Ep2 & Eu2 & Ef2 & _ & Eo2).
  { intros i. unfold phi_ok in HP. rewrite Epn, Epp. apply HP. }
  { intros i Hi. rewrite Epn in Hi. rewrite Ef by exact Hi. apply P0. lia. }
  { exact Ed. }
  { intros i Hi. rewrite Epn in Hi. rewrite Edv by exact Hi. extensionality c. apply Q0. lia. }
  rewrite Et2. cbn [bind read_fp]. replace (Rabs (last_force os2 - last_force os2)) with 0 by (replace (last_force os2 - last_force os2) with 0 by ring; rewrite Rabs_R0; reflexivity).
  rewrite repeat_loop_stops by exact Htol. exists s2, os2. split; [reflexivity|]. split; [exact El2|]. destruct Ep2 as (Ep2n & Ep2p & Ep2w).
  split. { split; [rewrite Ep2n, Epn; reflexivity|]. split; [rewrite Ep2p, Epp; reflexivity|rewrite Ep2w, Epw; reflexivity]. }
  cbv zeta in Eo2. rewrite Epn, Epp, Epw, Eu in Eo2. change (iw_n s0) with (iw_n s) in Eo2. change (iw_phi s0) with (iw_phi s) in Eo2. change (iw_w s0) with (iw_w s) in Eo2. intros k Hk. destruct (Eo2 k Hk) as (A & B & C & D). cbv zeta.
  assert (P1 : forall i, run 1 (fun _ => - iw_phi s i) (fun _ => iw_phi s i) u (u (N - 1)%nat) (pass_law 1 (iw_phi s i) N u u0 0 (N - 1)) k = pass_law 1 (iw_phi s i) N u u0 1 k).
  { intros i. symmetry. apply pass_law_S; [exact HN|exact Hk]. }
  assert (Q1 : forall i c, drun 1 (iw_phi s i) u cst (u (N - 1)%nat) (pass_law 1 (iw_phi s i) N u u0 0 (N - 1)) (cst (N - 1)%nat) (dpass_law 1 (iw_phi s i) N u cst u0 0 (N - 1)) k c = dpass_law 1 (iw_phi s i) N u cst u0 1 k c).
  { intros i c. symmetry. apply dpass_law_S; [exact HN|exact Hk]. }
  split; [rewrite A; apply rsum_ext; intros i _; rewrite P1; reflexivity|]. split; [intros c; rewrite B; apply rsum_ext; intros i _; rewrite Q1; reflexivity|].
  split; [intros i Hi; rewrite C by exact Hi; apply P1|intros i Hi c; rewrite D by exact Hi; apply Q1].
Qed.

(** ---- recording the sliders does not change the run ---- *)
Definition drop_sliders (o : R * (vec * (vec * mat))) : R * vec := (fst o, fst (snd o)).

Lemma time_loop_drop l : forall s s' os, time_loop iw_step_crit s l = Ok (s', os) -> time_loop iw_step s l = Ok (s', map drop_sliders os).
Proof.
  induction l as [|x l IH]; intros s s' os; cbn [time_loop]; [intros H; injection H as <- <-; reflexivity|].
  unfold iw_step_crit at 1. destruct (iw_step s x) as [[s1 [f d]]|e]; [|discriminate]. cbn [bind]. destruct (time_loop iw_step_crit s1 l) as [[s2 os2]|e] eqn:E; [|discriminate].
  cbn [bind]. intros H. injection H as <- <-. rewrite (IH s1 s2 os2 E). reflexivity.
Qed.

Lemma last_drop os : last_force (map drop_sliders os) = last_force os.
Proof. unfold last_force. rewrite map_map. reflexivity. Qed.

Lemma history_drop s fp l m atol rtol s' os :
  local_force_history iw_step_crit s fp l m atol rtol = Ok (s', os) -> local_force_history iw_step s fp l m atol rtol = Ok (s', map drop_sliders os).
Proof.
  unfold local_force_history. destruct l as [|x l]; [discriminate|]. set (ll := x :: l).
  destruct (time_loop iw_step_crit s ll) as [[s1 os1]|e] eqn:E; [|discriminate]. rewrite (time_loop_drop _ _ _ _ E). cbn [bind]. rewrite last_drop. cbn [read_fp].
  set (ac := Rabs (last_force os1 - fp)). clearbody ac. generalize (m - 1)%nat. intros n. clear E. revert s1 os1 ac. induction n as [|n IH]; intros s1 os1 ac; cbn [repeat_loop]; [intros H; injection H as <- <-; reflexivity|].
  rewrite last_drop. destruct (not_converged atol rtol ac (last_force os1)); [|intros H; injection H as <- <-; reflexivity].
  destruct (time_loop iw_step_crit s1 ll) as [[s2 os2]|e] eqn:E; [|discriminate]. rewrite (time_loop_drop _ _ _ _ E). cbn [bind]. rewrite last_drop. apply IH.
Qed.

(** what Iwan4Force.local_force_history returns *)
Lemma iwan_history_spec s N u cst u0 m atol rtol : (0 < N)%nat -> phi_ok s -> 0 <= atol \/ 0 <= rtol ->
  exists s' os, iwan_local_force_history s (rows N u cst) u0 m atol rtol = Ok (s', os) /\ length os = N /\ iw_same s s' /\
    let f0 := bank_pass s N u u0 0 (N - 1) in
    let n := if (not_converged atol rtol (Rabs (f0 - 0)) f0 && Nat.ltb 1 m)%bool then 1%nat else 0%nat in
    forall k, (k < N)%nat -> nth k (map fst os) 0 = bank_pass s N u u0 n k /\ forall c, nth k (map snd os) (fun _ => 0) c = bank_dpass s N u cst u0 n k c.
Proof.
  intros HN HP Ht. destruct (iw_crit_spec s N u cst u0 m atol rtol HN HP Ht) as (s' & os & E & L & P & V). exists s', (map drop_sliders os).
  split; [apply history_drop; exact E|]. split; [rewrite map_length; exact L|]. split; [exact P|]. cbv zeta in *. intros k Hk. destruct (V k Hk) as (A & B & _).
  rewrite !map_map. split.
  - change 0 with (fst (drop_sliders out0)) at 1. rewrite (map_nth (fun o => fst (drop_sliders o)) os out0 k). exact A.
  - intros c. change (fun _ : nat => 0) with (snd (drop_sliders out0)) at 1. rewrite (map_nth (fun o => snd (drop_sliders o)) os out0 k). apply B.
Qed.
