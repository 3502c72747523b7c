(** Statements about built Iwan elements, and concrete cases. *)
From Coq Require Import Reals Lra Lia Arith List Bool.
From Verif.Lib Require Import RSum Py Calc.
From Verif.Spec Require Import Slider JenkinsCalls IwanCalls.
From Verif.Model Require Import Jenkins VectorJenkins Iwan IwanOps.
From Verif.Proofs Require Import SliderP JenkinsP JenkinsOpsP JenkinsDerivP HysteresisP IwanP VectorIwanP IwanOpsP IwanDiscP.
Import ListNotations.
Open Scope R_scope.

Lemma cells_fill kt Fs chi beta Ns alpha s : 0 < kt -> 0 < Fs -> -1 < chi -> 0 <= beta -> 1 <= alpha -> iw_new kt Fs chi beta Ns alpha = Ok s ->
  exists (e : nat -> R) (phimax rho S : R),
    e O = 0 /\ e Ns = phimax /\ 0 < phimax /\ (forall k, e k < e (k + 1)%nat) /\
    (forall k, e (k + 2)%nat - e (k + 1)%nat = alpha * (e (k + 1)%nat - e k)) /\
    iw_n s = (Ns + 1)%nat /\
    (forall k, (k < Ns)%nat -> iw_phi s k = (e k + e (k + 1)%nat) / 2 /\ iw_w s k = rho * Rpower (iw_phi s k) chi * (e (k + 1)%nat - e k)) /\
    iw_phi s Ns = phimax /\ iw_w s Ns = S /\
    iwan_stiffness rho S chi phimax = kt /\ iwan_strength rho S chi phimax = Fs.
Proof.
  intros Hk HF Hc Hb Ha E. destruct (iw_new_good _ _ _ _ _ _ _ Hk HF Hc Hb Ha E) as (_ & HN & En & Ep & Ew & _). destruct (calibration kt Fs chi beta Hk HF Hc Hb) as [C1 C2].
  exists (edge kt Fs chi beta Ns alpha), (iw_phimax kt Fs chi beta), (iw_R kt Fs chi beta), (iw_S kt Fs chi beta).
  split; [reflexivity|]. split; [apply edge_end; assumption|]. split; [apply phimax_pos; assumption|].
  split; [intros k; rewrite Nat.add_1_r; apply edges_up; assumption|].
  split. { intros k. replace (k + 2)%nat with (S (S k)) by lia. replace (k + 1)%nat with (S k) by lia. rewrite !edge_S. unfold iw_delta. simpl. ring. }
  split; [rewrite En; lia|]. split.
  { intros k Hk'. rewrite Ep, Ew, Nat.add_1_r. split; [apply position_mid; assumption|apply weight_cell; assumption]. }
  split; [rewrite Ep; apply position_last|]. split; [rewrite Ew; apply weight_last|]. split; assumption.
Qed.

Lemma density_integral chi x : -1 < chi -> 0 < x -> derivable_pt_lim (fun y => Rpower y (chi + 1) / (chi + 1)) x (Rpower x chi) /\ derivable_pt_lim (fun y => Rpower y (chi + 2) / (chi + 2)) x (x * Rpower x chi).
Proof.
  intros Hc Hx. split; [apply Rp_deriv; [exact Hx|lra]|]. pose proof (Rp_deriv (chi + 1) x Hx ltac:(lra)) as H. replace (chi + 1 + 1) with (chi + 2) in H by ring. rewrite Rpower_plus, Rpower_1 in H by exact Hx. rewrite Rmult_comm. exact H.
Qed.

Lemma uniform_built kt Fs beta Ns alpha s : 0 < kt -> 0 < Fs -> 0 <= beta -> 1 <= alpha -> iw_new kt Fs 0 beta Ns alpha = Ok s ->
  rsum (iw_n s) (iw_w s) = kt /\ bank_limit (iw_n s) (iw_w s) (iw_phi s) = Fs.
Proof.
  intros Hk HF Hb Ha E. destruct (iw_new_good _ _ _ _ _ _ _ Hk HF (ltac:(lra) : -1 < 0) Hb Ha E) as (_ & HN & -> & -> & -> & _). apply uniform_exact; assumption.
Qed.
Lemma bounds_built kt Fs chi beta Ns alpha s : 0 < kt -> 0 < Fs -> -1 < chi <= 0 -> 0 <= beta -> 1 <= alpha -> iw_new kt Fs chi beta Ns alpha = Ok s ->
  rsum (iw_n s) (iw_w s) <= kt /\ Fs <= bank_limit (iw_n s) (iw_w s) (iw_phi s).
Proof.
  intros Hk HF Hc Hb Ha E. destruct (iw_new_good _ _ _ _ _ _ _ Hk HF (proj1 Hc) Hb Ha E) as (_ & HN & -> & -> & -> & _). apply discrete_bounds; assumption.
Qed.

Lemma limits_built kt Fs chi beta Ns alpha s : 0 < kt -> 0 < Fs -> -1 < chi -> 0 <= beta -> 1 <= alpha -> iw_new kt Fs chi beta Ns alpha = Ok s -> forall calls : list icall,
  (forall i, (i <= Ns)%nat -> Rabs (iw_fs (fst (icalls_exec s calls)) i) <= iw_phi s i) /\
  forall r f, In r (snd (icalls_exec s calls)) -> In f (iforces_of r) -> Rabs f <= bank_limit (iw_n s) (iw_w s) (iw_phi s).
Proof.
  intros Hk HF Hc Hb Ha E calls. destruct (iw_new_good _ _ _ _ _ _ _ Hk HF Hc Hb Ha E) as (G & HN & En & _). destruct (icalls_inv calls s G) as ((A1 & A2 & A3) & (_ & _ & F) & B). split; [|exact B].
  intros i Hi. rewrite <- A2. apply F. rewrite A1, En. lia.
Qed.

Lemma elastic_sliding kt Fs chi beta Ns alpha s : 0 < kt -> 0 < Fs -> -1 < chi -> 0 <= beta -> 1 <= alpha -> iw_new kt Fs chi beta Ns alpha = Ok s ->
  forall calls : list icall, forallb istatic_call calls = true -> forall u update,
  let force := iforces_of (snd (icall_exec (fst (icalls_exec s calls)) (IForce u update))) in
  ((forall v, In v (irecorded calls ++ [u]) -> Rabs v <= iw_phi s O) -> force = [rsum (iw_n s) (iw_w s) * u]) /\
  (2 * iw_phi s Ns <= u - last (irecorded calls) 0 -> force = [bank_limit (iw_n s) (iw_w s) (iw_phi s)]) /\
  (2 * iw_phi s Ns <= last (irecorded calls) 0 - u -> force = [- bank_limit (iw_n s) (iw_w s) (iw_phi s)]).
Proof.
  intros Hk HF Hc Hb Ha E calls Hs u b force. destruct (iw_new_good _ _ _ _ _ _ _ Hk HF Hc Hb Ha E) as ((GP & GW & GF) & HN & En & Ep & Ew & Eu & Ef).
  assert (EF : force = [bank_after (iw_n s) (iw_w s) (iw_phi s) (irecorded calls ++ [u])]) by (apply static_iwan_force; [exact GP|exact Eu|intros i; rewrite Ef; reflexivity|exact Hs]).
  rewrite EF. clear EF force. split; [|split]; intros H; f_equal; unfold bank_after, bank_limit.
  - rewrite <- rsum_scal_r. apply rsum_ext. intros i Hi. f_equal. rewrite force_after_elastic; [apply last_last|apply GP; exact Hi|]. intros v Hv. eapply Rle_trans; [apply H; exact Hv|]. rewrite Ep. apply position_first; try assumption. rewrite En in Hi. lia.
  - apply rsum_ext. intros i Hi. f_equal. apply (force_after_slide _ _ _ true); [apply GP; exact Hi|]. cbn. eapply Rle_trans; [|exact H].
    assert (iw_phi s i <= iw_phi s Ns) by (rewrite Ep, position_last; apply position_le; try assumption; rewrite En in Hi; lia). lra.
  - rewrite <- rsum_opp. apply rsum_ext. intros i Hi. rewrite (force_after_slide _ _ _ false); [ring|apply GP; exact Hi|]. cbn. eapply Rle_trans; [|exact H].
    assert (iw_phi s i <= iw_phi s Ns) by (rewrite Ep, position_last; apply position_le; try assumption; rewrite En in Hi; lia). lra.
Qed.

Lemma iwan_static_after_init s : phi_ok s -> forall calls : list icall, forallb istatic_call calls = true -> forall u update,
  iforces_of (snd (icall_exec (fst (icalls_exec s (IInitHistory :: calls))) (IForce u update))) = [bank_after (iw_n s) (iw_w s) (iw_phi s) (irecorded calls ++ [u])].
Proof.
  intros HP calls Hs u b. cbn [icalls_exec]. cbn [icall_exec]. pose proof (static_iwan_force (iw_init_history s) calls u b HP eq_refl (fun i => eq_refl) Hs) as H.
  destruct (icalls_exec (iw_init_history s) calls) as [s2 rs]. exact H.
Qed.

Lemma disc_case : exists s, iw_new 1 1 0 0 2 2 = Ok s /\ iw_phi s O = / 3 /\ iw_phi s 1%nat = 4 / 3 /\ iw_phi s 2%nat = 2 /\ iw_w s O = / 3 /\ iw_w s 1%nat = 2 / 3 /\ iw_w s 2%nat = 0.
Proof.
  eexists. split; [reflexivity|]. cbn [iw_phi iw_w].
  assert (Ep : iw_phimax 1 1 0 0 = 2) by (unfold iw_phimax, iw_den; field).
  assert (E2 : Rpower 2 (0 + 2) = 4). { replace (0 + 2) with (1 + 1) by ring. rewrite Rpower_plus, Rpower_1 by lra. ring. }
  assert (ER : iw_R 1 1 0 0 = / 2) by (unfold iw_R; rewrite Ep, E2; unfold iw_den; field).
  assert (ES : iw_S 1 1 0 0 = 0) by (unfold iw_S; rewrite Ep; unfold iw_den; field).
  assert (ED : iw_delta1 2 2 2 = 2 / 3). { unfold iw_delta1. rewrite Rltb_lt by lra. simpl. field. }
  assert (D0 : iw_delta 2 2 2 0 = 2 / 3) by (unfold iw_delta; rewrite ED; simpl; ring).
  assert (D1 : iw_delta 2 2 2 1 = 4 / 3) by (unfold iw_delta; rewrite ED; simpl; field).
  assert (P0 : iw_positions 2 2 2 0 = / 3) by (unfold iw_positions; cbn [Nat.ltb Nat.leb rsum]; rewrite D0; field).
  assert (P1 : iw_positions 2 2 2 1 = 4 / 3) by (unfold iw_positions; cbn [Nat.ltb Nat.leb rsum]; rewrite D0, D1; field).
  rewrite Ep. split; [exact P0|]. split; [exact P1|]. split; [reflexivity|].
  split; [unfold iw_weights; cbv zeta; cbn [Nat.ltb Nat.leb]; rewrite Ep, ER, P0, D0, Rpower_O by lra; field|].
  split; [unfold iw_weights; cbv zeta; cbn [Nat.ltb Nat.leb]; rewrite Ep, ER, P1, D1, Rpower_O by lra; field|].
  unfold iw_weights; cbv zeta; cbn [Nat.ltb Nat.leb]; exact ES.
Qed.

Lemma vector_case : exists s, iw_new 1 1 0 0 1 1 = Ok s /\ last_reversal 4 case_u 2 /\
  default_tol < Rabs (bank_law (iw_n s) (iw_w s) (iw_phi s) (repeat_samples 4 case_u) 0 (4 - 1)) /\
  default_tol < Rabs (bank_law (iw_n s) (iw_w s) (iw_phi s) (repeat_samples 4 case_u) 0 2).
Proof.
  exists iw_unit. split; [exact iw_unit_new|]. destruct case_reversal as [A B]. split; [exact A|]. rewrite !iw_unit_law. destruct case_pass as [C _]. split; [exact C|]. apply B. exact C.
Qed.

Lemma iwan_deriv_case :
  let cst := fun k c => match c with O => 1 | _ => match k with 1%nat => 1 | 3%nat => -1 | _ => 0 end end in
  let X := fun c : nat => match c with O => 0 | _ => 5 / 4 end in
  let u := repeat_samples 4 (fun j => rsum 2 (fun c => cst j c * X c)) in
  exists s, iw_new 1 1 0 0 1 1 = Ok s /\
  (forall i, (i < iw_n s)%nat -> forall j, (j < 2 * 4)%nat -> Rabs (trial 1 (iw_phi s i) u (X O) j) <> iw_phi s i) /\
  Rabs (bank_law (iw_n s) (iw_w s) (iw_phi s) u (X O) (4 - 1)) <> default_tol.
Proof.
  intros cst X u. exists iw_unit. split; [exact iw_unit_new|]. destruct c22_case as [A B]. fold cst X in A, B. fold u in A, B. split; [|rewrite iw_unit_law; exact B].
  destruct iw_unit_values as (V0 & V1 & _). intros i Hi j Hj. cbn [iw_unit iw_n iw_phi] in *. destruct i as [|[|i]]; [rewrite V0; apply A; exact Hj| |lia]. rewrite V1.
  (* the strong slider never reaches its limit: |u| <= 5/4 and the force stays elastic *)
  assert (U : forall k, Rabs (u k) <= 5 / 4).
  { intros k. unfold u, repeat_samples. assert (k mod 4 < 4)%nat by (apply Nat.mod_upper_bound; lia). destruct (k mod 4)%nat as [|[|[|[|n]]]]; [| | | |lia]; cbn [rsum]; unfold cst, X; unfold Rabs; destruct (Rcase_abs _); lra. }
  assert (L : forall k, jenkins_law 1 2 u (X O) k = u k).
  { induction k as [|k IH]; unfold jenkins_law; cbn [slider].
    - rewrite stick_clamp; [unfold X; ring|]. replace (1 * (u 0%nat - X 0%nat)) with (u 0%nat) by (unfold X; ring). specialize (U O). lra.
    - change (slider 1 (fun _ => - (2)) (fun _ => 2) u (X 0%nat) k) with (jenkins_law 1 2 u (X 0%nat) k). rewrite IH. replace (u k + 1 * (u (S k) - u k)) with (u (S k)) by ring. apply stick_clamp. specialize (U (S k)). lra. }
  assert (T : trial 1 2 u (X O) j = u j). { destruct j as [|j]; cbn [trial]; [unfold X; ring|]. rewrite L. ring. }
  rewrite T. specialize (U j). lra.
Qed.
