(** Tangent matrix of the chain of two masses, with the wall touched. *)
From Coq Require Import Reals Lra Lia Arith List Bool.
From Verif.Lib Require Import RSum Py.
From Verif.Spec Require Import Energy Potential.
From Verif.Model Require Import LocalForces VibSys SysElements.
From Verif.Proofs Require Import PotentialCaseP.
Import ListNotations.
Open Scope R_scope.

Definition chain_u : vec := fun j => if Nat.eqb j 0 then 1 else 3.

Lemma chain_separate : separate_springs 2 (vs_forces chain).
Proof.
  constructor; [|constructor; [|constructor]].
  - exists chain_Q, (fun q => rsum 1 (fun d => 4 / 4 * q d ^ 4)), 1%nat, (transposed chain_Q). split; [intros i d _ _; reflexivity|]. left. exists (fun _ => 4). split; reflexivity.
  - exists wall_Q, (fun q => rsum 1 (fun d => 10 / 2 * Rmax (q d - 1) 0 ^ 2 - 0 * q d)), 1%nat, (transposed wall_Q). split; [intros i d _ _; reflexivity|]. right. right. left.
    exists (fun _ => 10), (fun _ => 0), (fun _ => 1). split; [intros; lra|]. split; reflexivity.
Qed.

Lemma chain_tangent : exists Rr J, static_res chain chain_u (fun _ => 1) = Ok (Rr, J) /\ J 0%nat 1%nat = -49 /\ J 1%nat 0%nat = -49 /\ J 0%nat 0%nat = 50 /\ J 1%nat 1%nat = 60.
Proof.
  assert (W : Rltb (- 0) (Rmax (10 * (0 + 0 * 1 + 1 * 3 - 1) - 0) (- 0)) = true) by (apply Rltb_true; rewrite Rmax_left; lra).
  unfold static_res. cbn [vs_forces chain static_loop chain_cubic chain_wall cubic_nl unilateral_nl instantaneous_nl nl_force bind]. eexists _, _. split; [reflexivity|].
  unfold madd, cubic_force, unilateral_force, matmul, mdiag, mzero, matvec, vs_K, vs_N, chain, chain_K, chain_Q, wall_Q, transposed, chain_u.
  cbn [fst snd rsum Nat.eqb]. rewrite W. repeat split; ring.
Qed.

Lemma chain_symmetric_case : separate_springs (vs_N chain) (vs_forces chain) /\ symmetric_matrix 2 (vs_M chain) /\ symmetric_matrix 2 (vs_K chain) /\
  exists Rr J, static_res chain chain_u (fun _ => 1) = Ok (Rr, J) /\ J 0%nat 1%nat = -49 /\ J 1%nat 0%nat = -49 /\ J 0%nat 0%nat = 50 /\ J 1%nat 1%nat = 60.
Proof. split; [apply chain_separate|]. split; [apply chain_symmetric|]. split; [apply chain_symmetric|apply chain_tangent]. Qed.
