(** Two masses in a chain, joined by a cubic spring; the second one can touch a wall. *)
From Coq Require Import Reals Lra Lia Arith List Bool.
From Verif.Lib Require Import RSum Calc Py.
From Verif.Spec Require Import Calculus Harmonic Elements System Galerkin Energy StaticHistory Potential.
From Verif.Model Require Import Harmonic VibSys SysElements.
From Verif.Proofs Require Import HarmonicP FourierP AftP EnergyP PotentialP PotentialHbmP.
Import ListNotations.
Open Scope R_scope.

Definition chain_M : mat := fun i j => if Nat.eqb i j then 1 else 0.
Definition chain_K : mat := fun i j => if Nat.eqb i j then 2 else -1.
(** stretch of the cubic spring: second minus first mass *)
Definition chain_Q : mat := fun _ j => if Nat.eqb j 0 then -1 else 1.
Definition wall_Q : mat := fun _ j => if Nat.eqb j 0 then 0 else 1.
Definition transposed (A : mat) : mat := fun i d => A d i.
Definition chain_cubic := cubic_nl 2 1 chain_Q (transposed chain_Q) (fun _ => 4).
Definition chain_wall := unilateral_nl 2 1 wall_Q (transposed wall_Q) (fun _ => 10) (fun _ => 0) (fun _ => 1).
Definition chain : vibsys := mkSys 2 chain_M chain_K (fun _ _ => 0) None [chain_cubic; chain_wall].
Definition chain_ps : list (mat * (vec -> R)) := [(chain_Q, fun q => q O ^ 4); (wall_Q, fun q => 5 * Rmax (q O - 1) 0 ^ 2)].

Lemma chain_springs : springs 2 (vs_forces chain) chain_ps.
Proof.
  constructor; [|constructor; [|constructor]]; left; exists 1%nat.
  - exists (transposed chain_Q). split; [intros i d _ _; reflexivity|]. left. exists (fun _ => 4). split; [reflexivity|]. intros q. cbn [rsum snd]. field.
  - exists (transposed wall_Q). split; [intros i d _ _; reflexivity|]. right. right. left. exists (fun _ => 10), (fun _ => 0), (fun _ => 1). split; [intros; lra|]. split; [reflexivity|].
    intros q. cbn [rsum snd]. lra.
Qed.

Lemma chain_symmetric : symmetric_matrix 2 chain_M /\ symmetric_matrix 2 chain_K.
Proof. split; intros i j _ _; unfold chain_M, chain_K; rewrite (Nat.eqb_sym i j); reflexivity. Qed.

Lemma chain_case :
  symmetric_matrix 2 (vs_M chain) /\ symmetric_matrix 2 (vs_K chain) /\ springs (vs_N chain) (vs_forces chain) chain_ps /\
  potential_energy 2 chain_K chain_ps (fun _ => 1) (fun j => if Nat.eqb j 0 then 1 else 3) = 39 /\
  exists v, (forall U, phase_velocity 2 [0; 1; 2]%nat U (v U)) /\ admissible [0; 1; 2]%nat /\ (2 * list_max [0; 1; 2] + 1 < 8)%nat.
Proof.
  split; [apply chain_symmetric|]. split; [apply chain_symmetric|]. split; [apply chain_springs|]. split.
  - unfold potential_energy, quadratic, lsum, chain_ps, chain_K, local_at, chain_Q, wall_Q. cbn [rsum map fold_right fst snd Nat.eqb].
    rewrite Rmax_left by lra. field.
  - exists (fun U j tau => dseries [0; 1; 2]%nat (dof_coefs 2 U j) tau). split; [intros U j tau _; apply series_dseries|].
    split; [|cbn; lia]. repeat split; [discriminate|repeat constructor; cbn; intuition discriminate|cbn; intuition discriminate].
Qed.
