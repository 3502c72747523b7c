(** Property C91: the principle of minimum potential energy. *)
From Coq Require Import Reals List Arith Bool.
From Verif.Lib Require Import RSum Py.
From Verif.Spec Require Import Calculus Elements System Energy StaticStates Potential Convex.
From Verif.Model Require Import VibSys SysElements.
From Verif.Proofs Require Import PotentialCaseP ConvexP.
Import ListNotations.
Open Scope R_scope.

(** * C91 *)
(** With a symmetric stiffness matrix that stores no negative energy and springs with convex energies, the residual that static_res returns
    is zero exactly where the potential energy is smallest. *)
Theorem C91_minimum : forall s ps Fst U, symmetric_matrix (vs_N s) (vs_K s) -> (forall x, 0 <= quadratic (vs_N s) (vs_K s) x) ->
  convex_springs (vs_N s) (vs_forces s) ps ->
  exists Rr J, static_res s U Fst = Ok (Rr, J) /\ ((forall i, (i < vs_N s)%nat -> Rr i = 0) <-> minimises (potential_energy (vs_N s) (vs_K s) ps Fst) U).
Proof. exact static_minimum. Qed.
Print Assumptions C91_minimum.

(** With a stiffness of at least m, the residual bounds how far the energy of U lies above that of any V, and away from a static state the
    energy grows at least quadratically. *)
Theorem C91_gap : forall s m ps Fst U V, symmetric_matrix (vs_N s) (vs_K s) -> stiffness_at_least (vs_N s) m (vs_K s) ->
  convex_springs (vs_N s) (vs_forces s) ps ->
  exists Rr J, static_res s U Fst = Ok (Rr, J) /\
    potential_energy (vs_N s) (vs_K s) ps Fst U - potential_energy (vs_N s) (vs_K s) ps Fst V <= length2 (vs_N s) Rr / (2 * m) /\
    ((forall i, (i < vs_N s)%nat -> Rr i = 0) ->
       m / 2 * length2 (vs_N s) (fun i => V i - U i) <= potential_energy (vs_N s) (vs_K s) ps Fst V - potential_energy (vs_N s) (vs_K s) ps Fst U).
Proof. exact energy_gap. Qed.
Print Assumptions C91_gap.

(** Cubic and quintic springs with stiffness >= 0, walls and Iwan backbones have convex energies. *)
Theorem C91_hardening : forall N fs, Forall (hardening N) fs -> exists ps, convex_springs N fs ps.
Proof. exact hardening_springs. Qed.
Print Assumptions C91_hardening.

(** A chain of two masses with a cubic spring and a wall meets the hypotheses; pushed by -3 and 28 it rests at 2 and 3. *)
Example C91_case : Forall (hardening 2) (vs_forces chain) /\ symmetric_matrix 2 chain_K /\ stiffness_at_least 2 1 chain_K /\
  convex_springs 2 (vs_forces chain) chain_ps /\ minimises (potential_energy 2 chain_K chain_ps chain_push) chain_rest.
Proof. exact chain_minimum. Qed.
Print Assumptions C91_case.

(** Convexity is needed: with a softening spring (stiffness -1) the origin has no residual but not the smallest energy. *)
Example C91_softening : springs 1 (vs_forces soft) soft_ps /\ stiffness_at_least 1 1 one /\
  (exists Rr J, static_res soft (fun _ => 0) (fun _ => 0) = Ok (Rr, J) /\ forall i, Rr i = 0) /\
  ~ minimises (potential_energy 1 one soft_ps (fun _ => 0)) (fun _ => 0).
Proof. exact soft_not_minimum. Qed.
Print Assumptions C91_softening.
