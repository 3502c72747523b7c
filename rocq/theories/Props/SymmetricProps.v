(** Property C87: tangent matrices of systems with springs. *)
From Coq Require Import Reals List Arith Bool.
From Verif.Lib Require Import RSum Py.
From Verif.Spec Require Import Harmonic Energy Potential.
From Verif.Model Require Import Harmonic VibSys SysElements.
From Verif.Proofs Require Import PotentialCaseP SymmetricJacobianP SymmetricCaseP.
Import ListNotations.
Open Scope R_scope.

(** * C87 *)
(** The Jacobian of static_res is symmetric, also where a spring has a kink. *)
Theorem C87_static : forall s Fst U, symmetric_matrix (vs_N s) (vs_K s) -> separate_springs (vs_N s) (vs_forces s) ->
  exists Rr J, static_res s U Fst = Ok (Rr, J) /\ symmetric_matrix (vs_N s) J.
Proof. exact static_symmetric. Qed.
Print Assumptions C87_static.

(** Without damping, the Jacobian of hbm_res is symmetric when each row is weighted by the mean square of its component. *)
Theorem C87_harmonic : forall s h Nt X Fl, admissible h -> (2 * list_max h + 1 < Nt)%nat -> Nat.even Nt = true ->
  let N := vs_N s in let n := (length (components h) * N)%nat in
  X n <> 0 -> symmetric_matrix N (vs_M s) -> symmetric_matrix N (vs_K s) -> (forall i j, (i < N)%nat -> (j < N)%nat -> vs_C s i j = 0) ->
  separate_springs N (vs_forces s) ->
  exists Rr J Jw, hbm_res s X Fl h Nt true = Ok (Rr, Some (J, Jw)) /\
    forall r c, (r < n)%nat -> (c < n)%nat -> share N h r * J r c = share N h c * J c r.
Proof. exact hbm_symmetric. Qed.
Print Assumptions C87_harmonic.

(** The chain of C86_case with the wall touched. *)
Example C87_case : separate_springs (vs_N chain) (vs_forces chain) /\ symmetric_matrix 2 (vs_M chain) /\ symmetric_matrix 2 (vs_K chain) /\
  exists Rr J, static_res chain chain_u (fun _ => 1) = Ok (Rr, J) /\ J 0%nat 1%nat = -49 /\ J 1%nat 0%nat = -49 /\ J 0%nat 0%nat = 50 /\ J 1%nat 1%nat = 60.
Proof. exact chain_symmetric_case. Qed.
Print Assumptions C87_case.
