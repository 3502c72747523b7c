(** Property C89: damping of nonlinear modes with springs. *)
From Coq Require Import Reals List Arith Bool.
From Verif.Lib Require Import RSum Py.
From Verif.Spec Require Import Harmonic System Galerkin Energy Potential.
From Verif.Model Require Import Harmonic VibSys SysElements.
From Verif.Proofs Require Import RotationCaseP EnergyCaseP ModeDampingP.
Import ListNotations.
Open Scope R_scope.

(** * C89 *)
(** At every zero of the residual of epmc_res the damping coefficient is the mass-proportional damping of the system: springs sampled often
    enough change it at no amplitude.  With alpha = 0 the mode of an undamped system is undamped. *)
Theorem C89_mode_damping : forall s h Nt X Fl alpha Rr G, admissible h -> starts_with_1 h -> (2 * list_max h + 1 < Nt)%nat -> Nat.even Nt = true ->
  let N := vs_N s in let n := (length (components h) * N)%nat in
  X n <> 0 -> symmetric_matrix N (vs_M s) -> symmetric_matrix N (vs_K s) -> positive_semidefinite N (vs_M s) ->
  (forall i j, (i < N)%nat -> (j < N)%nat -> vs_C s i j = alpha * vs_M s i j) -> Forall (sampled_spring N h Nt) (vs_forces s) ->
  epmc_res s X Fl h Nt true = Ok (Rr, Some G) -> (forall i, (i < n + 2)%nat -> Rr i = 0) -> X (n + 1)%nat = alpha.
Proof. exact mode_damping. Qed.
Print Assumptions C89_mode_damping.

(** The nonlinear mode cos(2 t) of an oscillator with mass 1, stiffness 1, cubic stiffness 4 and damping 1/10. *)
Example C89_case : admissible [1%nat] /\ starts_with_1 [1%nat] /\ spring_X 2%nat <> 0 /\ symmetric_matrix 1 one /\ positive_semidefinite 1 one /\
  (forall i j, vs_C spring_sys i j = 1/10 * one i j) /\ Forall (sampled_spring 1 [1%nat] 6) (vs_forces spring_sys) /\
  exists Rr G, epmc_res spring_sys spring_X mode_F [1%nat] 6 true = Ok (Rr, Some G) /\ forall i, (i < 4)%nat -> Rr i = 0.
Proof. exact spring_mode. Qed.
Print Assumptions C89_case.
