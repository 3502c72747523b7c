(** Vocabulary for the linear initial guess. *)
From Coq Require Import Reals List Arith.
From Verif.Lib Require Import RSum.
From Verif.Spec Require Import Calculus Harmonic System.
From Verif.Model Require Import VibSys.
Import ListNotations.
Open Scope R_scope.

(** the system without its nonlinear forces *)
Definition linear_part (s : vibsys) : vibsys := mkSys (vs_N s) (vs_M s) (vs_K s) (vs_C s) (vs_ab s) [].

(** the damping matrix is a M + b K and [eigs] returns all modes of the system *)
Definition modal_system (s : vibsys) (eigs : mat -> mat -> nat -> vec * mat) (a b : R) : Prop :=
  vs_ab s = Some (a, b) /\
  (forall i j, (i < vs_N s)%nat -> (j < vs_N s)%nat -> vs_C s i j = a * vs_M s i j + b * vs_K s i j) /\
  all_modes (vs_N s) (vs_K s) (vs_M s) (fst (eigs (vs_K s) (vs_M s) (vs_N s))) (snd (eigs (vs_K s) (vs_M s) (vs_N s))).

(** no undamped mode of the system at frequency w *)
Definition off_resonance (s : vibsys) (eigs : mat -> mat -> nat -> vec * mat) (a b w : R) : Prop :=
  no_resonance (vs_N s) a b w (fst (eigs (vs_K s) (vs_M s) (vs_N s))).

(** the static displacement given (zero if none) carries the static force *)
Definition static_solution (s : vibsys) (h : list nat) (Xstat : option vec) (Fl : vec) : Prop :=
  In O h -> forall i, (i < vs_N s)%nat ->
    rsum (vs_N s) (fun j => vs_K s i j * match Xstat with Some x => x j | None => 0 end) = Fl i.

(** the control point recov . u is at rest in the steady response of the linear system to the first harmonic of the force Fl *)
Definition at_rest (s : vibsys) (w : R) (h : list nat) (Fl recov : vec) : Prop := exists xc xs,
  equation_of_motion (vs_N s) [1%nat] (vs_M s) (vs_C s) (vs_K s) (cos_sin (vs_N s) xc xs) w (fun _ _ => 0) (harmonic_part 1 (vs_N s) h Fl w) /\
  forall t, recovered (vs_N s) [1%nat] recov (cos_sin (vs_N s) xc xs) w t = 0.
