(** Vocabulary: solutions of the differential equation that shooting integrates, and their energy. *)
From Coq Require Import Reals List Arith.
From Verif.Lib Require Import RSum Py.
From Verif.Spec Require Import Potential.
From Verif.Model Require Import VibSys.
Import ListNotations.
Open Scope R_scope.

(** the displacements (entries 0 to N-1 of y t) and velocities (N to 2N-1) follow _shooting_state_space *)
Definition trajectory (inv : mat -> mat) (s : vibsys) (Fl : vec) (w : R) (y : R -> vec) : Prop :=
  forall t, exists dy, shooting_state_space inv t (y t) s Fl w = Ok dy /\
    forall i, (i < 2 * vs_N s)%nat -> derivable_pt_lim (fun t => y t i) t (dy i).

(** the system without its other nonlinear elements *)
Definition with_only (f : nlforce) (s : vibsys) : vibsys := mkSys (vs_N s) (vs_M s) (vs_K s) (vs_C s) (vs_ab s) [f].

Definition velocity (N : nat) (y : vec) : vec := fun i => y (N + i)%nat.

(** kinetic energy, and potential energy in the stiffness matrix and the springs *)
Definition total_energy (s : vibsys) (ps : list (mat * (vec -> R))) (y : vec) : R :=
  quadratic (vs_N s) (vs_M s) (velocity (vs_N s) y) / 2 + potential_energy (vs_N s) (vs_K s) ps (fun _ => 0) y.

(** power of the harmonic load and of the damping matrix *)
Definition load_power (N : nat) (Fl : vec) (w t : R) (v : vec) : R := rsum N (fun i => (Fl i * cos (w * t) + Fl (N + i)%nat * sin (w * t)) * v i).
