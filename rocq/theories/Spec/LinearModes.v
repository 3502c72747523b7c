(** Vocabulary of the link between the linear modes of a system and its EPMC solutions. *)
From Coq Require Import Reals List Arith.
From Verif.Lib Require Import RSum Py.
From Verif.Spec Require Import Harmonic System.
From Verif.Model Require Import Harmonic VibSys.
Import ListNotations.
Open Scope R_scope.

(** x is a shape (possibly zero) of the undamped linear modes of (K, M) with frequency w *)
Definition linear_mode (N : nat) (K M : mat) (w : R) (x : vec) : Prop :=
  forall i, (i < N)%nat -> rsum N (fun j => K i j * x j) = w ^ 2 * rsum N (fun j => M i j * x j).

(** the coefficients U describe the motion us + z cos(tau) + y sin(tau); us is zero if h does not contain the harmonic 0 *)
Definition modal_vibration (N : nat) (h : list nat) (us z y U : vec) : Prop :=
  (~ In O h -> forall j, (j < N)%nat -> us j = 0) /\
  forall j tau, (j < N)%nat -> series h (dof_coefs N U j) tau = us j + z j * cos tau + y j * sin tau.

(** us is the static equilibrium of the linear system under the constant part of Fl *)
Definition static_equilibrium (N : nat) (h : list nat) (K : mat) (Fl us : vec) : Prop :=
  forall i, (i < N)%nat -> rsum N (fun j => K i j * us j) = static_part h Fl i.

(** x' M x *)
Definition mass_of (N : nat) (M : mat) (x : vec) : R := rsum N (fun i => x i * rsum N (fun j => M i j * x j)).

Definition positive_definite (N : nat) (M : mat) : Prop :=
  forall x : vec, (exists i, (i < N)%nat /\ x i <> 0) -> 0 < mass_of N M x.

(** C = al M + be K *)
Definition proportional_damping (N : nat) (M C K : mat) (al be : R) : Prop :=
  forall i j, (i < N)%nat -> (j < N)%nat -> C i j = al * M i j + be * K i j.

(** no linear mode at a multiple k w of the frequency, for the other harmonics k of h *)
Definition no_internal_resonance (N : nat) (h : list nat) (K M : mat) (w : R) : Prop :=
  forall k x, In k h -> (1 < k)%nat -> linear_mode N K M (INR k * w) x -> forall i, (i < N)%nat -> x i = 0.
