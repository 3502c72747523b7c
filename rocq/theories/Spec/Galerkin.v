(** Vocabulary for statements about harmonic forces as Fourier integrals over one period. *)
From Coq Require Import Reals List Arith.
From Verif.Lib Require Import RSum Py.
From Verif.Spec Require Import Harmonic System.
From Verif.Model Require Import VibSys.
Import ListNotations.
Open Scope R_scope.

(** I is the integral of f over one period [0, 2 pi], by an antiderivative *)
Definition period_integral (f : R -> R) (I : R) : Prop :=
  exists F, (forall t, derivable_pt_lim F t (f t)) /\ I = F (2 * PI) - F 0.

(** a is the Fourier coefficient of the function f (of the phase) on the component c: the mean value of f for the constant, twice the
    mean of the product with the component otherwise *)
Definition fourier_integral (f : R -> R) (c : comp) (a : R) : Prop :=
  exists I, period_integral (fun t => f t * comp_fun c t) I /\ a = (match c with Cos O => 1 | _ => 2 end) / (2 * PI) * I.

(** v is the derivative of the displacement of every degree of freedom by the phase *)
Definition phase_velocity (N : nat) (h : list nat) (U : vec) (v : nat -> R -> R) : Prop :=
  forall j tau, (j < N)%nat -> derivable_pt_lim (series h (dof_coefs N U j)) tau (v j tau).

(** Forces of an element: phi U w v i tau is the force on degree of freedom i at phase tau during the motion with harmonic coefficients
    U, frequency w and phase velocities v.  The element returns the Fourier coefficients of this force. *)
Definition exact_harmonics (N : nat) (h : list nat) (Nt : nat) (f : nlforce) (phi : vec -> R -> (nat -> R -> R) -> nat -> R -> R) : Prop :=
  forall U w v, phase_velocity N h U v -> exists F dU dw, nl_aft f U w h Nt = Ok (F, dU, dw) /\
    forall c i, (c < length (components h))%nat -> (i < N)%nat -> fourier_integral (phi U w v i) (nth c (components h) (Cos O)) (F (c * N + i)%nat).

(** velocity of the local displacement d *)
Definition local_velocity (N : nat) (Q : mat) (w : R) (v : nat -> R -> R) (d : nat) (tau : R) : R := w * rsum N (fun j => Q d j * v j tau).

(** what is left of the equation of motion i at phase tau: M u'' + C u' + K u + forces - external force, with velocities v and
    accelerations a by the phase *)
Definition motion_residual (N : nat) (h : list nat) (M C K : mat) (U Fl : vec) (w : R) (v a : nat -> R -> R) (forces : nat -> R -> R) (i : nat) (tau : R) : R :=
  rsum N (fun j => M i j * (w ^ 2 * a j tau) + C i j * (w * v j tau) + K i j * series h (dof_coefs N U j) tau) + forces i tau - series h (dof_coefs N Fl i) tau.
