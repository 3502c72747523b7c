(** Vocabulary for statements about motions that are shifted in time. *)
From Coq Require Import Reals ZArith List Arith.
From Verif.Lib Require Import RSum Py.
From Verif.Spec Require Import Harmonic Elements Slider Galerkin.
From Verif.Model Require Import VibSys Jenkins Iwan JaxFriction SysHistory SysHarmonic.
Import ListNotations.
Open Scope R_scope.

(** V holds the coefficients of the functions of U, delayed by the phase p *)
Definition delayed (N : nat) (h : list nat) (p : R) (U V : vec) : Prop :=
  forall d tau, (d < N)%nat -> series h (dof_coefs N V d) tau = series h (dof_coefs N U d) (tau - p).

(** p is a whole number of samples *)
Definition whole_samples (Nt : nat) (p : R) : Prop := exists m : Z, p = 2 * PI * IZR m / INR Nt.

(** a force on every degree of freedom that depends on the current displacements and velocities of the N degrees of freedom only *)
Definition local_in_time (N : nat) (psi : vec -> vec -> nat -> R) : Prop :=
  forall u u' v v' i, (forall j, (j < N)%nat -> u j = u' j /\ v j = v' j) -> psi u v i = psi u' v' i.

(** the element returns the discrete Fourier coefficients of this force at the Nt samples *)
Definition sampled_harmonics (N : nat) (h : list nat) (Nt : nat) (f : nlforce) (psi : vec -> vec -> nat -> R) : Prop :=
  forall U w v, phase_velocity N h U v -> exists F dU dw, nl_aft f U w h Nt = Ok (F, dU, dw) /\
    forall c i, (c < length (components h))%nat -> (i < N)%nat ->
      F (c * N + i)%nat = fourier_coef Nt (fun n => psi (fun j => series h (dof_coefs N U j) (sample_phase Nt n)) (fun j => w * v j (sample_phase Nt n)) i) (nth c (components h) (Cos O)).

(** the element returns the Fourier integrals of this force *)
Definition integrated_harmonics (N : nat) (h : list nat) (Nt : nat) (f : nlforce) (psi : vec -> vec -> nat -> R) : Prop :=
  exact_harmonics N h Nt f (fun U w v i tau => psi (fun j => series h (dof_coefs N U j) tau) (fun j => w * v j tau) i).

(** elements and motions U whose harmonic forces are compared: sampled forces without memory, and friction elements that do not stop
    after the first pass through the period (at a force below the tolerance) *)
Definition steady_evaluation (N : nat) (h : list nat) (Nt : nat) (e : element) (U : vec) : Prop :=
  let u := fun Q d => repeat_samples Nt (fun n => local_motion N Q h U d (sample_phase Nt n)) in
  match e with
  | ElInstant f => exists psi, local_in_time N psi /\ sampled_harmonics N h Nt f psi
  | ElJenkins Q T s => 0 <= j_Fs s /\ default_tol < Rabs (jenkins_law (j_kt s) (j_Fs s) (u Q O) (local_first_coef N Q U) (Nt - 1))
  | ElIwan Q T s => (forall i, (i < iw_n s)%nat -> 0 <= iw_phi s i) /\
      default_tol < Rabs (bank_law (iw_n s) (iw_w s) (iw_phi s) (u Q O) (local_first_coef N Q U) (Nt - 1))
  | ElEldry p ne Q T s => (0 < p)%nat /\ (0 < ne)%nat /\ 0 < ep_kn (ed_pars s) /\ 0 <= ep_mu (ed_pars s) /\ (1 < length (components h))%nat
  | ElJaxJenkins _ _ _ _ Fs _ _ => 0 <= Fs /\ (1 < length (components h))%nat
  | _ => False
  end.

(** the harmonic forces of e at V are those at U, delayed by p *)
Definition forces_delayed (N : nat) (h : list nat) (Nt : nat) (p w : R) (U V : vec) (e : element) : Prop :=
  exists e1 F e2 G, element_aft N e U w h Nt = Ok (e1, Some F) /\ element_aft N e V w h Nt = Ok (e2, Some G) /\ delayed N h p F G.
