(** Vocabulary of property C65: what the post-processed local results of a nonlinear force must satisfy, and for which forces. *)
From Coq Require Import Reals List Arith.
From Verif.Lib Require Import RSum Py.
From Verif.Spec Require Import Harmonic Elements Slider IwanCalls.
From Verif.Model Require Import Jenkins Iwan JaxFriction PostHarmonic.
Open Scope R_scope.

(** r holds the local harmonics and samples of the motion U, the Fourier coefficients of the force samples, and coefficients that give
    the harmonic force F when applied through T *)
Definition reproduces (N : nat) (m : member) (U : vec) (h : list nat) (Nt : nat) (F : vec) (r : local_result) : Prop :=
  let comp := fun c => nth c (components h) (Cos O) in
  let nhc := length (components h) in
  (forall c d, lr_Uh r c d = rsum N (fun j => mb_Q m d j * U (c * N + j)%nat)) /\
  (forall d n, (n < Nt)%nat -> lr_ut r d n = local_motion N (mb_Q m) h U d (sample_phase Nt n)) /\
  (forall d c, (c < nhc)%nat -> lr_Fh r d c = fourier_coef Nt (lr_ft r d) (comp c)) /\
  (forall c i, (c < nhc)%nat -> (i < N)%nat -> F (c * N + i)%nat = rsum (mb_nnl m) (fun d => mb_T m i d * lr_Fh r d c)).

(** the forces for which this is claimed.  The element classes with one slider history and a stopping tolerance must stop after the same
    pass with the tolerance of the post-processing as with the tolerance 1e-10 of aft. *)
Definition post_ready (N : nat) (U : vec) (h : list nat) (Nt : nat) (tol : R) (m : member) : Prop :=
  let u := repeat_samples Nt (fun n => local_motion N (mb_Q m) h U 0 (sample_phase Nt n)) in
  let first := local_first_coef N (mb_Q m) U in
  match mb_element m with
  | EInstant _ | ECoupled _ => True
  | EJenkins s => mb_nnl m = 1%nat /\ 0 <= j_Fs s /\
      let f := Rabs (jenkins_law (j_kt s) (j_Fs s) u first (Nt - 1)) in (tol < f <-> default_tol < f)
  | EVectorJenkins s => mb_nnl m = 1%nat /\ 0 <= j_Fs s
  | EIwan s => mb_nnl m = 1%nat /\ (forall i, (i < iw_n s)%nat -> 0 <= iw_phi s i) /\
      let f := Rabs (bank_law (iw_n s) (iw_w s) (iw_phi s) u first (Nt - 1)) in (tol < f <-> default_tol < f)
  | EVectorIwan s => mb_nnl m = 1%nat /\ (forall i, (i < iw_n s)%nat -> 0 <= iw_phi s i)
  | EEldry p ne P (Some (inr _)) => mb_nnl m = (p * ne)%nat /\ (0 < p)%nat /\ (0 < ne)%nat /\ 0 < ep_kn P /\ 0 <= ep_mu P /\ (1 < length (components h))%nat
  | _ => False
  end.
