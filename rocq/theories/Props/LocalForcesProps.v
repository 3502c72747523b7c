(** Property C65: local_harmonic_forces against the aft methods.  Specification: Spec/LocalResults.v. *)
From Coq Require Import Reals Lra Lia Arith List Bool.
From Verif.Lib Require Import RSum Py.
From Verif.Spec Require Import Harmonic Elements Slider LocalResults.
From Verif.Model Require Import Harmonic Jenkins LocalForces Aft JaxFriction PostHarmonic.
From Verif.Proofs Require Import PostHarmonicP.
Import ListNotations.
Open Scope R_scope.

(** C65: for every system of supported elements local_harmonic_forces returns one result per nonlinear force, and it reproduces the
    harmonic force of the element's aft. *)
Theorem C65_reproduces_partial N ms U w h Nt tol
  (harmonics : admissible h) (samples : (2 * list_max h + 1 < Nt)%nat) (even_samples : Nat.even Nt = true)
  (supported : Forall (post_ready N U h Nt tol) ms) :
  exists rs, local_harmonic_forces N ms U w h Nt tol = Ok rs /\
    Forall2 (fun m r => exists F, member_aft N m U w h Nt = Ok F /\ reproduces N m U h Nt F r) ms rs.
Proof. exact (system_reproduces N U w h Nt tol harmonics samples even_samples ms supported). Qed.
Print Assumptions C65_reproduces_partial.

(** a cubic spring, a Jenkins element that slips and a 2D friction contact, with the default tolerance 1e-7 *)
Example C65_case : admissible [1%nat] /\ (2 * list_max [1%nat] + 1 < 4)%nat /\ Nat.even 4 = true /\
  Forall (post_ready 1 post_case_U [1%nat] 4 (/ 10 ^ 7)) post_case.
Proof.
  split; [split; [discriminate|split; [constructor; [tauto|constructor]|tauto]]|]. split; [cbn; lia|]. split; [reflexivity|]. exact post_case_ready.
Qed.

(** C65 is false for the default tolerance of the post-processing: a Jenkins element whose first pass ends with force 1e-8 is
    evaluated with one pass here and with two in aft. *)
Theorem C65_tolerance_refuted : exists F r,
  member_aft 1 tol_m tol_U 1 [1%nat] 4 = Ok F /\ local_harmonic_forces 1 [tol_m] tol_U 1 [1%nat] 4 (/ 10 ^ 7) = Ok [r] /\
  F O = 1 /\ mb_T tol_m 0%nat 0%nat * lr_Fh r 0%nat 0%nat = / 2.
Proof. exact tolerance_differs. Qed.
Print Assumptions C65_tolerance_refuted.

(** C65: the post-processing always raises for the JAX Jenkins elements and for elastic dry friction whose start is not a vector
    (the default start is the scalar 0). *)
Theorem C65_unsupported_refuted N m ms U w h Nt tol
  (harmonics : admissible h) (samples : (2 * list_max h + 1 < Nt)%nat) (even_samples : Nat.even Nt = true)
  (class : match mb_element m with
           | EJaxJenkins _ _ _ | EJaxVectorJenkins _ _ _ => True
           | EEldry _ _ _ None | EEldry _ _ _ (Some (inl _)) => True
           | _ => False
           end) :
  exists e, local_harmonic_forces N (m :: ms) U w h Nt tol = Err e.
Proof. exact (unsupported_raises N m ms U w h Nt tol harmonics samples even_samples class). Qed.
Print Assumptions C65_unsupported_refuted.
