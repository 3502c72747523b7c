(** Property C29 for the JAX vectorised Jenkins element.
    Specification: Spec/Slider.v (jenkins_law, reverses, reversals_at_most, steady_state), Spec/Harmonic.v, Spec/Calculus.v. *)
From Coq Require Import Reals Lra Lia Arith List Bool.
From Verif.Lib Require Import RSum Py.
From Verif.Spec Require Import Slider Calculus Harmonic Elements.
From Verif.Model Require Import Harmonic Aft JaxDual JaxFriction JaxVectorJenkins.
From Verif.Proofs Require Import HystAftP AftP JaxVectorP JaxVectorAftP.
Import ListNotations.
Open Scope R_scope.

(** C29: whenever the samples have no more reversals than the element keeps (twice the highest harmonic), aft returns the Fourier
    coefficients of the steady-state Jenkins force, with zero frequency derivative, and the exact Jacobian wherever no two
    neighbouring samples are equal and no step is exactly at the slip limit.  The last harmonic of the list must be the highest. *)
Theorem C29_steady_partial N Q T kt Fs u0 h Nt
  (harmonics : admissible h) (samples : (2 * list_max h + 1 < Nt)%nat) (even_samples : Nat.even Nt = true)
  (last_is_highest : last h O = list_max h)
  (several : (1 < length (components h))%nat) (slip_limit_nonneg : 0 <= Fs) :
  let nhc := length (components h) in
  exists (F : vec -> R -> vec) (dU : vec -> R -> mat) (dw : vec -> R -> vec),
    (forall U w, jax_vector_jenkins_aft N Q T kt Fs u0 U w h Nt = Ok (F U w, dU U w, dw U w)) /\
    (forall U w,
       let start := match u0 with None => local_first_coef N Q U | Some x => x end in
       let u := fun n => local_motion N Q h U 0 (sample_phase Nt n) in
       let law := jenkins_law kt Fs (repeat_samples Nt u) start in
       reversals_at_most Nt u (2 * list_max h) ->
       steady_state Nt law (fun n => law (Nt + n)%nat) /\
       forall c i, (c < nhc)%nat -> (i < N)%nat ->
         F U w (c * N + i)%nat = T i 0%nat * fourier_coef Nt (fun n => law (Nt + n)%nat) (nth c (components h) (Cos O))) /\
    (forall U w r, (r < nhc * N)%nat -> dw U w r = 0) /\
    (forall U w,
       let start := match u0 with None => local_first_coef N Q U | Some x => x end in
       let u := fun n => local_motion N Q h U 0 (sample_phase Nt n) in
       (forall n, (n < Nt)%nat -> u (S n) <> u n) ->
       (forall j, (j < 2 * Nt)%nat -> Rabs (trial kt Fs (repeat_samples Nt u) start j) <> Fs) ->
       is_joint_jacobian (nhc * N) (nhc * N) F U w (dU U w) (dw U w)).
Proof. exact (jax_vector_exact N Q T kt Fs u0 h Nt harmonics samples even_samples last_is_highest several slip_limit_nonneg). Qed.
Print Assumptions C29_steady_partial.

(** C29: that bound on the reversals holds for every motion whose neighbouring samples differ, because a trigonometric polynomial of
    degree H changes its sign at most 2 H times per period. *)
Theorem C29_reversals h X Nt (samples : (1 < Nt)%nat)
  (no_plateau : forall k, (k < Nt)%nat -> series h X (sample_phase Nt (S k)) <> series h X (sample_phase Nt k)) :
  reversals_at_most Nt (fun k => series h X (sample_phase Nt k)) (2 * list_max h).
Proof. exact (series_reversals h X Nt samples no_plateau). Qed.
Print Assumptions C29_reversals.

(** a motion with sticking and slipping steps that meets the hypotheses of both *)
Example C29_case :
  let U := fun p : nat => match p with 2 => 5 / 4 | _ => 0 end in
  let u := fun n => local_motion 1 (fun _ _ => 1) [O; 1%nat] U 0 (sample_phase 4 n) in
  (forall j, (j < 2 * 4)%nat -> Rabs (trial 1 1 (repeat_samples 4 u) (local_first_coef 1 (fun _ _ => 1) U) j) <> 1) /\
  (forall n, (n < 4)%nat -> u (S n) <> u n) /\ last [O; 1%nat] O = list_max [O; 1%nat].
Proof. exact vector_case. Qed.

(** C29 fails for a motion with equal neighbouring samples (0, 1, 1, 0, -1, -1 out of harmonic 1): every plateau counts as two reversals,
    three points are kept out of five, and the returned mean force is -1/6 where the steady-state force has mean 0. *)
Theorem C29_plateau_refuted : let start := 0 in
  let plateau := fun p : nat => match p with 2 => 2 / sqrt 3 | _ => 0 end in
  let law := jenkins_law 1 (1 / 2) (repeat_samples 6 (fun n => local_motion 1 (fun _ _ => 1) [O; 1%nat] plateau 0 (sample_phase 6 n))) start in
  exists F dU dw, jax_vector_jenkins_aft 1 (fun _ _ => 1) (fun _ _ => 1) 1 (1 / 2) (Some start) plateau 1 [O; 1%nat] 6 = Ok (F, dU, dw) /\
    F O = - (1 / 6) /\ fourier_coef 6 (fun n => law (6 + n)%nat) (Cos O) = 0.
Proof. exact plateau_wrong. Qed.
Print Assumptions C29_plateau_refuted.
