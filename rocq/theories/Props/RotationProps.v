(** Property C72: harmonic forces and residuals do not depend on where the period starts. *)
From Coq Require Import Reals List Arith Bool.
From Verif.Lib Require Import RSum Py.
From Verif.Spec Require Import Harmonic Elements Slider Galerkin Rotation.
From Verif.Model Require Import Harmonic VibSys SysElements Jenkins SysHistory SysHarmonic.
From Verif.Proofs Require Import RotationP RotationCaseP.
Import ListNotations.
Open Scope R_scope.

(** * C72 *)
(** If V is the motion U delayed by a whole number of samples, every element returns the delayed forces: sampled elements without memory,
    and friction elements in their steady state, although their evaluation starts from rest at another point of the motion. *)
Theorem C72_elements_partial : forall N h Nt p w U V e, admissible h -> (2 * list_max h + 1 < Nt)%nat -> Nat.even Nt = true -> whole_samples Nt p -> delayed N h p U V ->
  steady_evaluation N h Nt e U -> steady_evaluation N h Nt e V -> forces_delayed N h Nt p w U V e.
Proof. exact element_delay. Qed.
Print Assumptions C72_elements_partial.

(** The conditions of C72_elements_partial on the elements without memory hold for all of them. *)
Theorem C72_no_memory : forall N nnl Q T h Nt, admissible h -> (2 * list_max h + 1 < Nt)%nat -> Nat.even Nt = true ->
  (forall k U, steady_evaluation N h Nt (ElInstant (cubic_nl N nnl Q T k)) U) /\
  (forall k U, steady_evaluation N h Nt (ElInstant (quintic_nl N nnl Q T k)) U) /\
  (forall c U, steady_evaluation N h Nt (ElInstant (damping_nl N nnl Q T c)) U) /\
  (forall k Np delta U, steady_evaluation N h Nt (ElInstant (unilateral_nl N nnl Q T k Np delta)) U) /\
  (forall kt Fs chi beta U, steady_evaluation N h Nt (ElInstant (iwan_nl N nnl Q T kt Fs chi beta)) U) /\
  (forall cnl E qq U, steady_evaluation N h Nt (ElInstant (poly_nl N nnl cnl Q T E qq)) U).
Proof. exact sampled_elements. Qed.
Print Assumptions C72_no_memory.

(** Elements that return Fourier integrals do so for delays by any phase; by C71 these are the elements with polynomial forces and enough
    samples. *)
Theorem C72_any_phase : forall N h Nt p w U V f psi, local_in_time N psi -> integrated_harmonics N h Nt f psi -> delayed N h p U V -> forces_delayed N h Nt p w U V (ElInstant f).
Proof. exact integral_delay. Qed.
Print Assumptions C72_any_phase.

Theorem C72_polynomial : forall N nnl Q T h Nt, admissible h -> (2 * list_max h + 1 < Nt)%nat -> Nat.even Nt = true ->
  forall f, (exists k, f = cubic_nl N nnl Q T k /\ (4 * list_max h < Nt)%nat) \/ (exists k, f = quintic_nl N nnl Q T k /\ (6 * list_max h < Nt)%nat) \/
    (exists c, f = damping_nl N nnl Q T c /\ (4 * list_max h < Nt)%nat) \/
    (exists cnl E qq p, f = poly_nl N nnl cnl Q T E qq /\ (forall m, (m < cnl)%nat -> (fold_right Nat.add O (map (qq m) (seq 0 nnl)) <= p)%nat) /\ ((p + 1) * list_max h < Nt)%nat) ->
  exists psi, local_in_time N psi /\ integrated_harmonics N h Nt f psi.
Proof. exact integrated_elements. Qed.
Print Assumptions C72_polynomial.

(** Rotating a solution of a system and its forces with rotate_subtract_phase rotates the residual of hbm_res.  A rotated solution solves
    the rotated problem. *)
Theorem C72_solution_partial : forall N h Nt M C K els X Fl phase k, admissible h -> (2 * list_max h + 1 < Nt)%nat -> Nat.even Nt = true ->
  let n := (length (components h) * N)%nat in let p := phase / INR k in
  let Y := rotate_subtract_phase X N h phase k in let Fl' := rotate_subtract_phase Fl N h phase k in
  X n <> 0 ->
  (forall e, In e els -> (whole_samples Nt p /\ steady_evaluation N h Nt e (take n X) /\ steady_evaluation N h Nt e (take n Y)) \/
     exists f psi, e = ElInstant f /\ local_in_time N psi /\ integrated_harmonics N h Nt f psi) ->
  exists l1 R1 l2 R2, sys_hbm_res N M C K els X Fl h Nt = (l1, Ok (Some R1)) /\ sys_hbm_res N M C K els Y Fl' h Nt = (l2, Ok (Some R2)) /\
    delayed N h p R1 R2 /\ ((forall r, (r < n)%nat -> R1 r = 0) <-> (forall r, (r < n)%nat -> R2 r = 0)).
Proof. exact rotated_solution. Qed.
Print Assumptions C72_solution_partial.

(** Without the condition on the first pass the claim is false: the evaluation of a Jenkins element stops after a first pass that ends
    without force, and the returned forces then depend on the start of the period. *)
Theorem C72_early_stop_refuted : exists N h Nt p Q T s w U V e1 F e2 G, admissible h /\ (2 * list_max h + 1 < Nt)%nat /\ Nat.even Nt = true /\ 0 < j_kt s /\ 0 < j_Fs s /\ whole_samples Nt p /\ delayed N h p U V /\
  element_aft N (ElJenkins Q T s) U w h Nt = Ok (e1, Some F) /\ element_aft N (ElJenkins Q T s) V w h Nt = Ok (e2, Some G) /\ ~ delayed N h p F G.
Proof. exact early_stop_delay. Qed.
Print Assumptions C72_early_stop_refuted.

(** A Jenkins element and a cubic spring on the motion -5/4 cos(tau) - 1/4 cos(2 tau) with six samples, rotated by three samples: the
    slider slips both ways and all conditions hold. *)
Example C72_case : let els := [ElJenkins one one (j_new 1 1); ElInstant (cubic_nl 1 1 one one (fun _ => 2))] in
  let phase := - sample_phase 6 3 in let Y := rotate_subtract_phase hex_X 1 hex_h phase 1 in
  admissible hex_h /\ (2 * list_max hex_h + 1 < 6)%nat /\ Nat.even 6 = true /\ length (components hex_h) = 5%nat /\ hex_X 5%nat = 1 /\ whole_samples 6 (phase / INR 1) /\
  forall e, In e els -> steady_evaluation 1 hex_h 6 e (take 5 hex_X) /\ steady_evaluation 1 hex_h 6 e (take 5 Y).
Proof. exact rotation_case. Qed.
