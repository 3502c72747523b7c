(** Property C81: an analysis with subharmonics contains the solutions of the original analysis. *)
From Coq Require Import Reals List Arith Bool.
From Verif.Lib Require Import RSum Py.
From Verif.Spec Require Import Harmonic Elements Slider Galerkin Rotation Subharmonic.
From Verif.Model Require Import Harmonic VibSys SysElements Jenkins SysHistory SysHarmonic.
From Verif.Proofs Require Import RotationCaseP SubharmonicP SubharmonicCaseP.
Import ListNotations.
Open Scope R_scope.

(** * C81 *)
(** Let Y be the motion X written on a period k times as long, with k times the harmonics, perhaps further subharmonics, and k times the
    samples.  For the frequency w / k every element returns the forces for X at the frequency w, written on the longer period. *)
Theorem C81_elements_partial : forall N k Nt h1 h2, (0 < k)%nat -> admissible h1 -> admissible h2 -> subharmonic_list k h1 h2 ->
  (2 * list_max h1 + 1 < Nt)%nat -> (2 * list_max h2 + 1 < k * Nt)%nat -> Nat.even Nt = true ->
  forall X Y, repeats N k h1 X h2 Y -> forall w e, sampled_element N e -> steady_evaluation N h1 Nt e X -> steady_evaluation N h2 (k * Nt) e Y ->
  forces_repeat N k Nt w h1 X h2 Y e.
Proof. exact element_repeat. Qed.
Print Assumptions C81_elements_partial.

(** The elements without memory that are covered. *)
Theorem C81_sampled : forall N nnl Q T,
  (forall k, sampled_element N (ElInstant (cubic_nl N nnl Q T k))) /\
  (forall k, sampled_element N (ElInstant (quintic_nl N nnl Q T k))) /\
  (forall c, sampled_element N (ElInstant (damping_nl N nnl Q T c))) /\
  (forall k Np delta, sampled_element N (ElInstant (unilateral_nl N nnl Q T k Np delta))) /\
  (forall kt Fs chi beta, sampled_element N (ElInstant (iwan_nl N nnl Q T kt Fs chi beta))) /\
  (forall cnl E qq, sampled_element N (ElInstant (poly_nl N nnl cnl Q T E qq))).
Proof. exact sampled_all. Qed.
Print Assumptions C81_sampled.

(** The residual of hbm_res on the longer period is the residual on the original period, written on the longer period: a motion solves
    the original equations exactly if it solves the equations with subharmonics. *)
Theorem C81_solution_partial : forall N k Nt h1 h2, (0 < k)%nat -> admissible h1 -> admissible h2 -> subharmonic_list k h1 h2 ->
  (2 * list_max h1 + 1 < Nt)%nat -> (2 * list_max h2 + 1 < k * Nt)%nat -> Nat.even Nt = true ->
  let n1 := (length (components h1) * N)%nat in let n2 := (length (components h2) * N)%nat in
  forall M C K els X Y Fl1 Fl2, X n1 <> 0 -> Y n2 = X n1 / INR k -> repeats N k h1 X h2 Y -> repeats N k h1 Fl1 h2 Fl2 ->
  (forall e, In e els -> sampled_element N e /\ steady_evaluation N h1 Nt e (take n1 X) /\ steady_evaluation N h2 (k * Nt) e (take n2 Y)) ->
  exists l1 R1 l2 R2, sys_hbm_res N M C K els X Fl1 h1 Nt = (l1, Ok (Some R1)) /\ sys_hbm_res N M C K els Y Fl2 h2 (k * Nt) = (l2, Ok (Some R2)) /\
    repeats N k h1 R1 h2 R2 /\ ((forall r, (r < n1)%nat -> R1 r = 0) <-> (forall r, (r < n2)%nat -> R2 r = 0)).
Proof. exact repeated_residual. Qed.
Print Assumptions C81_solution_partial.

(** Every motion, and every load, can be written on the longer period. *)
Theorem C81_extension : forall N k Nt h1 h2, (0 < k)%nat -> admissible h1 -> admissible h2 -> subharmonic_list k h1 h2 ->
  (2 * list_max h1 + 1 < Nt)%nat -> (2 * list_max h2 + 1 < k * Nt)%nat ->
  forall X w, exists Y, repeats N k h1 X h2 Y /\ Y (length (components h2) * N)%nat = w.
Proof. exact repeated_motion. Qed.
Print Assumptions C81_extension.

(** Without the condition on the first pass the claim is false: a Jenkins element whose first pass ends without force returns the first
    pass, whose transient is a different share of a longer period. *)
Theorem C81_early_stop_refuted : exists N k Nt h1 h2 X Y Q T s w e1 F e2 G, (0 < k)%nat /\ admissible h1 /\ admissible h2 /\ subharmonic_list k h1 h2 /\
  (2 * list_max h1 + 1 < Nt)%nat /\ (2 * list_max h2 + 1 < k * Nt)%nat /\ Nat.even Nt = true /\ 0 < j_kt s /\ 0 < j_Fs s /\ repeats N k h1 X h2 Y /\
  element_aft N (ElJenkins Q T s) X w h1 Nt = Ok (e1, Some F) /\ element_aft N (ElJenkins Q T s) Y (w / INR k) h2 (k * Nt) = Ok (e2, Some G) /\ ~ repeats N k h1 F h2 G.
Proof. exact early_stop_repeat. Qed.
Print Assumptions C81_early_stop_refuted.

(** A Jenkins element that slips both ways and a cubic spring on the motion 2 cos(tau), on the lists [0; 1] with six samples and
    [0; 1; 2] with twelve samples of the doubled period. *)
Example C81_case : let els := [ElJenkins one one (j_new 1 1); ElInstant (cubic_nl 1 1 one one (fun _ => 2))] in
  admissible dbl_h1 /\ admissible dbl_h2 /\ subharmonic_list 2 dbl_h1 dbl_h2 /\ (2 * list_max dbl_h1 + 1 < 6)%nat /\ (2 * list_max dbl_h2 + 1 < 2 * 6)%nat /\ Nat.even 6 = true /\
  dbl_X 3%nat = 1 /\ dbl_Y 5%nat = 1 / INR 2 /\ repeats 1 2 dbl_h1 dbl_X dbl_h2 dbl_Y /\
  forall e, In e els -> sampled_element 1 e /\ steady_evaluation 1 dbl_h1 6 e (take 3 dbl_X) /\ steady_evaluation 1 dbl_h2 (2 * 6) e (take 5 dbl_Y).
Proof. exact doubled_case. Qed.
