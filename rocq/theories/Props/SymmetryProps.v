(** Property C73: symmetric systems need odd harmonics only. *)
From Coq Require Import Reals List Arith Bool.
From Verif.Lib Require Import RSum Py.
From Verif.Spec Require Import Harmonic Elements Slider Galerkin Rotation Symmetry.
From Verif.Model Require Import Harmonic VibSys SysElements Jenkins SysHistory SysHarmonic.
From Verif.Proofs Require Import RotationCaseP SymmetryP SymmetryCaseP.
Import ListNotations.
Open Scope R_scope.

(** * C73 *)
(** A motion X on a list h1 of odd harmonics, written as Y on a list h2 with further even harmonics: a symmetric element returns the same
    force functions for both lists, so no forces on the even harmonics and unchanged forces on the odd ones. *)
Theorem C73_elements_partial : forall N Nt h1 h2 X Y, admissible h1 -> admissible h2 -> odd_part h1 h2 -> (2 * list_max h2 + 1 < Nt)%nat -> Nat.even Nt = true -> same_motion N h1 X h2 Y ->
  forall w e, symmetric_element N Nt e -> steady_evaluation N h1 Nt e X -> steady_evaluation N h2 Nt e Y -> same_forces N Nt w h1 X h2 Y e.
Proof. exact element_symmetric. Qed.
Print Assumptions C73_elements_partial.

(** The symmetric elements without memory. *)
Theorem C73_symmetric : forall N nnl Q T Nt,
  (forall k, symmetric_element N Nt (ElInstant (cubic_nl N nnl Q T k))) /\
  (forall k, symmetric_element N Nt (ElInstant (quintic_nl N nnl Q T k))) /\
  (forall c, symmetric_element N Nt (ElInstant (damping_nl N nnl Q T c))) /\
  (forall kt Fs chi beta, symmetric_element N Nt (ElInstant (iwan_nl N nnl Q T kt Fs chi beta))) /\
  (forall cnl E qq, (forall m, (m < cnl)%nat -> Nat.odd (fold_right Nat.add O (map (qq m) (seq 0 nnl))) = true) -> symmetric_element N Nt (ElInstant (poly_nl N nnl cnl Q T E qq))).
Proof. exact symmetric_elements. Qed.
Print Assumptions C73_symmetric.

(** The residual of hbm_res on the larger list is the residual on the odd list: a solution with odd harmonics solves the problem with the
    even harmonics as well. *)
Theorem C73_solution_partial : forall N Nt h1 h2, admissible h1 -> admissible h2 -> odd_part h1 h2 -> (2 * list_max h2 + 1 < Nt)%nat -> Nat.even Nt = true ->
  let n1 := (length (components h1) * N)%nat in let n2 := (length (components h2) * N)%nat in
  forall M C K els X Y Fl1 Fl2, X n1 <> 0 -> Y n2 = X n1 -> same_motion N h1 X h2 Y -> same_motion N h1 Fl1 h2 Fl2 ->
  (forall e, In e els -> symmetric_element N Nt e /\ steady_evaluation N h1 Nt e (take n1 X) /\ steady_evaluation N h2 Nt e (take n2 Y)) ->
  exists l1 R1 l2 R2, sys_hbm_res N M C K els X Fl1 h1 Nt = (l1, Ok (Some R1)) /\ sys_hbm_res N M C K els Y Fl2 h2 Nt = (l2, Ok (Some R2)) /\
    same_motion N h1 R1 h2 R2 /\ ((forall r, (r < n1)%nat -> R1 r = 0) <-> (forall r, (r < n2)%nat -> R2 r = 0)).
Proof. exact symmetric_residual. Qed.
Print Assumptions C73_solution_partial.

(** Every motion on the odd list can be written on the larger list. *)
Theorem C73_extension : forall N Nt h1 h2, admissible h1 -> admissible h2 -> odd_part h1 h2 -> (2 * list_max h2 + 1 < Nt)%nat -> Nat.even Nt = true ->
  forall X w, exists Y, same_motion N h1 X h2 Y /\ Y (length (components h2) * N)%nat = w.
Proof. exact extended_motion. Qed.
Print Assumptions C73_extension.

(** Without the condition on the first pass the claim is false: a Jenkins element whose first pass ends without force returns the first
    pass, with a mean force on a symmetric motion. *)
Theorem C73_early_stop_refuted : exists N Nt h1 h2 X Y Q T s w e1 F e2 G, admissible h1 /\ admissible h2 /\ odd_part h1 h2 /\ (2 * list_max h2 + 1 < Nt)%nat /\ Nat.even Nt = true /\
  0 < j_kt s /\ 0 < j_Fs s /\ same_motion N h1 X h2 Y /\
  element_aft N (ElJenkins Q T s) X w h1 Nt = Ok (e1, Some F) /\ element_aft N (ElJenkins Q T s) Y w h2 Nt = Ok (e2, Some G) /\ In O h2 /\ (0 < N)%nat /\ G O <> 0 /\ ~ same_motion N h1 F h2 G.
Proof. exact early_stop_symmetric. Qed.
Print Assumptions C73_early_stop_refuted.

(** A Jenkins element that slips both ways and a cubic spring on the motion 2 cos(tau), with the lists [1] and [0; 1; 2]. *)
Example C73_case : let els := [ElJenkins one one (j_new 1 1); ElInstant (cubic_nl 1 1 one one (fun _ => 2))] in
  admissible sym_h1 /\ admissible sym_h2 /\ odd_part sym_h1 sym_h2 /\ (2 * list_max sym_h2 + 1 < 6)%nat /\ Nat.even 6 = true /\
  sym_X 2%nat = 1 /\ sym_Y 5%nat = 1 /\ same_motion 1 sym_h1 sym_X sym_h2 sym_Y /\
  forall e, In e els -> symmetric_element 1 6 e /\ steady_evaluation 1 sym_h1 6 e (take 2 sym_X) /\ steady_evaluation 1 sym_h2 6 e (take 5 sym_Y).
Proof. exact symmetric_case. Qed.
