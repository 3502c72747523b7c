(** Property C85: an analysis with fewer harmonics is the analysis with more harmonics without the equations of the others. *)
From Coq Require Import Reals List Arith Bool.
From Verif.Lib Require Import RSum Py.
From Verif.Spec Require Import Harmonic Elements Slider Galerkin Rotation Symmetry Subharmonic Truncation.
From Verif.Model Require Import Harmonic VibSys SysElements Jenkins SysHistory SysHarmonic.
From Verif.Proofs Require Import RotationCaseP SubharmonicCaseP TruncationP TruncationCaseP.
Import ListNotations.
Open Scope R_scope.

(** * C85 *)
(** Let Y be X with zeros for the harmonics that are only on the longer list.  On the harmonics of the shorter list every element returns
    the same forces for both.  [sampled_element] names the elements (C81_sampled). *)
Theorem C85_elements_partial : forall N Nt h1 h2, admissible h1 -> admissible h2 -> incl h1 h2 -> (2 * list_max h2 + 1 < Nt)%nat -> Nat.even Nt = true ->
  forall X Y, agrees_on N h1 X h2 Y -> zero_beyond N h1 h2 Y -> forall w e, sampled_element N e -> same_start N Nt h1 X h2 Y e ->
  forces_agree N Nt w h1 X h2 Y e.
Proof. exact elements_padded. Qed.
Print Assumptions C85_elements_partial.

(** The residuals of hbm_res agree on the harmonics of the shorter list.  On the others the residual is what the nonlinear elements put there,
    less the load: this is what the shorter analysis leaves out. *)
Theorem C85_residual_partial : forall N Nt h1 h2, admissible h1 -> admissible h2 -> incl h1 h2 -> (2 * list_max h2 + 1 < Nt)%nat -> Nat.even Nt = true ->
  let n1 := (length (components h1) * N)%nat in let n2 := (length (components h2) * N)%nat in
  forall M C K els X Y Fl1 Fl2, X n1 <> 0 -> Y n2 = X n1 -> agrees_on N h1 X h2 Y -> zero_beyond N h1 h2 Y -> agrees_on N h1 Fl1 h2 Fl2 ->
  (forall e, In e els -> sampled_element N e /\ same_start N Nt h1 (take n1 X) h2 (take n2 Y) e) ->
  exists l1 R1 l2 R2 l3 G, sys_hbm_res N M C K els X Fl1 h1 Nt = (l1, Ok (Some R1)) /\ sys_hbm_res N M C K els Y Fl2 h2 Nt = (l2, Ok (Some R2)) /\
    agrees_on N h1 R1 h2 R2 /\
    sys_aft N els (take n2 Y) (Y n2) h2 Nt (Some vzero) = (l3, Ok (Some G)) /\
    forall c i, (c < length (components h2))%nat -> (i < N)%nat -> ~ In (nth c (components h2) (Cos O)) (components h1) ->
      R2 (c * N + i)%nat = G (c * N + i)%nat - Fl2 (c * N + i)%nat.
Proof. exact more_harmonics. Qed.
Print Assumptions C85_residual_partial.

(** A solution of the shorter analysis solves the longer one if and only if the elements balance the load on the added harmonics. *)
Theorem C85_solution_partial : forall N Nt h1 h2, admissible h1 -> admissible h2 -> incl h1 h2 -> (2 * list_max h2 + 1 < Nt)%nat -> Nat.even Nt = true ->
  let n1 := (length (components h1) * N)%nat in let n2 := (length (components h2) * N)%nat in
  forall M C K els X Y Fl1 Fl2, X n1 <> 0 -> Y n2 = X n1 -> agrees_on N h1 X h2 Y -> zero_beyond N h1 h2 Y -> agrees_on N h1 Fl1 h2 Fl2 ->
  (forall e, In e els -> sampled_element N e /\ same_start N Nt h1 (take n1 X) h2 (take n2 Y) e) ->
  exists l1 R1 l2 R2 l3 G, sys_hbm_res N M C K els X Fl1 h1 Nt = (l1, Ok (Some R1)) /\ sys_hbm_res N M C K els Y Fl2 h2 Nt = (l2, Ok (Some R2)) /\
    sys_aft N els (take n2 Y) (Y n2) h2 Nt (Some vzero) = (l3, Ok (Some G)) /\
    ((forall r, (r < n2)%nat -> R2 r = 0) <-> (forall r, (r < n1)%nat -> R1 r = 0) /\
       forall c i, (c < length (components h2))%nat -> (i < N)%nat -> ~ In (nth c (components h2) (Cos O)) (components h1) -> G (c * N + i)%nat = Fl2 (c * N + i)%nat).
Proof. exact more_harmonics_solution. Qed.
Print Assumptions C85_solution_partial.

(** Without harmonic 0 on the shorter list and with a first pass that ends without force the claim is false: a Jenkins element starts at the first
    coefficient of the list, whatever its harmonic, and returns the transient of the first pass. *)
Theorem C85_early_stop_refuted : exists N Nt h1 h2 X Y Q T s w e1 F e2 G, admissible h1 /\ admissible h2 /\ incl h1 h2 /\ (2 * list_max h2 + 1 < Nt)%nat /\ Nat.even Nt = true /\
  0 < j_kt s /\ 0 < j_Fs s /\ agrees_on N h1 X h2 Y /\ zero_beyond N h1 h2 Y /\
  element_aft N (ElJenkins Q T s) X w h1 Nt = Ok (e1, Some F) /\ element_aft N (ElJenkins Q T s) Y w h2 Nt = Ok (e2, Some G) /\ ~ agrees_on N h1 F h2 G.
Proof. exact early_stop_added. Qed.
Print Assumptions C85_early_stop_refuted.

(** A Jenkins element that slips both ways and a cubic spring on the motion 2 cos(tau), with the lists [0; 1] and [0; 1; 2]. *)
Example C85_case : let els := [ElJenkins one one (j_new 1 1); ElInstant (cubic_nl 1 1 one one (fun _ => 2))] in
  admissible dbl_h1 /\ admissible dbl_h2 /\ incl dbl_h1 dbl_h2 /\ (2 * list_max dbl_h2 + 1 < 6)%nat /\ Nat.even 6 = true /\
  dbl_X 3%nat = 1 /\ pad_Y 5%nat = 1 /\ agrees_on 1 dbl_h1 dbl_X dbl_h2 pad_Y /\ zero_beyond 1 dbl_h1 dbl_h2 pad_Y /\
  forall e, In e els -> sampled_element 1 e /\ same_start 1 6 dbl_h1 (take 3 dbl_X) dbl_h2 (take 5 pad_Y) e.
Proof. exact added_case. Qed.
