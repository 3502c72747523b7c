(** Property C70: harmonic residual of a whole system around a static state. *)
From Coq Require Import Reals List Arith Bool Lra.
From Verif.Lib Require Import RSum Py.
From Verif.Spec Require Import Harmonic System Slider Rough StaticHistory SystemCalls SysVibration.
From Verif.Model Require Import Harmonic LocalForces VibSys SysElements Jenkins Iwan JaxFriction RoughContact SysHistory SysHarmonic.
From Verif.Proofs Require Import SysHistoryCaseP SysHarmonicP SysVibrationP SysVibCaseP.
Import ListNotations.
Open Scope R_scope.

(** * C70 *)
(** A static state X of the frictionless system, stored by the prestress workflow of examples/structures/brb_epmc.py, is a constant
    solution of the harmonic balance equations with friction: the residual of hbm_res at the constant motion X is the static residual in
    the constant component, and minus the external force in the others. *)
Theorem C70_prestress : forall N h Nt M C K, admissible h -> In O h -> (2 * list_max h + 1 < Nt)%nat -> Nat.even Nt = true -> (1 < length (components h))%nat ->
  forall els laws real cs X Uw Fl, Forall2 (has_law N real) els laws ->
  (forall e, In e els -> keeps_static_state N h Nt (snd (after_calls real cs)) e) -> vibration_about N h X (fun _ => 0) Uw ->
  exists els1 Rs Js els2 els3 R,
    sys_run N els (SInit :: cs ++ [SPrestress]) = (els1, []) /\ sys_static_res N K els1 X Fl = Ok (Some Rs, Js) /\
    sys_run N els (SInit :: cs ++ [SPrestress; SUpdate X; SAftInit X; SReset]) = (els2, []) /\ sys_hbm_res N M C K els2 Uw Fl h Nt = (els3, Ok (Some R)) /\
    (forall i, (i < N)%nat -> R i = Rs i) /\ forall k, (N <= k < length (components h) * N)%nat -> R k = - Fl k.
Proof. exact prestressed_rest. Qed.
Print Assumptions C70_prestress.

(** As long as all sliders stick and all contacts stay closed, vibrations V around X have the residual of the linear system with the
    stiffness of the stuck sliders (the Jacobian of C69_stuck). *)
Theorem C70_stuck : forall N h Nt M C K, admissible h -> In O h -> (2 * list_max h + 1 < Nt)%nat -> Nat.even Nt = true -> (1 < length (components h))%nat ->
  let n := (length (components h) * N)%nat in
  forall els laws real cs X V Uw Fl, Forall2 (has_law N real) els laws ->
  vibration_about N h X V Uw -> V n = Uw n -> (forall e, In e els -> sticks N h Nt X Uw e) ->
  let Ks := fun i j => K i j + fold_right (fun e acc => stuck_stiffness N X e i j + acc) 0 els in
  exists els1 Rs Js els2 els3 R Rl G,
    sys_run N els (SInit :: cs ++ [SPrestress]) = (els1, []) /\ sys_static_res N K els1 X Fl = Ok (Some Rs, Js) /\
    sys_run N els (SInit :: cs ++ [SPrestress; SUpdate X; SAftInit X; SReset]) = (els2, []) /\ sys_hbm_res N M C K els2 Uw Fl h Nt = (els3, Ok (Some R)) /\
    hbm_res (mkSys N M Ks C None []) V Fl h Nt true = Ok (Rl, G) /\
    (forall i, (i < N)%nat -> R i = Rs i) /\ forall k, (N <= k < n)%nat -> R k = Rl k.
Proof. exact prestressed_stuck. Qed.
Print Assumptions C70_stuck.

(** The elastic elements have the same force in static and in harmonic evaluations of a constant displacement. *)
Theorem C70_elastic_partial : forall N h Nt, admissible h -> In O h -> (2 * list_max h + 1 < Nt)%nat -> Nat.even Nt = true -> forall nnl Q T,
  (forall k, static_is_harmonic N h Nt (cubic_nl N nnl Q T k)) /\ (forall k, static_is_harmonic N h Nt (quintic_nl N nnl Q T k)) /\
  (forall k Np delta, static_is_harmonic N h Nt (unilateral_nl N nnl Q T k Np delta)) /\
  (forall kt Fs chi beta, static_is_harmonic N h Nt (iwan_nl N nnl Q T kt Fs chi beta)) /\
  (forall cnl E qq, static_is_harmonic N h Nt (poly_nl N nnl cnl Q T E qq)).
Proof. exact elastic_harmonic. Qed.
Print Assumptions C70_elastic_partial.

(** This is false for the cubic damper: static_res passes the displacements to its force method, which takes velocities.  A damper
    displaced by 2 has the static residual 8 and the harmonic residual 0. *)
Theorem C70_damper_refuted : exists N M C K els laws X Uw h Nt els1 Rs Js els2 R, Forall2 (has_law N true) els laws /\
  admissible h /\ In O h /\ (2 * list_max h + 1 < Nt)%nat /\ Nat.even Nt = true /\ vibration_about N h X (fun _ => 0) Uw /\
  sys_run N els [SInit; SUpdate X; SAftInit X] = (els1, []) /\ sys_static_res N K els1 X vzero = Ok (Some Rs, Js) /\
  sys_hbm_res N M C K els1 Uw vzero h Nt = (els2, Ok (Some R)) /\ Rs O = 8 /\ R O = 0.
Proof. exact damper_statics. Qed.
Print Assumptions C70_damper_refuted.

(** A static state with friction is no constant solution: the harmonic evaluation of a Jenkins element starts without force. *)
Theorem C70_friction_refuted : exists N M C K els laws X Uw h Nt els1 Rs Js els2 R, Forall2 (has_law N true) els laws /\
  admissible h /\ In O h /\ (2 * list_max h + 1 < Nt)%nat /\ Nat.even Nt = true /\ vibration_about N h X (fun _ => 0) Uw /\
  sys_run N els [SInit; SUpdate X; SAftInit X] = (els1, []) /\ sys_static_res N K els1 X vzero = Ok (Some Rs, Js) /\
  sys_hbm_res N M C K els1 Uw vzero h Nt = (els2, Ok (Some R)) /\ Rs O = 1/2 /\ R O = 0.
Proof. exact friction_lost. Qed.
Print Assumptions C70_friction_refuted.

(** A harmonic evaluation should not change the static loads.  With a Jenkins element it replaces the recorded load: the static residual
    at the same displacements is 1/2 before and 1 after. *)
Theorem C70_static_kept_refuted : exists N M C K els laws Y X Uw h Nt els1 R1 J1 els2 R els3 R3 J3, Forall2 (has_law N true) els laws /\
  sys_run N els [SInit; SUpdate Y] = (els1, []) /\ sys_static_res N K els1 X vzero = Ok (Some R1, J1) /\
  sys_hbm_res N M C K els1 Uw vzero h Nt = (els2, Ok (Some R)) /\ els3 = els2 /\ sys_static_res N K els3 X vzero = Ok (Some R3, J3) /\ R1 O = 1/2 /\ R3 O = 1.
Proof. exact static_changed. Qed.
Print Assumptions C70_static_kept_refuted.

(** It changes no state of a system without Jenkins and Iwan elements. *)
Theorem C70_static_kept_partial : forall N M C K els Uw Fl h Nt, (forall e, In e els -> harmonic_stateless e) -> fst (sys_hbm_res N M C K els Uw Fl h Nt) = els.
Proof. exact stateless_keeps. Qed.
Print Assumptions C70_static_kept_partial.

(** The system of C69_case, and a rough contact element, satisfy the hypotheses of C70_prestress. *)
Example C70_case : forall l, (forall e, In e three_els -> keeps_static_state 2 [0; 1]%nat 4 l e) /\ keeps_static_state 3 [0; 1]%nat 4 [] rough_el.
Proof. exact three_keep. Qed.
Example C70_harmonics : admissible [0; 1]%nat /\ In 0%nat [0; 1]%nat /\ (2 * list_max [0; 1]%nat + 1 < 4)%nat /\ Nat.even 4 = true.
Proof. exact h01. Qed.

(** A Jenkins element and a contact point around (1/2, 1) with a vibration of amplitude 1/100 satisfy those of C70_stuck. *)
Example C70_stuck_case : Forall2 (has_law 2 true) two_els two_laws /\ vibration_about 2 [0; 1]%nat pull small_vibration small_motion /\
  small_vibration 6%nat = small_motion 6%nat /\ forall e, In e two_els -> sticks 2 [0; 1]%nat 4 pull small_motion e.
Proof. exact two_stick. Qed.
