(** Property C69: static load histories and the prestress workflow of a whole system. *)
From Coq Require Import Reals List Arith Bool Lra.
From Verif.Lib Require Import RSum Py.
From Verif.Spec Require Import System Slider Rough StaticHistory SystemCalls.
From Verif.Model Require Import Harmonic VibSys Jenkins Iwan JaxFriction RoughContact SysHistory.
From Verif.Proofs Require Import SysHistoryP SysWorkflowP SysHistoryCaseP.
Import ListNotations.
Open Scope R_scope.

(** * C69 *)
(** After init_force_history and any calls (updates, friction switches, AFT starts, residual evaluations), no call has raised and
    static_res at X is K X plus the forces that the laws of the elements give for the loads recorded since the last init_force_history
    and the friction in force, minus Fstatic.  The elements may hold any older history. *)
Theorem C69_static : forall N K els laws real cs X Fstatic,
  Forall2 (has_law N real) els laws -> switchable els cs ->
  exists els' R J, sys_run N els (SInit :: cs) = (els', []) /\ sys_static_res N K els' X Fstatic = Ok (Some R, J) /\
    let st := after_calls real cs in
    forall i, R i = rsum N (fun j => K i j * X j) + total_static laws (snd st) (fst st) X i - Fstatic i.
Proof. exact static_after_history. Qed.
Print Assumptions C69_static.

(** The prestress workflow of examples/structures/brb_epmc.py: a static state X of the frictionless system, stored in the history, is
    still a static state with the same residual after friction is switched on. *)
Theorem C69_prestress : forall N K els laws real cs X Fstatic,
  Forall2 (has_law N real) els laws -> (forall e, In e els -> is_iwan e = false) ->
  (forall e, In e els -> settled N (snd (after_calls real cs)) X e) ->
  exists els1 R1 J1 els2 R2 J2,
    sys_run N els (SInit :: cs ++ [SPrestress]) = (els1, []) /\ sys_static_res N K els1 X Fstatic = Ok (Some R1, J1) /\
    sys_run N els (SInit :: cs ++ [SPrestress; SUpdate X; SAftInit X; SReset]) = (els2, []) /\ sys_static_res N K els2 X Fstatic = Ok (Some R2, J2) /\
    forall i, R2 i = R1 i.
Proof. exact workflow_keeps. Qed.
Print Assumptions C69_prestress.

(** The Jacobian after this workflow, used for the modes of the prestressed system: every slider sticks. *)
Theorem C69_stuck : forall N K els laws real cs X Fstatic,
  Forall2 (has_law N real) els laws -> (forall e, In e els -> can_stick N X e) ->
  exists els' R J, sys_run N els (SInit :: cs ++ [SPrestress; SUpdate X; SAftInit X; SReset]) = (els', []) /\
    sys_static_res N K els' X Fstatic = Ok (Some R, Some J) /\
    forall i j, J i j = K i j + fold_right (fun e acc => stuck_stiffness N X e i j + acc) 0 els.
Proof. exact workflow_stuck. Qed.
Print Assumptions C69_stuck.

(** Recording a load X and evaluating again at X should give the same residual.  This is false with elastic dry friction (see C27). *)
Theorem C69_update_refuted : exists N K els laws X Fstatic els1 R1 J1 els2 R2 J2, Forall2 (has_law N true) els laws /\
  sys_run N els [SInit] = (els1, []) /\ sys_static_res N K els1 X Fstatic = Ok (Some R1, J1) /\
  sys_run N els [SInit; SUpdate X] = (els2, []) /\ sys_static_res N K els2 X Fstatic = Ok (Some R2, J2) /\ R1 O = 1/2 /\ R2 O = 0.
Proof. exact update_loses. Qed.
Print Assumptions C69_update_refuted.

(** It holds for every system without elastic dry friction. *)
Theorem C69_update_partial : forall N K els laws real cs X Fstatic,
  Forall2 (has_law N real) els laws -> switchable els cs -> (forall e, In e els -> is_eldry e = false) ->
  (forall e, In e els -> settled N (snd (after_calls real cs)) X e) ->
  exists els1 R1 J1 els2 R2 J2,
    sys_run N els (SInit :: cs) = (els1, []) /\ sys_static_res N K els1 X Fstatic = Ok (Some R1, J1) /\
    sys_run N els (SInit :: cs ++ [SUpdate X]) = (els2, []) /\ sys_static_res N K els2 X Fstatic = Ok (Some R2, J2) /\
    forall i, R2 i = R1 i.
Proof. exact update_keeps. Qed.
Print Assumptions C69_update_partial.

(** init_force_history should make every element forget its loads.  With a JAX Jenkins element it raises AttributeError instead, and a
    later element keeps its force: the residual at zero displacement and load is 1.  update_force_history raises TypeError. *)
Theorem C69_init_refuted : exists N K els X Fstatic els1 R1 J1 els2 xs2,
  sys_run N els [SInit] = (els1, [AttributeError]) /\ sys_static_res N K els1 X Fstatic = Ok (Some R1, J1) /\ X O = 0 /\ Fstatic O = 0 /\ R1 O = 1 /\
  sys_run N els [SUpdate X] = (els2, xs2) /\ xs2 = [TypeError].
Proof. exact init_stops. Qed.
Print Assumptions C69_init_refuted.

(** "This method allows for setting all friction model sliders" is false: Jenkins and Iwan elements stay as they are, with a warning each. *)
Theorem C69_aft_start_refuted : forall N els U,
  (forall e, In e els -> match e with ElJenkins _ _ _ | ElIwan _ _ _ | ElJaxJenkins _ _ _ _ _ _ _ => True | _ => False end) ->
  set_aft_initialize N els U = (els, length els).
Proof. exact aft_start_kept. Qed.
Print Assumptions C69_aft_start_refuted.

(** For any elements: every contact element is set, everything else is kept, there is one warning per friction element that cannot be set, and
    the static residual does not change. *)
Theorem C69_aft_start_partial : forall N K els U, exists els',
  set_aft_initialize N els U = (els', length (filter no_aft_start els)) /\ Forall2 (aft_started N U) els els' /\
  forall X Fstatic, sys_static_res N K els' X Fstatic = sys_static_res N K els X Fstatic.
Proof. exact aft_start. Qed.
Print Assumptions C69_aft_start_partial.

(** A cubic spring, a Jenkins element and a contact point satisfy the hypotheses. *)
Example C69_case : Forall2 (has_law 2 true) three_els three_laws /\ (forall e, In e three_els -> is_iwan e = false) /\
  (forall l X e, In e three_els -> settled 2 l X e) /\ (forall e, In e three_els -> can_stick 2 pull e) /\
  switchable three_els [SUpdate pull; SPrestress; SUpdate pull; SReset].
Proof. exact three_ok. Qed.

(** After a stored displacement of (1/2, 1), at which the Jenkins element and the contact slip, at (1/4, 1/2). *)
Example C69_value : exists els' R J, sys_run 2 three_els [SInit; SUpdate pull] = (els', []) /\
  sys_static_res 2 mzero els' (fun j => pull j / 2) vzero = Ok (Some R, J) /\ R O = 1/32 + 1/4 - 7/8 /\ R 1%nat = 7/2.
Proof. exact three_value. Qed.

(** A rough contact element with an elastic load satisfies them too, with a nonzero force. *)
Example C69_rough_case : exists law, has_law 3 true rough_el law /\ settled 3 [] press rough_el /\
  0 < local_at 3 (fun d j => if Nat.eqb d j then 1 else 0) press 2 /\ ~ (forall X, law [] true X 2%nat = 0).
Proof. exact rough_ok. Qed.
