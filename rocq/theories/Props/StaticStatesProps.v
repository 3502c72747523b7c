(** Property C82: static states are unique. *)
From Coq Require Import Reals List Arith Lra.
From Verif.Lib Require Import RSum Py.
From Verif.Spec Require Import Slider Rough StaticHistory SystemCalls StaticStates.
From Verif.Model Require Import VibSys Jenkins JaxFriction RoughContact SysHistory.
From Verif.Proofs Require Import RoughCasesP SysHistoryCaseP StaticStatesP StaticLawsP StaticCasesP.
Import ListNotations.
Open Scope R_scope.

(** * C82 *)
(** A system with a positive definite stiffness matrix should have at most one static state for a load.  This is false with friction: two
    displacements solve static_res for the same load and the same history of an elastic dry friction element. *)
Theorem C82_friction_refuted : exists N m K Q T s Fs U V R JR S JS,
  stiffness_at_least N m K /\ aligned N 2 Q T /\ 0 < ep_kt (ed_pars s) /\ 0 < ep_kn (ed_pars s) /\ 0 < ep_mu (ed_pars s) /\
  sys_static_res N K [ElEldry 2 1 Q T s] U Fs = Ok (Some R, JR) /\ sys_static_res N K [ElEldry 2 1 Q T s] V Fs = Ok (Some S, JS) /\
  (forall i, (i < N)%nat -> R i = 0 /\ S i = 0) /\ exists i, (i < N)%nat /\ U i <> V i.
Proof. exact wedged_states. Qed.
Print Assumptions C82_friction_refuted.

(** It is false for rough contact even without friction, for every material and every support stiffness: at the yield limit the force of an
    asperity drops to zero (C61), so a load is carried by the elastic asperity and also by the support alone. *)
Theorem C82_yield_refuted : forall s k, physical s -> 0 < k -> exists e els' Fs U V R JR S JS,
  resisting_law 1 true e /\ (exists law, has_law 1 true e law) /\ sys_run 1 [e] [SInit] = (els', []) /\ stiffness_at_least 1 k (fun _ _ => k) /\
  sys_static_res 1 (fun _ _ => k) els' U Fs = Ok (Some R, JR) /\ sys_static_res 1 (fun _ _ => k) els' V Fs = Ok (Some S, JS) /\
  R O = 0 /\ S O = 0 /\ U O < V O.
Proof. exact rough_states. Qed.
Print Assumptions C82_yield_refuted.

(** For elements that never push back less when they are moved further, in any state of their history, there is at most one static state,
    and the residual at any displacement bounds the distance to it. *)
Theorem C82_unique_partial : forall N m K els U V Fs R JR S JS,
  stiffness_at_least N m K -> (forall e, In e els -> resisting N e) ->
  sys_static_res N K els U Fs = Ok (Some R, JR) -> sys_static_res N K els V Fs = Ok (Some S, JS) ->
  (forall i, (i < N)%nat -> R i = 0) ->
  m * m * length2 N (fun i => V i - U i) <= length2 N S /\
  ((forall i, (i < N)%nat -> S i = 0) -> forall i, (i < N)%nat -> V i = U i).
Proof. exact one_state. Qed.
Print Assumptions C82_unique_partial.

(** Displacements differ by at most the difference of the loads that hold them, divided by m. *)
Theorem C82_distance_partial : forall N m K els U V Fu Fv,
  stiffness_at_least N m K -> (forall e, In e els -> resisting N e) ->
  exists R JR S JS, sys_static_res N K els U Fu = Ok (Some R, JR) /\ sys_static_res N K els V Fv = Ok (Some S, JS) /\
    m * m * length2 N (fun i => U i - V i) <= length2 N (fun i => R i + Fu i - (S i + Fv i)).
Proof. exact states_distance. Qed.
Print Assumptions C82_distance_partial.

(** The Jacobian that static_res returns is at least as stiff as K, so no Newton step meets a singular matrix. *)
Theorem C82_tangent_partial : forall N m K els U Fs,
  stiffness_at_least N m K -> (forall e, In e els -> resisting N e) ->
  exists R J, sys_static_res N K els U Fs = Ok (Some R, Some J) /\ stiffness_at_least N m J /\
    forall x, (forall i, (i < N)%nat -> rsum N (fun j => J i j * x j) = 0) -> forall i, (i < N)%nat -> x i = 0.
Proof. exact tangent_stiffness. Qed.
Print Assumptions C82_tangent_partial.

(** Every sequence of calls keeps the elements in this class, except that switching friction on takes elastic dry friction out of it. *)
Theorem C82_calls : forall N els cs,
  (forall e, In e els -> resisting N e) -> (In SReset cs -> forall e, In e els -> is_eldry e = false) ->
  forall e, In e (fst (sys_run N els cs)) -> resisting N e.
Proof. exact resisting_kept. Qed.
Print Assumptions C82_calls.

(** After init_force_history and any calls, for all elements with a law, also rough contact without friction, between displacements at which
    no asperity yields further. *)
Theorem C82_history_partial : forall N m K els laws real cs U V Fu Fv,
  stiffness_at_least N m K -> Forall2 (has_law N real) els laws -> switchable els cs ->
  let st := after_calls real cs in
  (forall e, In e els -> resisting_law N (fst st) e /\ no_yielding N (snd st) U e /\ no_yielding N (snd st) V e) ->
  exists els' R JR S JS, sys_run N els (SInit :: cs) = (els', []) /\
    sys_static_res N K els' U Fu = Ok (Some R, JR) /\ sys_static_res N K els' V Fv = Ok (Some S, JS) /\
    m * m * length2 N (fun i => U i - V i) <= length2 N (fun i => R i + Fu i - (S i + Fv i)) /\
    ((forall i, (i < N)%nat -> R i = 0 /\ S i = 0 /\ Fu i = Fv i) -> forall i, (i < N)%nat -> U i = V i).
Proof. exact history_distance. Qed.
Print Assumptions C82_history_partial.

(** Two coupled degrees of freedom with cubic springs, a unilateral spring, a slider that has slipped, and a contact in prestress analysis. *)
Example C82_case : stiffness_at_least 2 (1/2) wedge_K /\ forall e, In e held_els -> resisting 2 e.
Proof. exact (conj wedge_stiff held_resist). Qed.

(** An asperity with its friction switched off, at every displacement below the yield limit. *)
Example C82_rough_case : exists law, has_law 3 true rough_el law /\ switchable [rough_el] [SPrestress] /\
  resisting_law 3 (fst (after_calls true [SPrestress])) rough_el /\
  forall t : R, t < 1 -> no_yielding 3 (snd (after_calls true [SPrestress])) (fun j => match j with 2%nat => t * yield_limit steel | _ => 0 end) rough_el.
Proof. exact pressed_ok. Qed.
