(** Property C78: systems in other units. *)
From Coq Require Import Reals List Arith Bool.
From Verif.Lib Require Import RSum Py.
From Verif.Spec Require Import Harmonic Coordinates Units.
From Verif.Model Require Import Harmonic Aft VibSys SysElements Jenkins Iwan JaxFriction RoughContact SysHistory SysHarmonic.
From Verif.Proofs Require Import PostHarmonicP UnitsP UnitsStateP UnitsJaxP UnitsSystemP UnitsCaseP.
Import ListNotations.
Open Scope R_scope.

(** * C78 *)
(** Elements created from converted parameters are the converted elements: slip displacements and slider weights of the Iwan element, yield
    displacement and contact moduli of the rough contact. *)
Theorem C78_elements : forall u, positive_units u ->
  (forall kt Fs, j_new (u_stiffness u * kt) (u_force u * Fs) = jenkins_units u (j_new kt Fs)) /\
  (forall kt Fs chi beta N alpha, 0 < kt -> 0 < Fs -> -1 < chi -> 0 <= beta -> 1 <= alpha ->
     match iw_new kt Fs chi beta N alpha with
     | Ok s => iw_new (u_stiffness u * kt) (u_force u * Fs) chi beta N alpha = Ok (iwan_units u s)
     | Err x => iw_new (u_stiffness u * kt) (u_force u * Fs) chi beta N alpha = Err x
     end) /\
  (forall kt kn mu gap u0, ed_new (u_stiffness u * kt) (u_stiffness u * kn) mu (u_length u * gap) (option_map (fun v d => u_length u * v d) u0) = eldry_units u (ed_new kt kn mu gap u0)) /\
  (forall E nu Re Et Sy, new_material (u_stress u * E) nu (u_length u * Re) (u_stress u * Et) (u_stress u * Sy) = material_units u (new_material E nu Re Et Sy)) /\
  (forall r x, match rough_new r (U0Array 3 x) with
     | Ok s => rough_new (rough_units u r) (U0Array 3 (fun d => u_length u * x d)) = Ok (rough_state_units u s)
     | Err _ => False
     end).
Proof.
  exact (fun u Hu => conj (jenkins_new_in u) (conj (iwan_created u Hu) (conj (eldry_new_in u) (conj (material_new_in u Hu) (rough_created u))))).
Qed.
Print Assumptions C78_elements.

(** static_res in other units returns the same residual and Jacobian in those units, with the same exceptions. *)
Theorem C78_static : forall u, positive_units u -> forall N K K' l r U V F G,
  Forall2 (element_in (spring_in u N) u) l r -> times (u_length u) U V -> mtimes (u_stiffness u) K K' -> times (u_force u) F G ->
  same_result (fun a b => both (times (u_force u)) (fst a) (fst b) /\ both (mtimes (u_stiffness u)) (snd a) (snd b))
    (sys_static_res N K l U F) (sys_static_res N K' r V G).
Proof. exact static_units. Qed.
Print Assumptions C78_static.

(** Any sequence of calls leaves the elements in the converted state, with the same exceptions. *)
Theorem C78_history : forall u, positive_units u -> forall N cs l r, Forall2 (element_in (spring_in u N) u) l r ->
  Forall2 (element_in (spring_in u N) u) (fst (sys_run N l cs)) (fst (sys_run N r (map (call_units u) cs))) /\
  snd (sys_run N l cs) = snd (sys_run N r (map (call_units u) cs)).
Proof. exact history_units. Qed.
Print Assumptions C78_history.

(** hbm_res in other units returns the same residual in those units and leaves the elements in the converted state, if the friction elements
    evaluate the same number of periods. *)
Theorem C78_harmonic_partial : forall u, positive_units u -> forall N M C K M' C' K' l r Uw Fl Gl h Nt,
  admissible h -> (2 * list_max h + 1 < Nt)%nat -> Nat.even Nt = true -> let n := (aft_Nhc h * N)%nat in
  mtimes (u_mass u) M M' -> mtimes (u_damping u) C C' -> mtimes (u_stiffness u) K K' -> times (u_force u) Fl Gl ->
  Forall2 (element_in (force_in u N) u) l r -> Forall (same_passes u N h Nt (take n Uw)) l ->
  let a := sys_hbm_res N M C K l Uw Fl h Nt in let b := sys_hbm_res N M' C' K' r (unknowns_units u n Uw) Gl h Nt in
  Forall2 (element_in (force_in u N) u) (fst a) (fst b) /\ same_result (both (times (u_force u))) (snd a) (snd b).
Proof. exact harmonic_in. Qed.
Print Assumptions C78_harmonic_partial.

(** Hence converted solutions are the solutions of the converted system. *)
Theorem C78_solutions_partial : forall u, positive_units u -> forall N M C K M' C' K' l r Uw Fl Gl h Nt,
  admissible h -> (2 * list_max h + 1 < Nt)%nat -> Nat.even Nt = true -> let n := (aft_Nhc h * N)%nat in
  mtimes (u_mass u) M M' -> mtimes (u_damping u) C C' -> mtimes (u_stiffness u) K K' -> times (u_force u) Fl Gl ->
  Forall2 (element_in (force_in u N) u) l r -> Forall (same_passes u N h Nt (take n Uw)) l ->
  ((exists l1 Rr, sys_hbm_res N M C K l Uw Fl h Nt = (l1, Ok (Some Rr)) /\ forall i, (i < n)%nat -> Rr i = 0) <->
   (exists r1 Rr, sys_hbm_res N M' C' K' r (unknowns_units u n Uw) Gl h Nt = (r1, Ok (Some Rr)) /\ forall i, (i < n)%nat -> Rr i = 0)).
Proof. exact solutions_in. Qed.
Print Assumptions C78_solutions_partial.

(** The Jacobians of the friction and contact elements are converted as well. *)
Theorem C78_friction_jacobian_partial : forall u, positive_units u -> forall N Q T U V w h Nt,
  admissible h -> (2 * list_max h + 1 < Nt)%nat -> Nat.even Nt = true -> times (u_length u) U V ->
  (forall s, same_passes u N h Nt U (ElJenkins Q T s) ->
     same_result (fun a b => fst b = jenkins_units u (fst a) /\ outputs_in u (snd a) (snd b)) (jenkins_aft s N Q T U h Nt) (jenkins_aft (jenkins_units u s) N Q T V h Nt)) /\
  (forall s, same_passes u N h Nt U (ElIwan Q T s) ->
     same_result (fun a b => fst b = iwan_units u (fst a) /\ outputs_in u (snd a) (snd b)) (iwan_aft s N Q T U h Nt) (iwan_aft (iwan_units u s) N Q T V h Nt)) /\
  (forall p ne s, same_result (outputs_in u) (eldry_aft p ne N Q T (ed_pars s) (ed_u0 s) U w h Nt)
     (eldry_aft p ne N Q T (ed_pars (eldry_units u s)) (ed_u0 (eldry_units u s)) V (u_freq u * w) h Nt)) /\
  (forall kt Fs u0, same_result (outputs_in u) (jax_jenkins_aft N Q T kt Fs u0 U w h Nt)
     (jax_jenkins_aft N Q T (u_stiffness u * kt) (u_force u * Fs) (option_map (Rmult (u_length u)) u0) V (u_freq u * w) h Nt)) /\
  (forall r s rep, r_model r = TAN ->
     same_result (fun a b => both (times (u_force u)) (fst a) (fst b) /\
                             both (fun p q => mtimes (u_stiffness u) (fst p) (fst q) /\ times (u_force u / u_freq u) (snd p) (snd q)) (snd a) (snd b))
       (rough_aft r N Q T s U w h Nt rep) (rough_aft (rough_units u r) N Q T (rough_state_units u s) V (u_freq u * w) h Nt rep)).
Proof. exact friction_jacobians. Qed.
Print Assumptions C78_friction_jacobian_partial.

(** Without friction, hbm_res returns the residual and both Jacobians in the new units, for all motions. *)
Theorem C78_jacobian : forall u, positive_units u -> forall s r Uw Fl Gl h Nt cg, system_in u s r -> times (u_force u) Fl Gl ->
  same_result (fun a b => times (u_force u) (fst a) (fst b) /\
                          both (fun A B => mtimes (u_stiffness u) (fst A) (fst B) /\ times (u_force u / u_freq u) (snd A) (snd B)) (snd a) (snd b))
    (hbm_res s Uw Fl h Nt cg) (hbm_res r (unknowns_units u (aft_Nhc h * vs_N s) Uw) Gl h Nt cg).
Proof. exact hbm_in. Qed.
Print Assumptions C78_jacobian.

(** epmc_res: shapes stay normalised by the new mass, frequency and damping coefficient are converted, the amplitude is the new length times
    the root of the new mass. *)
Theorem C78_nonlinear_mode : forall u, positive_units u -> forall s r X Fl h Nt cg, let N := vs_N s in let n := (aft_Nhc h * N)%nat in
  (zi h + 2 <= aft_Nhc h)%nat -> system_in u s r ->
  same_result (fun a b => (forall i, (i < n)%nat -> fst b i = u_force u * fst a i) /\ fst b n = fst a n /\ fst b (n + 1)%nat = fst a (n + 1)%nat / sqrt (u_mass u))
    (epmc_res s X Fl h Nt cg) (epmc_res r (mode_units u N h n X) (mode_forces u N h Fl) h Nt cg).
Proof. exact epmc_in. Qed.
Print Assumptions C78_nonlinear_mode.

(** The friction loops compare a force with the number 1e-10: in other units they may stop after the first period, with half of the force. *)
Theorem C78_tolerance_refuted : exists u N h Nt Q T s U w e1 F e2 G,
  positive_units u /\ admissible h /\ (2 * list_max h + 1 < Nt)%nat /\ Nat.even Nt = true /\ 0 < j_kt s /\ 0 < j_Fs s /\
  element_aft N (ElJenkins Q T s) U w h Nt = Ok (e1, Some F) /\
  element_aft N (ElJenkins Q T (jenkins_units u s)) (fun i => u_length u * U i) (u_freq u * w) h Nt = Ok (e2, Some G) /\
  G O = u_force u * F O / 2 /\ F O = 1.
Proof. exact tolerance_units. Qed.
Print Assumptions C78_tolerance_refuted.

(** static_res gives a cubic damper the displacements as velocities: another unit of time alone changes the static force. *)
Theorem C78_damper_refuted : exists u N Q T c U F J G K, positive_units u /\ u_length u = 1 /\ u_force u = 1 /\
  sys_static_res N mzero [ElInstant (damping_nl N 1 Q T c)] U vzero = Ok (Some F, Some J) /\
  sys_static_res N mzero [ElInstant (damping_nl N 1 Q T (fun d => u_force u / (u_length u * u_freq u) ^ 3 * c d))] (fun i => u_length u * U i)
    (fun i => u_force u * vzero i) = Ok (Some G, Some K) /\
  F O = 1 /\ G O = / 8.
Proof. exact damper_units. Qed.
Print Assumptions C78_damper_refuted.

(** Case: mm and kN instead of m and N, for a preloaded unilateral spring, a Jenkins element that slips, and a dry friction point. *)
Example C78_case : positive_units units_case /\ Forall2 (element_in (spring_in units_case 1) units_case) case_old case_new /\
  Forall2 (element_in (force_in units_case 1) units_case) case_old case_new /\ Forall (same_passes units_case 1 [1%nat] 4 sine2) case_old.
Proof. exact (conj case_pos (conj case_elements (conj case_forces case_passes))). Qed.

(** Case: a mass of 2 kg on a cubic spring and a cubic damper, in mm, kN and rounds per minute. *)
Example C78_case_system : positive_units units_case2 /\ system_in units_case2 old_system new_system.
Proof. exact case_system. Qed.
