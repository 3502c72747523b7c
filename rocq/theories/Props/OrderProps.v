(** The order in which nonlinear elements are added to a system. *)
From Coq Require Import Reals List Permutation.
From Verif.Lib Require Import RSum Py.
From Verif.Model Require Import Harmonic VibSys SysHistory SysHarmonic.
From Verif.Spec Require Import Order.
From Verif.Proofs Require Import OrderP SysHistoryCaseP.
Import ListNotations.
Open Scope R_scope.

(** The static residual and its Jacobian do not depend on the order. *)
Theorem C84_static_partial : forall s s', reordered s s' -> forall U Fstatic, same_outcome (static_res s U Fstatic) (static_res s' U Fstatic).
Proof. exact static_order. Qed.
Print Assumptions C84_static_partial.

(** Neither do the harmonic balance residuals and their derivatives: prescribed frequency or force, base motion, amplitude control. *)
Theorem C84_hbm_partial : forall s s', reordered s s' -> forall h Nt calc_grad,
  (forall Uw Fl, same_outcome (hbm_res s Uw Fl h Nt calc_grad) (hbm_res s' Uw Fl h Nt calc_grad)) /\
  (forall UF w Fl, same_outcome (hbm_res_dFl s UF w Fl h Nt calc_grad) (hbm_res_dFl s' UF w Fl h Nt calc_grad)) /\
  (forall Uw Ub base_flag, same_outcome (hbm_base_res s Uw Ub base_flag h Nt) (hbm_base_res s' Uw Ub base_flag h Nt)) /\
  (forall X Fl recov amp order, same_outcome (hbm_amp_control_res s X Fl h recov amp order Nt calc_grad)
                                             (hbm_amp_control_res s' X Fl h recov amp order Nt calc_grad)) /\
  (forall X Fl recov amp order, same_outcome (hbm_amp_phase_control_res s X Fl h recov amp order Nt calc_grad)
                                             (hbm_amp_phase_control_res s' X Fl h recov amp order Nt calc_grad)) /\
  (forall X Fl recov w order, same_outcome (hbm_amp_phase_control_dA_res s X Fl h recov w order Nt calc_grad)
                                           (hbm_amp_phase_control_dA_res s' X Fl h recov w order Nt calc_grad)).
Proof. exact hbm_orders. Qed.
Print Assumptions C84_hbm_partial.

(** Neither do the residuals of nonlinear modes (EPMC) and of superharmonic resonances (VPRNM). *)
Theorem C84_resonance_partial : forall s s', reordered s s' -> forall h Nt calc_grad,
  (forall U Fl, same_outcome (epmc_res s U Fl h Nt calc_grad) (epmc_res s' U Fl h Nt calc_grad)) /\
  (forall X rhi Fl flt c, same_outcome (vprnm_res s X h rhi Fl Nt calc_grad flt c) (vprnm_res s' X h rhi Fl Nt calc_grad flt c)) /\
  (forall X rhi Fl recov order flt c, same_outcome (vprnm_amp_phase_res s X Fl h rhi recov order Nt calc_grad flt c)
                                                   (vprnm_amp_phase_res s' X Fl h rhi recov order Nt calc_grad flt c)).
Proof. exact resonance_orders. Qed.
Print Assumptions C84_resonance_partial.

(** With elements that keep a history: if a sequence of calls raises nothing, it raises nothing in the other order, every element ends in the same
    state, and the residuals afterwards are the same. *)
Theorem C84_history_partial : forall N M C K els els2 calls els', Permutation els els2 -> sys_run N els calls = (els', []) -> exists els2',
  sys_run N els2 calls = (els2', []) /\ Permutation els' els2' /\
  (forall U Fstatic, same_outcome (sys_static_res N K els' U Fstatic) (sys_static_res N K els2' U Fstatic)) /\
  (forall Uw Fl h Nt, same_outcome (snd (sys_hbm_res N M C K els' Uw Fl h Nt)) (snd (sys_hbm_res N M C K els2' Uw Fl h Nt))).
Proof. exact history_order. Qed.
Print Assumptions C84_history_partial.

(** The shooting method is the exception: only the last force enters it (C57_all_forces_refuted), so the order matters. *)
Theorem C84_shooting_refuted : exists inv s s' t y Fl w, reordered s s' /\
  ~ same_outcome (shooting_state_space inv t y s Fl w) (shooting_state_space inv t y s' Fl w).
Proof. exact shooting_order. Qed.
Print Assumptions C84_shooting_refuted.

(** So are calls that raise: the elements before the one that raises are changed, those after it are not. *)
Theorem C84_exception_refuted : exists N els els2 calls U Fstatic, Permutation els els2 /\
  ~ same_outcome (sys_static_res N mzero (fst (sys_run N els calls)) U Fstatic) (sys_static_res N mzero (fst (sys_run N els2 calls)) U Fstatic).
Proof. exact error_order. Qed.
Print Assumptions C84_exception_refuted.

(** A cubic spring, a Jenkins element and a contact point in reverse order, after a displacement at which two of them slip. *)
Example C84_case : Permutation three_els (rev three_els) /\ three_els <> rev three_els /\
  exists els', sys_run 2 three_els [SInit; SUpdate pull] = (els', []).
Proof. exact three_reversed. Qed.

(** Two springs, in both orders. *)
Example C84_springs : reordered (vs_add_nl_force (vs_add_nl_force (vs_new 2 mid mid None None) cubic_spring) (const_force 1))
                                (vs_add_nl_force (vs_add_nl_force (vs_new 2 mid mid None None) (const_force 1)) cubic_spring).
Proof. exact springs_reordered. Qed.
