(** Properties C16-C19, C21-C23 for the Iwan elements and C24 for whole systems.
    Specification: Spec/Slider.v (bank_law, bank_limit, bank_after, steady_state, last_reversal), Spec/IwanCalls.v, Spec/Calculus.v. *)
From Coq Require Import Reals Lra Lia Arith List Bool.
From Verif.Lib Require Import RSum Py.
From Verif.Spec Require Import Slider Calculus Harmonic Elements JenkinsCalls IwanCalls.
From Verif.Model Require Import Jenkins VectorJenkins Harmonic Aft Iwan IwanOps SysFriction.
From Verif.Proofs Require Import SliderP JenkinsP JenkinsDerivP HysteresisP IwanP VectorIwanP IwanOpsP IwanAftP IwanDiscP IwanCasesP SysFrictionP CycleP.
Import ListNotations.
Open Scope R_scope.

(** C23: for growth ratio alpha >= 1 the cells fill [0, phimax]: there are edges from 0 to phimax, strictly increasing with ratio
    alpha of consecutive widths, slider k sits in the middle of cell k and carries density times width; the last slider is the
    concentrated one at phimax. *)
Theorem C23_cells kt Fs chi beta Ns alpha s
  (kt_pos : 0 < kt) (Fs_pos : 0 < Fs) (chi_range : -1 < chi) (beta_nonneg : 0 <= beta) (growth : 1 <= alpha)
  (built : iw_new kt Fs chi beta Ns alpha = Ok s) :
  exists (e : nat -> R) (phimax rho S : R),
    e O = 0 /\ e Ns = phimax /\ 0 < phimax /\ (forall k, e k < e (k + 1)%nat) /\
    (forall k, e (k + 2)%nat - e (k + 1)%nat = alpha * (e (k + 1)%nat - e k)) /\
    iw_n s = (Ns + 1)%nat /\
    (forall k, (k < Ns)%nat -> iw_phi s k = (e k + e (k + 1)%nat) / 2 /\ iw_w s k = rho * Rpower (iw_phi s k) chi * (e (k + 1)%nat - e k)) /\
    iw_phi s Ns = phimax /\ iw_w s Ns = S /\
    iwan_stiffness rho S chi phimax = kt /\ iwan_strength rho S chi phimax = Fs.
Proof. exact (cells_fill kt Fs chi beta Ns alpha s kt_pos Fs_pos chi_range beta_nonneg growth built). Qed.
Print Assumptions C23_cells.

(** the formulas of iwan_stiffness and iwan_strength are integrals: antiderivatives of the density and of phi times the density *)
Theorem C23_density_integral chi x (chi_range : -1 < chi) (positive : 0 < x) :
  derivable_pt_lim (fun y => Rpower y (chi + 1) / (chi + 1)) x (Rpower x chi) /\
  derivable_pt_lim (fun y => Rpower y (chi + 2) / (chi + 2)) x (x * Rpower x chi).
Proof. exact (density_integral chi x chi_range positive). Qed.
Print Assumptions C23_density_integral.

(** C23: for chi = 0 the discrete element has exactly stiffness kt and strength Fs. *)
Theorem C23_uniform_exact kt Fs beta Ns alpha s
  (kt_pos : 0 < kt) (Fs_pos : 0 < Fs) (beta_nonneg : 0 <= beta) (growth : 1 <= alpha)
  (built : iw_new kt Fs 0 beta Ns alpha = Ok s) :
  rsum (iw_n s) (iw_w s) = kt /\ bank_limit (iw_n s) (iw_w s) (iw_phi s) = Fs.
Proof. exact (uniform_built kt Fs beta Ns alpha s kt_pos Fs_pos beta_nonneg growth built). Qed.
Print Assumptions C23_uniform_exact.

(** C23: for -1 < chi <= 0 the discrete element is never stiffer than kt and never weaker than Fs, for any number of sliders. *)
Theorem C23_stiffness_strength_bounds kt Fs chi beta Ns alpha s
  (kt_pos : 0 < kt) (Fs_pos : 0 < Fs) (chi_range : -1 < chi <= 0) (beta_nonneg : 0 <= beta) (growth : 1 <= alpha)
  (built : iw_new kt Fs chi beta Ns alpha = Ok s) :
  rsum (iw_n s) (iw_w s) <= kt /\ Fs <= bank_limit (iw_n s) (iw_w s) (iw_phi s).
Proof. exact (bounds_built kt Fs chi beta Ns alpha s kt_pos Fs_pos chi_range beta_nonneg growth built). Qed.
Print Assumptions C23_stiffness_strength_bounds.

(** C23: growth ratios below 1 are accepted but the cells do not fill the interval; stiffness and strength are wrong. *)
Theorem C23_shrinking_refuted :
  exists kt Fs chi beta Ns alpha s, 0 < kt /\ 0 < Fs /\ -1 < chi /\ 0 <= beta /\ 0 < alpha /\ iw_new kt Fs chi beta Ns alpha = Ok s /\
    rsum (iw_n s) (iw_w s) <> kt /\ bank_limit (iw_n s) (iw_w s) (iw_phi s) <> Fs /\ chi = 0.
Proof. exact shrinking_cells. Qed.
Print Assumptions C23_shrinking_refuted.

(** C23: after any sequence of calls (static, harmonic, sequential or vectorised) every slider force is within its own limit and no
    returned force exceeds the sum of the weighted limits. *)
Theorem C23_limits kt Fs chi beta Ns alpha s
  (kt_pos : 0 < kt) (Fs_pos : 0 < Fs) (chi_range : -1 < chi) (beta_nonneg : 0 <= beta) (growth : 1 <= alpha)
  (built : iw_new kt Fs chi beta Ns alpha = Ok s) (calls : list icall) :
  (forall i, (i <= Ns)%nat -> Rabs (iw_fs (fst (icalls_exec s calls)) i) <= iw_phi s i) /\
  forall r f, In r (snd (icalls_exec s calls)) -> In f (iforces_of r) -> Rabs f <= bank_limit (iw_n s) (iw_w s) (iw_phi s).
Proof. exact (limits_built kt Fs chi beta Ns alpha s kt_pos Fs_pos chi_range beta_nonneg growth built calls). Qed.
Print Assumptions C23_limits.

(** C23: while no displacement has exceeded the weakest slider the element is linear with the total weight as stiffness; a large
    move in one direction reaches the limit force. *)
Theorem C23_elastic_and_sliding kt Fs chi beta Ns alpha s
  (kt_pos : 0 < kt) (Fs_pos : 0 < Fs) (chi_range : -1 < chi) (beta_nonneg : 0 <= beta) (growth : 1 <= alpha)
  (built : iw_new kt Fs chi beta Ns alpha = Ok s) (calls : list icall) (static : forallb istatic_call calls = true) u update :
  let force := iforces_of (snd (icall_exec (fst (icalls_exec s calls)) (IForce u update))) in
  ((forall v, In v (irecorded calls ++ [u]) -> Rabs v <= iw_phi s O) -> force = [rsum (iw_n s) (iw_w s) * u]) /\
  (2 * iw_phi s Ns <= u - last (irecorded calls) 0 -> force = [bank_limit (iw_n s) (iw_w s) (iw_phi s)]) /\
  (2 * iw_phi s Ns <= last (irecorded calls) 0 - u -> force = [- bank_limit (iw_n s) (iw_w s) (iw_phi s)]).
Proof. exact (elastic_sliding kt Fs chi beta Ns alpha s kt_pos Fs_pos chi_range beta_nonneg growth built calls static u update). Qed.
Print Assumptions C23_elastic_and_sliding.

(** two cells with ratio 2: widths 2/3 and 4/3 *)
Example C23_case : exists s, iw_new 1 1 0 0 2 2 = Ok s /\ iw_phi s O = / 3 /\ iw_phi s 1%nat = 4 / 3 /\ iw_phi s 2%nat = 2 /\
  iw_w s O = / 3 /\ iw_w s 1%nat = 2 / 3 /\ iw_w s 2%nat = 0.
Proof. exact disc_case. Qed.

(** C16 for the Iwan element: after any static calls the force is that of the parallel sliders taken through the recorded
    displacements. *)
Theorem C16_iwan_static_force s (strengths : forall i, (i < iw_n s)%nat -> 0 <= iw_phi s i) (calls : list icall)
  (static : forallb istatic_call calls = true) u update :
  iforces_of (snd (icall_exec (fst (icalls_exec s (IInitHistory :: calls))) (IForce u update)))
  = [bank_after (iw_n s) (iw_w s) (iw_phi s) (irecorded calls ++ [u])].
Proof. exact (iwan_static_after_init s strengths calls static u update). Qed.
Print Assumptions C16_iwan_static_force.

(** C16: inserting an evaluation without update anywhere changes no other return value. *)
Theorem C16_iwan_non_updating s (before after : list icall) c (looks : inon_updating c) :
  exists r, snd (icalls_exec s (before ++ c :: after)) =
     firstn (length before) (snd (icalls_exec s (before ++ after))) ++ r :: skipn (length before) (snd (icalls_exec s (before ++ after))).
Proof. exact (icalls_skip s before c after looks). Qed.
Print Assumptions C16_iwan_non_updating.

(** C17: over any history the work done on the sliders covers the increase of the stored energy (sum of w f^2/2). *)
Theorem C17_iwan_dissipation n w phi u u0 m
  (weights : forall i, (i < n)%nat -> 0 <= w i) (strengths : forall i, (i < n)%nat -> 0 <= phi i) :
  let f := bank_law n w phi u u0 in
  let energy := fun k => rsum n (fun i => w i * (jenkins_law 1 (phi i) u u0 k * jenkins_law 1 (phi i) u u0 k) / 2) in
  energy m - energy O <= rsum m (fun k => f (S k) * (u (S k) - u k)).
Proof. exact (bank_energy n w phi u u0 m weights strengths). Qed.
Print Assumptions C17_iwan_dissipation.

(** C17: the closed loop of forces returned by local_force_history never creates energy, also when the loop stops after its first,
    transient pass. *)
Theorem C17_iwan_cycle s N u cst u0 m atol rtol
  (samples : (0 < N)%nat) (weights : forall i, (i < iw_n s)%nat -> 0 <= iw_w s i)
  (strengths : forall i, (i < iw_n s)%nat -> 0 <= iw_phi s i) (tol : 0 <= atol \/ 0 <= rtol) :
  0 <= rsum N (fun k => iforces_at (iwan_local_force_history s (rows N u cst) u0 m atol rtol) k
                        * (u k - u ((k + N - 1) mod N)%nat)).
Proof. exact (iwan_cycle_all s N u cst u0 m atol rtol samples weights strengths tol). Qed.
Print Assumptions C17_iwan_cycle.

(** C17: the same for VectorIwan4 *)
Theorem C17_vector_iwan_cycle s N u cst u0
  (samples : (0 < N)%nat) (weights : forall i, (i < iw_n s)%nat -> 0 <= iw_w s i) (strengths : forall i, (i < iw_n s)%nat -> 0 <= iw_phi s i) :
  exists s' ft dfduh, vector_iwan_local_force_history s N u cst u0 = Ok (s', ft, dfduh) /\ 0 <= rsum N (fun k => ft k * (u k - u ((k + N - 1) mod N)%nat)).
Proof. exact (vector_iwan_cycle s N u cst u0 samples weights strengths). Qed.
Print Assumptions C17_vector_iwan_cycle.

(** C18: pass 2 of the bank of sliders is its steady state. *)
Theorem C18_iwan_two_cycles n w phi N u u0 (samples : (0 < N)%nat) (strengths : forall i, (i < n)%nat -> 0 <= phi i) :
  steady_state N (bank_law n w phi (repeat_samples N u) u0) (fun k => bank_law n w phi (repeat_samples N u) u0 (N + k)).
Proof. exact (bank_steady n w phi N u u0 samples strengths). Qed.
Print Assumptions C18_iwan_two_cycles.

(** C19: local_force_history returns the steady state unless the first pass ends at (numerically) zero force. *)
Theorem C19_iwan_steady_partial s N u cst u0 m
  (samples : (0 < N)%nat) (strengths : forall i, (i < iw_n s)%nat -> 0 <= iw_phi s i) (two : (2 <= m)%nat)
  (no_early_stop : default_tol < Rabs (bank_law (iw_n s) (iw_w s) (iw_phi s) (repeat_samples N u) u0 (N - 1))) :
  exists s' os, iwan_local_force_history s (rows N u cst) u0 m default_tol default_tol = Ok (s', os) /\ length os = N /\
    steady_state N (bank_law (iw_n s) (iw_w s) (iw_phi s) (repeat_samples N u) u0) (fun k => nth k (map fst os) 0).
Proof. exact (iwan_steady s N u cst u0 m samples strengths two no_early_stop). Qed.
Print Assumptions C19_iwan_steady_partial.

(** C21: VectorIwan4 and Iwan4Force return the same forces and the same derivatives when both run the same number of passes. *)
Theorem C21_vector_iwan_partial s N u cst u0 c
  (samples : (0 < N)%nat) (strengths : forall i, (i < iw_n s)%nat -> 0 <= iw_phi s i) (rev : last_reversal N u c) :
  let f := bank_law (iw_n s) (iw_w s) (iw_phi s) (repeat_samples N u) u0 in
  forall (same_stop : default_tol < Rabs (f (N - 1)%nat) <-> default_tol < Rabs (f c)),
  exists s1 os s2 ft dfduh,
    iwan_local_force_history s (rows N u cst) u0 2 default_tol default_tol = Ok (s1, os) /\
    vector_iwan_local_force_history s N u cst u0 = Ok (s2, ft, dfduh) /\ length os = N /\
    forall k, (k < N)%nat -> ft k = nth k (map fst os) 0 /\ forall i, dfduh k i = nth k (map snd os) (fun _ => 0) i.
Proof. exact (vector_equals_iwan s N u cst u0 c samples strengths rev). Qed.
Print Assumptions C21_vector_iwan_partial.

(** C21: VectorIwan4 returns the steady state when the force at the last reversal is not zero. *)
Theorem C21_vector_steady s N u cst u0 c
  (samples : (0 < N)%nat) (strengths : forall i, (i < iw_n s)%nat -> 0 <= iw_phi s i) (rev : last_reversal N u c)
  (no_early_stop : default_tol < Rabs (bank_law (iw_n s) (iw_w s) (iw_phi s) (repeat_samples N u) u0 c)) :
  exists s' ft dfduh, vector_iwan_local_force_history s N u cst u0 = Ok (s', ft, dfduh) /\
    steady_state N (bank_law (iw_n s) (iw_w s) (iw_phi s) (repeat_samples N u) u0) ft.
Proof. exact (vector_iwan_steady s N u cst u0 c samples strengths rev no_early_stop). Qed.
Print Assumptions C21_vector_steady.

(** C21 and C19 are false in general: the sequential element may stop after its transient pass. *)
Theorem C21_vector_iwan_refuted :
  exists kt Fs chi beta Ns alpha s N u u0, iw_new kt Fs chi beta Ns alpha = Ok s /\ (0 < N)%nat /\ 0 < kt /\ 0 < Fs /\ forall cst, exists s1 os s2 ft dfduh,
    iwan_local_force_history s (rows N u cst) u0 2 default_tol default_tol = Ok (s1, os) /\
    vector_iwan_local_force_history s N u cst u0 = Ok (s2, ft, dfduh) /\
    ~ steady_state N (bank_law (iw_n s) (iw_w s) (iw_phi s) (repeat_samples N u) u0) (fun k => nth k (map fst os) 0) /\
    exists k, (k < N)%nat /\ ft k <> nth k (map fst os) 0.
Proof. exact iwan_vector_differs. Qed.
Print Assumptions C21_vector_iwan_refuted.

(** a cycle that meets the hypotheses for a built element with two sliders *)
Example C21_case : exists s, iw_new 1 1 0 0 1 1 = Ok s /\ last_reversal 4 case_u 2 /\
  default_tol < Rabs (bank_law (iw_n s) (iw_w s) (iw_phi s) (repeat_samples 4 case_u) 0 (4 - 1)) /\
  default_tol < Rabs (bank_law (iw_n s) (iw_w s) (iw_phi s) (repeat_samples 4 case_u) 0 2).
Proof. exact vector_case. Qed.

(** C22: the derivative history of the Iwan element is the Jacobian of its force history, away from the slip limits of the sliders. *)
Theorem C22_iwan_derivatives s N nc (cst : nat -> vec) X
  (samples : (0 < N)%nat) (coefficients : (0 < nc)%nat) (strengths : forall i, (i < iw_n s)%nat -> 0 <= iw_phi s i) :
  let hist := fun X : vec => iwan_local_force_history s (rows N (fun j => rsum nc (fun c => cst j c * X c)) cst) (X O) 2 default_tol default_tol in
  let u := repeat_samples N (fun j => rsum nc (fun c => cst j c * X c)) in
  forall (not_at_limit : forall i, (i < iw_n s)%nat -> forall j, (j < 2 * N)%nat -> Rabs (trial 1 (iw_phi s i) u (X O) j) <> iw_phi s i)
         (not_at_tolerance : Rabs (bank_law (iw_n s) (iw_w s) (iw_phi s) u (X O) (N - 1)) <> default_tol),
  is_jacobian nc N (fun X k => iforces_at (hist X) k) X (fun k c => iderivs_at (hist X) k c).
Proof. exact (iwan_history_jacobian s N nc cst X samples coefficients strengths). Qed.
Print Assumptions C22_iwan_derivatives.

(** C22: Iwan4Force.aft returns the Fourier coefficients of the steady force (unless the first pass ends at zero force) and their
    Jacobian. *)
Theorem C22_iwan_aft s N Q T h Nt
  (harmonics : admissible h) (enough : (2 * list_max h + 1 < Nt)%nat) (even : Nat.even Nt = true)
  (strengths : forall i, (i < iw_n s)%nat -> 0 <= iw_phi s i) :
  exists (st : vec -> iwan) (F : vec -> vec) (dU : vec -> mat),
    (forall U, iwan_aft s N Q T U h Nt = Ok (st U, (F U, dU U, fun _ => 0))) /\
    (forall U,
       let u := repeat_samples Nt (fun n => local_motion N Q h U 0 (sample_phase Nt n)) in
       let law := bank_law (iw_n s) (iw_w s) (iw_phi s) u (local_first_coef N Q U) in
       default_tol < Rabs (law (Nt - 1)%nat) ->
       forall c i, (c < length (components h))%nat -> (i < N)%nat ->
       F U (c * N + i)%nat = T i 0%nat * fourier_coef Nt (fun n => law (Nt + n)%nat) (nth c (components h) (Cos O))) /\
    (forall U,
       let u := repeat_samples Nt (fun n => local_motion N Q h U 0 (sample_phase Nt n)) in
       (forall i, (i < iw_n s)%nat -> forall j, (j < 2 * Nt)%nat -> Rabs (trial 1 (iw_phi s i) u (local_first_coef N Q U) j) <> iw_phi s i) ->
       Rabs (bank_law (iw_n s) (iw_w s) (iw_phi s) u (local_first_coef N Q U) (Nt - 1)) <> default_tol ->
       is_jacobian (length (components h) * N) (length (components h) * N) F U (dU U)).
Proof. exact (iwan_aft_exact s N Q T h Nt harmonics enough even strengths). Qed.
Print Assumptions C22_iwan_aft.

(** a cycle with sticking and slipping sliders, none at its limit: u = 0, 5/4, 0, -5/4 with strengths 1 and 2 *)
Example C22_iwan_case :
  let cst := fun k c => match c with O => 1 | _ => match k with 1 => 1 | 3 => -1 | _ => 0 end end in
  let X := fun c : nat => match c with O => 0 | _ => 5 / 4 end in
  let u := repeat_samples 4 (fun j => rsum 2 (fun c => cst j c * X c)) in
  exists s, iw_new 1 1 0 0 1 1 = Ok s /\
  (forall i, (i < iw_n s)%nat -> forall j, (j < 2 * 4)%nat -> Rabs (trial 1 (iw_phi s i) u (X O) j) <> iw_phi s i) /\
  Rabs (bank_law (iw_n s) (iw_w s) (iw_phi s) u (X O) (4 - 1)) <> default_tol.
Proof. exact iwan_deriv_case. Qed.

(** C24 for a whole system built from any elements: after any calls ending in reset_real_mu every element is exactly as built, even
    when set_prestress_mu raised on the way. *)
Theorem C24_system_reset forces (new_system : forall x, In x forces -> (exists f, x = fric_new f) \/ x = FrIwan \/ x = FrNone) calls :
  fcalls_exec forces (calls ++ [FReset]) = forces.
Proof. exact (reset_restores forces calls new_system). Qed.
Print Assumptions C24_system_reset.

(** C24: without Iwan elements set_prestress_mu never raises and leaves every element frictionless. *)
Theorem C24_system_prestress_partial forces (new_system : forall x, In x forces -> (exists f, x = fric_new f) \/ x = FrIwan \/ x = FrNone)
  (no_iwan : ~ In FrIwan forces) calls :
  snd (fcall_exec (fcalls_exec forces calls) FSet) = None /\
  forall c r p, In (FrSwitch c r p) (fcalls_exec forces (calls ++ [FSet])) -> c = 0.
Proof. exact (set_frictionless forces calls new_system no_iwan). Qed.
Print Assumptions C24_system_prestress_partial.

(** C24 is false with an Iwan element: set_prestress_mu raises with some elements switched and some not. *)
Theorem C24_system_prestress_refuted :
  exists forces, (forall x, In x forces -> (exists f, x = fric_new f) \/ x = FrIwan \/ x = FrNone) /\
    snd (fcall_exec forces FSet) = Some AssertionError /\
    (exists c r p, In (FrSwitch c r p) (fcalls_exec forces [FSet]) /\ c = 0 /\ r <> 0) /\
    exists c r p, In (FrSwitch c r p) (fcalls_exec forces [FSet]) /\ c <> 0.
Proof. exact set_stops_halfway. Qed.
Print Assumptions C24_system_prestress_refuted.
