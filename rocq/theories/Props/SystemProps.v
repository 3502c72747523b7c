(** Properties C47-C58: VibrationSystem.  Specification: Spec/System.v, Spec/Harmonic.v, Spec/Calculus.v.
    [aft_smooth] and [static_smooth] say that the element returns the derivatives of what it returns
    (C11-C15, C22); they hold for the modelled elements (C49_elements). *)
From Coq Require Import Reals Lra Lia Arith List Bool.
From Verif.Lib Require Import RSum Py.
From Verif.Spec Require Import Calculus Harmonic Elements Slider System.
From Verif.Model Require Import Jenkins LocalForces Aft VibSys TimeStability SysElements.
From Verif.Proofs Require Import VibSysP VibControlP EpmcP VprnmP BaseP FrfP ShootP SysElementsP SystemCasesP.
Import ListNotations.
Open Scope R_scope.

(** C48: static_res is K u + sum of the element forces - applied force. *)
Theorem C48_static_value s U Fst outs
  (forces : Forall2 (fun f o => nl_force f U = Ok o) (vs_forces s) outs) :
  exists Rr J, static_res s U Fst = Ok (Rr, J) /\
    forall i, Rr i = rsum (vs_N s) (fun j => vs_K s i j * U j) + lsum (fun o => fst o i) outs - Fst i.
Proof. exact (static_value s U Fst outs forces). Qed.
Print Assumptions C48_static_value.

(** C48: the returned matrix is the Jacobian of the residual. *)
Theorem C48_static_jacobian s U Fst (smooth : Forall (static_smooth (vs_N s) U) (vs_forces s)) :
  exists (Rf : vec -> vec) (J : mat),
    (forall U', exists J', static_res s U' Fst = Ok (Rf U', J')) /\
    static_res s U Fst = Ok (Rf U, J) /\ is_jacobian (vs_N s) (vs_N s) Rf U J.
Proof. exact (static_residual s U Fst smooth). Qed.
Print Assumptions C48_static_jacobian.

(** two degrees of freedom with a cubic spring between them, at any displacement *)
Example C48_case : forall U, let f := cubic_nl 2 1 case_Q case_T (fun _ => 1) in
  Forall (static_smooth 2 U) [f] /\ exists outs, Forall2 (fun f o => nl_force f U = Ok o) [f] outs.
Proof. exact static_case. Qed.

(** C49: hbm_res returns its exact derivatives in the harmonic coefficients and the frequency. *)
Theorem C49_hbm_jacobian s h Nt X Fl (harmonics : admissible h)
  (smooth : let n := (length (components h) * vs_N s)%nat in
            Forall (aft_smooth n h Nt (take n X) (X n)) (vs_forces s)) :
  let n := (length (components h) * vs_N s)%nat in
  exact_residual n n (fun X => hbm_res s X Fl h Nt true) X.
Proof. exact (hbm_exact s h Nt X Fl harmonics smooth). Qed.
Print Assumptions C49_hbm_jacobian.

(** C49: hbm_res vanishes exactly when the motion solves M u'' + C u' + K u + (sum of harmonic element forces) = force
    at every time. *)
Theorem C49_hbm_zero s h Nt X Fl outs (harmonics : admissible h) :
  let n := (length (components h) * vs_N s)%nat in
  forall (rotating : X n <> 0)
         (forces : Forall2 (fun f o => nl_aft f (take n X) (X n) h Nt = Ok o) (vs_forces s) outs),
  exists Rr G, hbm_res s X Fl h Nt true = Ok (Rr, Some G) /\
    ((forall i, (i < n)%nat -> Rr i = 0) <->
     equation_of_motion (vs_N s) h (vs_M s) (vs_C s) (vs_K s) X (X n)
       (total_motion (vs_N s) h outs (X n)) (motion (vs_N s) h Fl (X n))).
Proof. exact (hbm_zero s h Nt X Fl outs harmonics). Qed.
Print Assumptions C49_hbm_zero.

(** C63: without gradients the same residual is returned, provided every element supports calc_grad=False. *)
Theorem C63_no_grad_partial s h Nt X Fl outs (harmonics : admissible h) :
  let n := (length (components h) * vs_N s)%nat in
  forall (forces : Forall2 (fun f o => nl_aft f (take n X) (X n) h Nt = Ok o) (vs_forces s) outs)
         (forces_F : Forall2 (fun f o => nl_aft_F f (take n X) (X n) h Nt = Ok (fst (fst o))) (vs_forces s) outs),
  exists Rr G, hbm_res s X Fl h Nt true = Ok (Rr, Some G) /\ hbm_res s X Fl h Nt false = Ok (Rr, None).
Proof. exact (hbm_no_grad s h Nt X Fl outs harmonics). Qed.
Print Assumptions C63_no_grad_partial.

(** C63: refuted with a hysteretic element, whose aft has no argument calc_grad. *)
Theorem C63_no_grad_refuted : exists s X Fl h Nt Rr G,
  hbm_res s X Fl h Nt true = Ok (Rr, Some G) /\ hbm_res s X Fl h Nt false = Err TypeError.
Proof. exact no_grad_hysteretic. Qed.
Print Assumptions C63_no_grad_refuted.

(** the same system, whose elements accept calc_grad *)
Example C63_case : let h := [O; 1%nat; 3%nat] in let n := (length (components h) * vs_N case_sys)%nat in
  admissible h /\ forall X, X n <> 0 -> exists outs, Forall2 (fun f o => nl_aft f (take n X) (X n) h 8 = Ok o) (vs_forces case_sys) outs /\
    Forall2 (fun f o => nl_aft_F f (take n X) (X n) h 8 = Ok (fst (fst o))) (vs_forces case_sys) outs.
Proof. exact no_grad_case. Qed.

(** C49: the modelled elements satisfy the smoothness hypothesis (hysteretic and piecewise laws away from their kinks). *)
Theorem C49_elements N nnl Q T h Nt
  (harmonics : admissible h) (enough : (2 * list_max h + 1 < Nt)%nat) (even : Nat.even Nt = true) U w (rotating : w <> 0) :
  let m := (length (components h) * N)%nat in
  (forall k, aft_smooth m h Nt U w (cubic_nl N nnl Q T k)) /\
  (forall k, aft_smooth m h Nt U w (quintic_nl N nnl Q T k)) /\
  (forall c, aft_smooth m h Nt U w (damping_nl N nnl Q T c)) /\
  (forall cnl E qq, aft_smooth m h Nt U w (poly_nl N nnl cnl Q T E qq)) /\
  (forall k Np delta, (forall d, (d < nnl)%nat -> 0 <= k d) ->
     (forall d n, (d < nnl)%nat -> (n < Nt)%nat -> local_motion N Q h U d (sample_phase Nt n) <> delta d) ->
     aft_smooth m h Nt U w (unilateral_nl N nnl Q T k Np delta)) /\
  (forall kt Fs chi beta, 0 < kt -> 0 < Fs -> -1 < chi -> 0 <= beta ->
     (forall d n, (d < nnl)%nat -> (n < Nt)%nat ->
        Rabs (local_motion N Q h U d (sample_phase Nt n)) <> macroslip kt Fs chi beta) ->
     aft_smooth m h Nt U w (iwan_nl N nnl Q T kt Fs chi beta)) /\
  (forall s, 0 <= j_Fs s ->
     let u := repeat_samples Nt (fun n => local_motion N Q h U 0 (sample_phase Nt n)) in
     (forall j, (j < 2 * Nt)%nat -> Rabs (trial (j_kt s) (j_Fs s) u (local_first_coef N Q U) j) <> j_Fs s) ->
     Rabs (jenkins_law (j_kt s) (j_Fs s) u (local_first_coef N Q U) (Nt - 1)) <> default_tol ->
     aft_smooth m h Nt U w (jenkins_nl s N Q T)).
Proof.
  exact (conj (fun k => cubic_smooth N nnl Q T h Nt harmonics enough even k U w rotating)
        (conj (fun k => quintic_smooth N nnl Q T h Nt harmonics enough even k U w rotating)
        (conj (fun c => damping_smooth N nnl Q T h Nt harmonics enough even c U w rotating)
        (conj (fun cnl E qq => poly_smooth N nnl Q T h Nt harmonics enough even cnl E qq U w)
        (conj (fun k Np delta st off => unilateral_smooth N nnl Q T h Nt harmonics enough even k Np delta U w st rotating off)
        (conj (fun kt Fs chi beta a b c d off => iwan_smooth N nnl Q T h Nt harmonics enough even kt Fs chi beta U w a b c d rotating off)
              (fun s => jenkins_smooth N Q T h Nt harmonics enough even s U w))))))).
Qed.
Print Assumptions C49_elements.

(** two masses, cubic and quintic springs, proportional damping, harmonics 0, 1, 3, eight samples *)
Example C49_case : admissible [O; 1%nat; 3%nat] /\ starts_with_1 [O; 1%nat; 3%nat] /\
  vs_N case_sys = 2%nat /\ length (vs_forces case_sys) = 2%nat /\
  forall U w, w <> 0 ->
  Forall (aft_smooth (length (components [O; 1%nat; 3%nat]) * 2) [O; 1%nat; 3%nat] 8 U w) (vs_forces case_sys) /\
  Forall (static_smooth 2 U) [cubic_nl 2 1 case_Q case_T (fun _ => 1)].
Proof. exact case_system. Qed.

(** C50: hbm_res_dFl, unknown X n multiplies the dynamic part of the force only. *)
Theorem C50_dFl_jacobian s h Nt X w Fl (harmonics : admissible h)
  (smooth : let n := (length (components h) * vs_N s)%nat in
            Forall (aft_smooth n h Nt (take n X) w) (vs_forces s)) :
  let n := (length (components h) * vs_N s)%nat in
  exact_residual n n (fun X => hbm_res_dFl s X w Fl h Nt true) X.
Proof. exact (dFl_exact s h Nt X w Fl harmonics smooth). Qed.
Print Assumptions C50_dFl_jacobian.

Theorem C50_dFl_zero s h Nt X w Fl outs (harmonics : admissible h) (rotating : w <> 0) :
  let n := (length (components h) * vs_N s)%nat in
  forall (forces : Forall2 (fun f o => nl_aft f (take n X) w h Nt = Ok o) (vs_forces s) outs),
  exists Rr G, hbm_res_dFl s X w Fl h Nt true = Ok (Rr, Some G) /\
    ((forall i, (i < n)%nat -> Rr i = 0) <->
     equation_of_motion (vs_N s) h (vs_M s) (vs_C s) (vs_K s) X w (total_motion (vs_N s) h outs w)
       (fun i t => static_part h Fl i + X n * (motion (vs_N s) h Fl w i t - static_part h Fl i))).
Proof. exact (dFl_zero s h Nt X w Fl outs harmonics rotating). Qed.
Print Assumptions C50_dFl_zero.

(** two degrees of freedom with a cubic and a quintic spring, at any motion and force amplitude *)
Example C50_case : let h := [O; 1%nat; 3%nat] in let n := (length (components h) * vs_N case_sys)%nat in
  admissible h /\ n = 10%nat /\ forall X w, w <> 0 -> Forall (aft_smooth n h 8 (take n X) w) (vs_forces case_sys) /\
  exists outs, Forall2 (fun f o => nl_aft f (take n X) w h 8 = Ok o) (vs_forces case_sys) outs.
Proof. exact hbm_case. Qed.

(** C51: hbm_amp_control_res, unknowns U, force scale, frequency. *)
Theorem C51_amp_jacobian s h Nt X Fl recov amp order (harmonics : admissible h) (first : starts_with_1 h)
  (smooth : let n := (length (components h) * vs_N s)%nat in
            Forall (aft_smooth n h Nt (take n X) (X (n + 1)%nat)) (vs_forces s)) :
  let n := (length (components h) * vs_N s)%nat in
  exact_residual (n + 1) (n + 1) (fun X => hbm_amp_control_res s X Fl h recov amp order Nt true) X.
Proof. exact (amp_exact s h Nt X Fl recov amp order harmonics first smooth). Qed.
Print Assumptions C51_amp_jacobian.

(** it vanishes exactly when the equation of motion holds and the time derivative of the given order of the first
    harmonic of recov.u has amplitude amp *)
Theorem C51_amp_zero s h Nt X Fl recov amp order outs (harmonics : admissible h) (first : starts_with_1 h) :
  let n := (length (components h) * vs_N s)%nat in
  let w := X (n + 1)%nat in
  forall (rotating : w <> 0)
         (forces : Forall2 (fun f o => nl_aft f (take n X) w h Nt = Ok o) (vs_forces s) outs),
  exists Rr G, hbm_amp_control_res s X Fl h recov amp order Nt true = Ok (Rr, Some G) /\
    ((forall i, (i < n + 1)%nat -> Rr i = 0) <->
     equation_of_motion (vs_N s) h (vs_M s) (vs_C s) (vs_K s) X w (total_motion (vs_N s) h outs w)
       (fun i t => static_part h Fl i + X n * (motion (vs_N s) h Fl w i t - static_part h Fl i)) /\
     exists y phi, nth_derivative order (recovered (vs_N s) h recov X w) y /\ forall t, y t = amp * cos (w * t + phi)).
Proof. exact (amp_zero s h Nt X Fl recov amp order outs harmonics first). Qed.
Print Assumptions C51_amp_zero.

(** C51: hbm_amp_phase_control_res, unknowns U, cosine and sine force scale, frequency. *)
Theorem C51_amp_phase_jacobian s h Nt X Fl recov amp order (harmonics : admissible h) (first : starts_with_1 h) :
  let n := (length (components h) * vs_N s)%nat in
  forall (rotating : X (n + 2)%nat <> 0)
         (smooth : Forall (aft_smooth n h Nt (take n X) (X (n + 2)%nat)) (vs_forces s)),
  exact_residual (n + 2) (n + 2) (fun X => hbm_amp_phase_control_res s X Fl h recov amp order Nt true) X.
Proof. exact (amp_phase_exact s h Nt X Fl recov amp order harmonics first). Qed.
Print Assumptions C51_amp_phase_jacobian.

(** it vanishes exactly when the equation of motion holds under the force Fc cos + Fs sin along the first cosine
    coefficient of Fl, and w^order times the first harmonic of recov.u is amp cos(w t) *)
Theorem C51_amp_phase_zero s h Nt X Fl recov amp order outs (harmonics : admissible h) (first : starts_with_1 h) :
  let n := (length (components h) * vs_N s)%nat in
  let w := X (n + 2)%nat in
  forall (rotating : w <> 0)
         (forces : Forall2 (fun f o => nl_aft f (take n X) w h Nt = Ok o) (vs_forces s) outs),
  exists Rr G, hbm_amp_phase_control_res s X Fl h recov amp order Nt true = Ok (Rr, Some G) /\
    ((forall i, (i < n + 2)%nat -> Rr i = 0) <->
     equation_of_motion (vs_N s) h (vs_M s) (vs_C s) (vs_K s) X w (total_motion (vs_N s) h outs w)
       (fun i t => static_part h Fl i + (X n * cos (w * t) + X (n + 1)%nat * sin (w * t)) * first_cos (vs_N s) h Fl i) /\
     forall t, w ^ order * recovered (vs_N s) h recov X w t = amp * cos (w * t)).
Proof. exact (amp_phase_zero s h Nt X Fl recov amp order outs harmonics first). Qed.
Print Assumptions C51_amp_phase_zero.

(** C51: hbm_amp_phase_control_dA_res, unknowns U, cosine and sine force scale, amplitude. *)
Theorem C51_amp_phase_dA_jacobian s h Nt X Fl recov w order (harmonics : admissible h) (first : starts_with_1 h) :
  let n := (length (components h) * vs_N s)%nat in
  forall (rotating : w <> 0) (smooth : Forall (aft_smooth n h Nt (take n X) w) (vs_forces s)),
  exact_residual (n + 2) (n + 2) (fun X => hbm_amp_phase_control_dA_res s X Fl h recov w order Nt true) X.
Proof. exact (amp_phase_dA_exact s h Nt X Fl recov w order harmonics first). Qed.
Print Assumptions C51_amp_phase_dA_jacobian.

Theorem C51_amp_phase_dA_zero s h Nt X Fl recov w order outs (harmonics : admissible h) (first : starts_with_1 h) :
  let n := (length (components h) * vs_N s)%nat in
  forall (rotating : w <> 0)
         (forces : Forall2 (fun f o => nl_aft f (take n X) w h Nt = Ok o) (vs_forces s) outs),
  exists Rr G, hbm_amp_phase_control_dA_res s X Fl h recov w order Nt true = Ok (Rr, Some G) /\
    ((forall i, (i < n + 2)%nat -> Rr i = 0) <->
     equation_of_motion (vs_N s) h (vs_M s) (vs_C s) (vs_K s) X w (total_motion (vs_N s) h outs w)
       (fun i t => static_part h Fl i + (X n * cos (w * t) + X (n + 1)%nat * sin (w * t)) * first_cos (vs_N s) h Fl i) /\
     forall t, w ^ order * recovered (vs_N s) h recov X w t = X (n + 2)%nat * cos (w * t)).
Proof. exact (amp_phase_dA_zero s h Nt X Fl recov w order outs harmonics first). Qed.
Print Assumptions C51_amp_phase_dA_zero.

(** the same system with amplitude control *)
Example C51_case : let h := [O; 1%nat; 3%nat] in let n := (length (components h) * vs_N case_sys)%nat in
  admissible h /\ starts_with_1 h /\ forall X, X (n + 1)%nat <> 0 -> Forall (aft_smooth n h 8 (take n X) (X (n + 1)%nat)) (vs_forces case_sys) /\
  exists outs, Forall2 (fun f o => nl_aft f (take n X) (X (n + 1)%nat) h 8 = Ok o) (vs_forces case_sys) outs.
Proof. exact control_case. Qed.

(** C52: epmc_res, unknowns U, frequency, xi and log10 of the amplitude. *)
Theorem C52_epmc_jacobian s h Nt X Fl (harmonics : admissible h) (first : starts_with_1 h)
  (mass_symmetric : forall i j, (i < vs_N s)%nat -> (j < vs_N s)%nat -> vs_M s i j = vs_M s j i) :
  let n := (length (components h) * vs_N s)%nat in
  forall (smooth : Forall (aft_smooth n h Nt (take n (amplitude_scaled (vs_N s) h X (X (n + 2)%nat))) (X n)) (vs_forces s)),
  exact_residual (n + 2) (n + 2) (fun X => epmc_res s X Fl h Nt true) X.
Proof. exact (epmc_exact s h Nt X Fl harmonics first mass_symmetric). Qed.
Print Assumptions C52_epmc_jacobian.

(** it vanishes exactly when the amplitude-scaled motion solves the equation of motion without dynamic excitation and
    with the damping C - xi M, the mode shape has modal mass one and the phase condition holds *)
Theorem C52_epmc_zero s h Nt X Fl outs (harmonics : admissible h) (first : starts_with_1 h) :
  let N := vs_N s in
  let n := (length (components h) * N)%nat in
  let w := X n in
  let U := amplitude_scaled N h X (X (n + 2)%nat) in
  forall (rotating : w <> 0)
         (forces : Forall2 (fun f o => nl_aft f (take n U) w h Nt = Ok o) (vs_forces s) outs),
  exists Rr G, epmc_res s X Fl h Nt true = Ok (Rr, Some G) /\
    ((forall i, (i < n + 2)%nat -> Rr i = 0) <->
     equation_of_motion N h (vs_M s) (fun i j => vs_C s i j - X (n + 1)%nat * vs_M s i j) (vs_K s) U w
       (total_motion N h outs w) (fun i _ => static_part h Fl i) /\
     modal_mass N h (vs_M s) X = 1 /\ dynamic_dot N h Fl X = 0).
Proof. exact (epmc_zero s h Nt X Fl outs harmonics first). Qed.
Print Assumptions C52_epmc_zero.

(** the same system for nonlinear modes: the motion is scaled by the amplitude *)
Example C52_case : let h := [O; 1%nat; 3%nat] in let n := (length (components h) * vs_N case_sys)%nat in
  admissible h /\ starts_with_1 h /\ (forall i j, vs_M case_sys i j = vs_M case_sys j i) /\
  forall X, X n <> 0 -> Forall (aft_smooth n h 8 (take n (amplitude_scaled (vs_N case_sys) h X (X (n + 2)%nat))) (X n)) (vs_forces case_sys) /\
  exists outs, Forall2 (fun f o => nl_aft f (take n (amplitude_scaled (vs_N case_sys) h X (X (n + 2)%nat))) (X n) h 8 = Ok o) (vs_forces case_sys) outs.
Proof. exact mode_case. Qed.

(** C56: the VPRNM equation is minus the normalised inner product of the superharmonic force (evaluated with the lower
    harmonics only) and the superharmonic response; it lies in [-1, 1] and vanishes exactly at quadrature. *)
Theorem C56_vprnm_value s h rhi Nt U w flt outs (harmonics : admissible h) (superharmonic : ordered_at rhi h) :
  let N := vs_N s in
  forall (forces : Forall2 (fun f o => nl_aft f (below rhi N h U) w h Nt = Ok o) (vs_forces s) outs)
         (force_present : superharmonic_force rhi N h flt (total_coefs outs) <> 0)
         (response_present : superharmonic_response rhi N h (vs_M s) flt U <> 0),
  exists Rr G, vprnm_single_eqn s U w h rhi Nt true flt = Ok (Rr, Some G) /\
    Rr = - vprnm_product rhi N h (vs_M s) flt (total_coefs outs) U
           / (sqrt (superharmonic_response rhi N h (vs_M s) flt U) * sqrt (superharmonic_force rhi N h flt (total_coefs outs))) /\
    -1 <= Rr <= 1 /\ (Rr = 0 <-> vprnm_product rhi N h (vs_M s) flt (total_coefs outs) U = 0).
Proof. exact (vprnm_spec s h rhi Nt U w flt outs harmonics superharmonic). Qed.
Print Assumptions C56_vprnm_value.

(** C56: the harmonics above rhi have no influence on the equation *)
Theorem C56_vprnm_independent s h rhi Nt U U' w flt outs (harmonics : admissible h) (superharmonic : ordered_at rhi h) :
  let N := vs_N s in
  forall (forces : Forall2 (fun f o => nl_aft f (below rhi N h U) w h Nt = Ok o) (vs_forces s) outs)
         (same_up_to_rhi : below (rhi + 1) N h U = below (rhi + 1) N h U'),
  exists Rr G G', vprnm_single_eqn s U w h rhi Nt true flt = Ok (Rr, Some G) /\
                  vprnm_single_eqn s U' w h rhi Nt true flt = Ok (Rr, Some G').
Proof. exact (vprnm_independent s h rhi Nt U U' w flt outs harmonics superharmonic). Qed.
Print Assumptions C56_vprnm_independent.

(** C56: the returned gradient is exact, its last entry being the derivative by the frequency *)
Theorem C56_vprnm_gradient s h rhi Nt U w flt outs (harmonics : admissible h) (superharmonic : ordered_at rhi h) :
  let N := vs_N s in
  let n := (length (components h) * N)%nat in
  forall (smooth : Forall (aft_smooth n h Nt (below rhi N h U) w) (vs_forces s))
         (forces : Forall2 (fun f o => nl_aft f (below rhi N h U) w h Nt = Ok o) (vs_forces s) outs)
         (force_present : superharmonic_force rhi N h flt (total_coefs outs) <> 0)
         (response_present : superharmonic_response rhi N h (vs_M s) flt U <> 0),
  exists (f : vec -> R -> R) (gv : vec),
    (forall U' w', exists G, vprnm_single_eqn s U' w' h rhi Nt true flt = Ok (f U' w', Some G)) /\
    vprnm_single_eqn s U w h rhi Nt true flt = Ok (f U w, Some gv) /\
    is_joint_gradient n f U w gv (gv n).
Proof. exact (vprnm_shape_nz s h rhi Nt U w flt outs harmonics superharmonic). Qed.
Print Assumptions C56_vprnm_gradient.

(** C56: vprnm_res, unknowns U, frequency and force scale *)
Theorem C56_vprnm_jacobian s h rhi Nt X Fl flt scale outs (harmonics : admissible h) (superharmonic : ordered_at rhi h) :
  let N := vs_N s in
  let n := (length (components h) * N)%nat in
  forall (smooth : Forall (aft_smooth n h Nt (take n X) (X n)) (vs_forces s))
         (smooth_below : Forall (aft_smooth n h Nt (below rhi N h X) (X n)) (vs_forces s))
         (forces : Forall2 (fun f o => nl_aft f (below rhi N h X) (X n) h Nt = Ok o) (vs_forces s) outs)
         (force_present : superharmonic_force rhi N h flt (total_coefs outs) <> 0)
         (response_present : superharmonic_response rhi N h (vs_M s) flt X <> 0),
  exact_residual (n + 1) (n + 1) (fun X => vprnm_res s X h rhi Fl Nt true flt scale) X.
Proof. exact (vprnm_exact s h rhi Nt X Fl flt scale outs harmonics superharmonic). Qed.
Print Assumptions C56_vprnm_jacobian.

Theorem C56_vprnm_zero s h rhi Nt X Fl flt scale outs outs' (harmonics : admissible h) (superharmonic : ordered_at rhi h) :
  let N := vs_N s in
  let n := (length (components h) * N)%nat in
  forall (rotating : X n <> 0) (scale_nonzero : scale <> 0)
         (forces : Forall2 (fun f o => nl_aft f (take n X) (X n) h Nt = Ok o) (vs_forces s) outs)
         (forces_below : Forall2 (fun f o => nl_aft f (below rhi N h X) (X n) h Nt = Ok o) (vs_forces s) outs')
         (force_present : superharmonic_force rhi N h flt (total_coefs outs') <> 0)
         (response_present : superharmonic_response rhi N h (vs_M s) flt X <> 0),
  exists Rr G, vprnm_res s X h rhi Fl Nt true flt scale = Ok (Rr, Some G) /\
    ((forall i, (i < n + 1)%nat -> Rr i = 0) <->
     equation_of_motion N h (vs_M s) (vs_C s) (vs_K s) X (X n) (total_motion N h outs (X n))
       (fun i t => static_part h Fl i + X (n + 1)%nat * (motion N h Fl (X n) i t - static_part h Fl i)) /\
     vprnm_product rhi N h (vs_M s) flt (total_coefs outs') X = 0).
Proof. exact (vprnm_zero s h rhi Nt X Fl flt scale outs outs' harmonics superharmonic). Qed.
Print Assumptions C56_vprnm_zero.

(** C56: vprnm_amp_phase_res, unknowns U, cosine and sine force scale, frequency and amplitude *)
Theorem C56_vprnm_amp_phase_jacobian s h rhi Nt X Fl recov order flt scale outs (harmonics : admissible h) (first : starts_with_1 h)
  (superharmonic : ordered_at rhi h) :
  let N := vs_N s in
  let n := (length (components h) * N)%nat in
  let w := X (n + 2)%nat in
  forall (rotating : w <> 0)
         (smooth : Forall (aft_smooth n h Nt (take n X) w) (vs_forces s))
         (smooth_below : Forall (aft_smooth n h Nt (below rhi N h X) w) (vs_forces s))
         (forces : Forall2 (fun f o => nl_aft f (below rhi N h X) w h Nt = Ok o) (vs_forces s) outs)
         (force_present : superharmonic_force rhi N h flt (total_coefs outs) <> 0)
         (response_present : superharmonic_response rhi N h (vs_M s) flt X <> 0),
  exact_residual (n + 3) (n + 3) (fun X => vprnm_amp_phase_res s X Fl h rhi recov order Nt true flt scale) X.
Proof. exact (vprnm_ap_exact s h rhi Nt X Fl recov order flt scale outs harmonics first superharmonic). Qed.
Print Assumptions C56_vprnm_amp_phase_jacobian.

Theorem C56_vprnm_amp_phase_zero s h rhi Nt X Fl recov order flt scale outs outs' (harmonics : admissible h) (first : starts_with_1 h)
  (superharmonic : ordered_at rhi h) :
  let N := vs_N s in
  let n := (length (components h) * N)%nat in
  let w := X (n + 2)%nat in
  forall (rotating : w <> 0) (scale_nonzero : scale <> 0)
         (forces : Forall2 (fun f o => nl_aft f (take n X) w h Nt = Ok o) (vs_forces s) outs)
         (forces_below : Forall2 (fun f o => nl_aft f (below rhi N h X) w h Nt = Ok o) (vs_forces s) outs')
         (force_present : superharmonic_force rhi N h flt (total_coefs outs') <> 0)
         (response_present : superharmonic_response rhi N h (vs_M s) flt X <> 0),
  exists Rr G, vprnm_amp_phase_res s X Fl h rhi recov order Nt true flt scale = Ok (Rr, Some G) /\
    ((forall i, (i < n + 3)%nat -> Rr i = 0) <->
     (equation_of_motion N h (vs_M s) (vs_C s) (vs_K s) X w (total_motion N h outs w)
       (fun i t => static_part h Fl i + (X n * cos (w * t) + X (n + 1)%nat * sin (w * t)) * first_cos N h Fl i) /\
      (forall t, w ^ order * recovered N h recov X w t = X (n + 3)%nat * cos (w * t))) /\
     vprnm_product rhi N h (vs_M s) flt (total_coefs outs') X = 0).
Proof. exact (vprnm_ap_zero s h rhi Nt X Fl recov order flt scale outs outs' harmonics first superharmonic). Qed.
Print Assumptions C56_vprnm_amp_phase_zero.

(** one mass, harmonics 1 and 3, a force whose third harmonic follows the first, at quadrature *)
Example C56_case : let h := [1; 3]%nat in let n := (length (components h) * vs_N vp_sys)%nat in
  admissible h /\ starts_with_1 h /\ ordered_at 3 h /\ n = 4%nat /\ vp_X n <> 0 /\
  Forall (aft_smooth n h 8 (take n vp_X) (vp_X n)) (vs_forces vp_sys) /\
  Forall (aft_smooth n h 8 (below 3 1 h vp_X) (vp_X n)) (vs_forces vp_sys) /\
  exists outs, Forall2 (fun f o => nl_aft f (below 3 1 h vp_X) (vp_X n) h 8 = Ok o) (vs_forces vp_sys) outs /\
    superharmonic_force 3 1 h None (total_coefs outs) = 1 /\
    superharmonic_response 3 1 h (vs_M vp_sys) None vp_X = 1 /\
    vprnm_product 3 1 h (vs_M vp_sys) None (total_coefs outs) vp_X = 0.
Proof. exact vprnm_case. Qed.

(** C47 is false: set_new_C without arguments sets the damping to zero, and after set_new_C(C) the linear response
    is still computed with the old proportional damping. *)
Theorem C47_damping_kept_refuted :
  exists s calls, vs_C (set_all s calls) <> fold_left (intended_damping (vs_M s) (vs_K s)) calls (vs_C s).
Proof. exact damping_lost. Qed.
Print Assumptions C47_damping_kept_refuted.

Theorem C47_frf_damping_refuted : exists s C w Fl eigs xc xs,
  let s' := vs_set_new_C s (Some C) None in
  all_modes (vs_N s) (vs_K s) (vs_M s) (fst (eigs (vs_K s) (vs_M s) (vs_N s))) (snd (eigs (vs_K s) (vs_M s) (vs_N s))) /\
  linear_frf s' w Fl eigs (vs_N s) None = Ok (xc, xs) /\
  ~ equation_of_motion (vs_N s) [1%nat] (vs_M s') (vs_C s') (vs_K s') (cos_sin (vs_N s) xc xs) w (fun _ _ => 0) (fun i t => Fl i * cos (w * t)).
Proof. exact frf_stale_ab. Qed.
Print Assumptions C47_frf_damping_refuted.

(** C47, what holds: if every call gives C or ab the damping is the one last set *)
Theorem C47_damping_partial s calls (each_call_sets : Forall (fun c => fst c <> None \/ snd c <> None) calls) :
  vs_C (set_all s calls) = fold_left (intended_damping (vs_M s) (vs_K s)) calls (vs_C s).
Proof. exact (damping_tracked calls s each_call_sets). Qed.
Print Assumptions C47_damping_partial.

(** C47, what holds: if the last call gives ab, linear_frf solves the equations with the damping matrix of the system *)
Theorem C47_frf_damping_partial s calls C a b w Fl eigs neigs Flsin (enough_modes : (vs_N s <= neigs)%nat) :
  let s' := set_all s (calls ++ [(C, Some (a, b))]) in
  let N := vs_N s in
  let fs := match Flsin with Some v => v | None => vzero end in
  forall (modes : all_modes N (vs_K s) (vs_M s) (fst (eigs (vs_K s) (vs_M s) N)) (snd (eigs (vs_K s) (vs_M s) N)))
         (off_resonance : no_resonance N a b w (fst (eigs (vs_K s) (vs_M s) N))),
  exists xc xs, linear_frf s' w Fl eigs neigs Flsin = Ok (xc, xs) /\
    equation_of_motion N [1%nat] (vs_M s') (vs_C s') (vs_K s') (cos_sin N xc xs) w
      (fun _ _ => 0) (fun i t => Fl i * cos (w * t) + fs i * sin (w * t)).
Proof. exact (frf_uses_last_ab s calls C a b w Fl eigs neigs Flsin enough_modes). Qed.
Print Assumptions C47_frf_damping_partial.

(** two degrees of freedom with natural frequencies 2 and 3, new damping set twice, excited at the first natural frequency *)
Example C47_case : let K : mat := fun i j => if Nat.eqb i j then match i with O => 4 | _ => 9 end else 0 in let M : mat := fun i j => if Nat.eqb i j then 1 else 0 in
  let wnsq : vec := fun m => match m with O => 4 | _ => 9 end in
  Forall (fun c : option mat * option (R * R) => fst c <> None \/ snd c <> None) [(Some M, None); (None, Some (1 / 10, 0))] /\
  all_modes 2 K M wnsq M /\ no_resonance 2 (1 / 10) 0 2 wnsq.
Proof. exact damping_case. Qed.

(** C53: with V the full coefficients (base entries Ub, free entries and frequency Uw), the base residual is the full
    residual at the free entries *)
Theorem C53_base_value s Uw Ub bf h Nt V Rr J l (harmonics : admissible h) :
  let N := vs_N s in
  let n := (length (components h) * N)%nat in
  forall (full : assembled N n bf Uw Ub V) (residual : hbm_res s V vzero h Nt true = Ok (Rr, Some (J, l))),
  let free := fun k => nth k (free_entries N n bf) O in
  hbm_base_res s Uw Ub bf h Nt = Ok (fun k => Rr (free k), fun k m => J (free k) (free m), fun k => l (free k)).
Proof. exact (base_value s Uw Ub bf h Nt V Rr J l harmonics). Qed.
Print Assumptions C53_base_value.

Theorem C53_base_jacobian s Uw Ub bf h Nt V (harmonics : admissible h) :
  let N := vs_N s in
  let n := (length (components h) * N)%nat in
  let m := length (free_entries N n bf) in
  forall (full : assembled N n bf Uw Ub V) (smooth : Forall (aft_smooth n h Nt (take n V) (V n)) (vs_forces s)),
  exact_residual m m (fun Uw => some_grad (hbm_base_res s Uw Ub bf h Nt)) Uw.
Proof. exact (base_exact s Uw Ub bf h Nt V harmonics). Qed.
Print Assumptions C53_base_jacobian.

(** C53: the residual is zero exactly when the full motion solves the equations of motion of all free degrees of freedom
    (the reaction acts on the base only) *)
Theorem C53_base_zero s Uw Ub bf h Nt V outs (harmonics : admissible h) :
  let N := vs_N s in
  let n := (length (components h) * N)%nat in
  let m := length (free_entries N n bf) in
  forall (full : assembled N n bf Uw Ub V) (rotating : Uw m <> 0)
         (forces : Forall2 (fun f o => nl_aft f (take n V) (Uw m) h Nt = Ok o) (vs_forces s) outs),
  exists Rr J l, hbm_base_res s Uw Ub bf h Nt = Ok (Rr, J, l) /\
    ((forall k, (k < m)%nat -> Rr k = 0) <->
     exists reaction, (forall i t, (i < N)%nat -> bf i = false -> reaction i t = 0) /\
       equation_of_motion N h (vs_M s) (vs_C s) (vs_K s) V (Uw m) (total_motion N h outs (Uw m)) reaction).
Proof. exact (base_zero s Uw Ub bf h Nt V outs harmonics). Qed.
Print Assumptions C53_base_zero.

Theorem C53_full_coefficients N n bf Uw Ub : exists V, assembled N n bf Uw Ub V.
Proof. exact (ex_intro _ _ (base_assembled N n bf Uw Ub)). Qed.
Print Assumptions C53_full_coefficients.

Example C53_case : let h := [O; 1; 3]%nat in
  admissible h /\ length (free_entries 2 10 case_base) = 5%nat /\ length (base_entries 2 10 case_base) = 5%nat /\
  forall V w, w <> 0 -> Forall (aft_smooth 10 h 8 V w) (vs_forces case_sys).
Proof.
  exact (conj (proj1 case_system) (conj eq_refl (conj eq_refl (fun V w Hw => proj1 (proj2 (proj2 (proj2 (proj2 case_system))) V w Hw))))).
Qed.

(** C54: with all mass normalised modes and off resonance, linear_frf returns the steady response to the harmonic force *)
Theorem C54_linear_frf s w Fl eigs neigs Flsin a b (proportional : vs_ab s = Some (a, b)) (enough_modes : (vs_N s <= neigs)%nat) :
  let N := vs_N s in
  let fs := match Flsin with Some v => v | None => vzero end in
  forall (modes : all_modes N (vs_K s) (vs_M s) (fst (eigs (vs_K s) (vs_M s) N)) (snd (eigs (vs_K s) (vs_M s) N)))
         (off_resonance : no_resonance N a b w (fst (eigs (vs_K s) (vs_M s) N))),
  exists xc xs, linear_frf s w Fl eigs neigs Flsin = Ok (xc, xs) /\
    equation_of_motion N [1%nat] (vs_M s) (fun i j => a * vs_M s i j + b * vs_K s i j) (vs_K s) (cos_sin N xc xs) w
      (fun _ _ => 0) (fun i t => Fl i * cos (w * t) + fs i * sin (w * t)).
Proof. exact (linear_frf_solves s w Fl eigs neigs Flsin a b proportional enough_modes). Qed.
Print Assumptions C54_linear_frf.

Example C54_case : vs_ab case_sys = Some (1, 1) /\
  all_modes 2 (vs_K case_sys) (vs_M case_sys) (fst (case_eigs (vs_K case_sys) (vs_M case_sys) 2)) (snd (case_eigs (vs_K case_sys) (vs_M case_sys) 2))
  /\ forall w, no_resonance 2 1 1 (w + 1) (fst (case_eigs (vs_K case_sys) (vs_M case_sys) 2)) \/ w = -1.
Proof. exact (conj eq_refl case_modes). Qed.

(** C55 is false: the inertia coupling between base and free degrees of freedom is left out. *)
Theorem C55_linear_frf_base_refuted : exists s w Ub bf eigs xc xs,
  let N := vs_N s in
  let free := selected (fun d => negb (bf d)) N in
  let nf := length free in
  let fr := fun i => nth i free O in
  let Kf := fun i j => vs_K s (fr i) (fr j) in
  let Mf := fun i j => vs_M s (fr i) (fr j) in
  exists ib, selected bf N = [ib] /\
  all_modes nf Kf Mf (fst (eigs Kf Mf nf)) (snd (eigs Kf Mf nf)) /\
  no_resonance nf 0 0 w (fst (eigs Kf Mf nf)) /\ vs_ab s = Some (0, 0) /\
  linear_frf_base s w Ub bf eigs nf = Ok (xc, xs) /\
  forall yc ys, yc ib = Ub O -> ys ib = Ub 1%nat ->
    (forall l, (l < nf)%nat -> yc (fr l) = xc l /\ ys (fr l) = xs l) ->
    ~ base_motion_equation N bf (vs_M s) (vs_C s) (vs_K s) yc ys w.
Proof. exact linear_frf_base_wrong. Qed.
Print Assumptions C55_linear_frf_base_refuted.

(** C55, what holds: without inertia coupling to the (single) base degree of freedom, the returned motion together with the
    base motion solves the equations of motion of all free degrees of freedom *)
Theorem C55_linear_frf_base_partial s w Ub bf eigs neigs a b ib :
  let N := vs_N s in
  let free := selected (fun d => negb (bf d)) N in
  let nf := length free in
  let fr := fun i => nth i free O in
  let Kf := fun i j => vs_K s (fr i) (fr j) in
  let Mf := fun i j => vs_M s (fr i) (fr j) in
  forall (proportional : vs_ab s = Some (a, b)) (enough_modes : (nf <= neigs)%nat)
  (one_base_dof : selected bf N = [ib])
  (damping : forall i j, (i < N)%nat -> (j < N)%nat -> vs_C s i j = a * vs_M s i j + b * vs_K s i j)
  (no_inertia_coupling : forall i, (i < N)%nat -> bf i = false -> vs_M s i ib = 0)
  (modes : all_modes nf Kf Mf (fst (eigs Kf Mf nf)) (snd (eigs Kf Mf nf)))
  (off_resonance : no_resonance nf a b w (fst (eigs Kf Mf nf))),
  exists xc xs, linear_frf_base s w Ub bf eigs neigs = Ok (xc, xs) /\
    forall yc ys, yc ib = Ub O -> ys ib = Ub 1%nat ->
      (forall l, (l < nf)%nat -> yc (fr l) = xc l /\ ys (fr l) = xs l) ->
      base_motion_equation N bf (vs_M s) (vs_C s) (vs_K s) yc ys w.
Proof. exact (linear_frf_base_solves s w Ub bf eigs neigs a b ib). Qed.
Print Assumptions C55_linear_frf_base_partial.

Example C55_case :
  let free := selected (fun d => negb (case_base d)) 2 in
  let fr := fun i => nth i free O in
  let Kf := fun i j => vs_K case_sys (fr i) (fr j) in
  let Mf := fun i j => vs_M case_sys (fr i) (fr j) in
  length free = 1%nat /\ selected case_base 2 = [1%nat] /\
  (forall i j, (i < 2)%nat -> (j < 2)%nat -> vs_C case_sys i j = 1 * vs_M case_sys i j + 1 * vs_K case_sys i j) /\
  (forall i, (i < 2)%nat -> case_base i = false -> vs_M case_sys i 1%nat = 0) /\
  all_modes 1 Kf Mf (fun _ => 2) (fun _ _ => 1) /\ no_resonance 1 1 1 1 (fun _ => 2).
Proof. exact case_base_modes. Qed.

(** C57 is false: with two nonlinear forces only the last one enters the accelerations, and without any the function fails. *)
Theorem C57_all_forces_refuted : exists inv s y Fl w t f1 f2 F1 F2 dF1 dF2 dy,
  vs_forces s = [f1; f2] /\ nl_force f1 y = Ok (F1, dF1) /\ nl_force f2 y = Ok (F2, dF2) /\
  inverse_of (vs_N s) (vs_M s) (inv (vs_M s)) /\
  shooting_state_space inv t y s Fl w = Ok dy /\
  ~ newton (vs_N s) (vs_M s) (vs_C s) (vs_K s) y (fun i => y (vs_N s + i)%nat) (fun i => dy (vs_N s + i)%nat)
      (fun i => F1 i + F2 i) (fun i => Fl i * cos (w * t) + Fl (vs_N s + i)%nat * sin (w * t)).
Proof. exact shooting_two_forces. Qed.
Print Assumptions C57_all_forces_refuted.

Theorem C57_no_force_refuted inv t y s Fl w (no_force : vs_forces s = []) : shooting_state_space inv t y s Fl w = Err NameError.
Proof. exact (shooting_no_force inv t y s Fl w no_force). Qed.
Print Assumptions C57_no_force_refuted.

(** C57, what holds: with exactly one nonlinear force the state derivative follows the equations of motion *)
Theorem C57_state_derivative_partial inv t y s Fl w f F dF (one_force : vs_forces s = [f]) (force : nl_force f y = Ok (F, dF)) :
  let N := vs_N s in
  forall (inverse : inverse_of N (vs_M s) (inv (vs_M s))),
  exists dy, shooting_state_space inv t y s Fl w = Ok dy /\
    (forall i, (i < N)%nat -> dy i = y (N + i)%nat) /\
    newton N (vs_M s) (vs_C s) (vs_K s) y (fun i => y (N + i)%nat) (fun i => dy (N + i)%nat) F
      (fun i => Fl i * cos (w * t) + Fl (N + i)%nat * sin (w * t)).
Proof. exact (shooting_newton inv t y s Fl w f F dF one_force force). Qed.
Print Assumptions C57_state_derivative_partial.

(** C57: the remaining entries are the variational equations with the exact derivatives J, Gw of the state derivative G *)
Theorem C57_variational_partial inv t y s Fl w f (one_force : vs_forces s = [f]) :
  let N := vs_N s in
  let D := (2 * N)%nat in
  forall (smooth : static_smooth N y f),
  exists (G : vec -> R -> vec) (J : mat) (Gw dy : vec),
    (forall z w', exists dz, shooting_state_space inv t z s Fl w' = Ok dz /\ forall i, (i < D)%nat -> dz i = G z w' i) /\
    is_joint_jacobian D D G y w J Gw /\
    shooting_state_space inv t y s Fl w = Ok dy /\
    (forall r c, (r < D)%nat -> (c < D)%nat -> dy (D + (r * D + c))%nat = rsum D (fun k => J r k * y (D + (k * D + c))%nat)) /\
    (forall r, (r < D)%nat -> dy (D + D * D + r)%nat = rsum D (fun k => J r k * y (D + D * D + k)%nat) + Gw r).
Proof. exact (shooting_variational inv t y s Fl w f one_force). Qed.
Print Assumptions C57_variational_partial.

Example C57_case : vs_forces single_sys = [cubic_nl 2 1 case_Q case_T (fun _ => 1)] /\ inverse_of 2 (vs_M single_sys) mid /\
  forall y, static_smooth 2 y (cubic_nl 2 1 case_Q case_T (fun _ => 1)).
Proof. exact single_case. Qed.

(** C58: if solve_ivp integrates exactly, the shooting residual is the return map minus the identity, both returned
    derivatives are exact, and the monodromy matrix is the derivative of the return map *)
Theorem C58_shooting ivp inv s Fl Phi Uw :
  let D := (2 * vs_N s)%nat in
  forall (instantaneous : Forall (fun f => nl_type f = O) (vs_forces s))
         (integration : exact_integration D ivp (fun t y w => shooting_state_space inv t y s Fl w) (shooting_y0 (vs_N s)) Phi)
         (rotating : Uw D <> 0),
  exists Rr J l mono, shooting_res ivp inv s Uw Fl = Ok (Rr, J, l, mono) /\
    (forall i, (i < D)%nat -> Rr i = Phi (2 * PI / Uw D) Uw (Uw D) i - Uw i) /\
    is_jacobian (D + 1) D (fun X i => Phi (2 * PI / X D) X (X D) i - X i) Uw (hcat D J l) /\
    is_jacobian D D (fun z => Phi (2 * PI / Uw D) z (Uw D)) Uw mono.
Proof. exact (shooting_spec ivp inv s Fl Phi Uw). Qed.
Print Assumptions C58_shooting.

(** C58: a point is reported stable exactly when no eigenvalue of its monodromy matrix exceeds one in modulus *)
Theorem C58_stability ivp inv eigvals s Fl pts flags :
  let D := (2 * vs_N s)%nat in
  forall (all_eigenvalues : forall Uw Rr J l A, In Uw pts -> shooting_res ivp inv s Uw Fl = Ok (Rr, J, l, A) ->
            forall lam, In lam (eigvals A) <-> eigenvalue D A lam)
         (returned : time_stability ivp inv eigvals s pts Fl = Ok flags),
  Forall2 (fun Uw fl => exists Rr J l mono, shooting_res ivp inv s Uw Fl = Ok (Rr, J, l, mono) /\
    (fst fl = true <-> forall lam, eigenvalue D mono lam -> modulus lam <= 1) /\
    (forall lam, eigenvalue D mono lam -> modulus lam <= snd fl) /\
    (exists lam, eigenvalue D mono lam /\ modulus lam = snd fl)) pts flags.
Proof. exact (stability_spec ivp inv eigvals s Fl pts flags). Qed.
Print Assumptions C58_stability.

(** the oscillator u'' + u = 0 with its rotation flow *)
Example C58_case : Forall (fun f => nl_type f = O) (vs_forces osc) /\ vs_N osc = 1%nat /\
  exact_integration 2 osc_ivp (fun t y w => shooting_state_space (fun M => M) t y osc vzero w) (shooting_y0 1) osc_flow.
Proof. exact osc_case. Qed.

Example C58_stability_case Uw : Uw 2%nat = 4 ->
  time_stability osc_ivp (fun M => M) osc_eigvals osc [Uw] vzero = Ok [(true, 1)] /\
  forall Rr J l A, shooting_res osc_ivp (fun M => M) osc Uw vzero = Ok (Rr, J, l, A) -> forall lam, In lam (osc_eigvals A) <-> eigenvalue 2 A lam.
Proof. exact (osc_stability Uw). Qed.
