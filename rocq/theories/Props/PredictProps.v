(** Property C67: the initial guess from the linear response. *)
From Coq Require Import Reals List Arith Bool.
From Verif.Lib Require Import RSum Py.
From Verif.Spec Require Import Calculus Harmonic System Predict.
From Verif.Model Require Import Harmonic VibSys Predict.
From Verif.Proofs Require Import SysElementsP PredictP.
Import ListNotations.
Open Scope R_scope.

(** * C67 *)
(** equation = 'HBM': with the forcing vector G made of the static part of Fl and fmag times its first harmonic, the guess is a root of
    the harmonic balance residual of the system without nonlinear forces, at frequency w. *)
Theorem C67_hbm s w Fl h eigs Xstat neigs a b fmag rhi amp recov order nl cg G Nt
  (harmonics : admissible h) (first : starts_with_1 h) (moving : w <> 0) (enough_modes : (vs_N s <= neigs)%nat)
  (modes : modal_system s eigs a b) (regular : off_resonance s eigs a b w) (static : static_solution s h Xstat Fl)
  (forcing : forall i t, (i < vs_N s)%nat -> motion (vs_N s) h G w i t = static_part h Fl i + fmag * harmonic_part 1 (vs_N s) h Fl w i t) :
  let n := (length (components h) * vs_N s)%nat in
  exists U0, predict_harmonic_solution s w Fl h eigs EqHBM Xstat (Some fmag) amp recov order rhi neigs nl cg = Ok (Some U0) /\ U0 n = w /\
    exists Rr J, hbm_res (linear_part s) U0 G h Nt true = Ok (Rr, Some J) /\ forall i, (i < n)%nat -> Rr i = 0.
Proof. exact (hbm_guess s w Fl h eigs Xstat neigs a b harmonics first moving enough_modes modes regular static fmag rhi amp recov order nl cg G Nt forcing). Qed.
Print Assumptions C67_hbm.

(** equation = 'HBM_AMP': the guess is a root of the amplitude-controlled residual of the linear system, unless the control point does
    not move in the linear response (then the amplitude is divided by zero). *)
Theorem C67_amp s w Fl h eigs Xstat neigs a b amp recov order fmag rhi nl cg Nt
  (harmonics : admissible h) (first : starts_with_1 h) (moving : w <> 0) (enough_modes : (vs_N s <= neigs)%nat)
  (modes : modal_system s eigs a b) (regular : off_resonance s eigs a b w) (static : static_solution s h Xstat Fl)
  (forcing : forall i t, (i < vs_N s)%nat -> motion (vs_N s) h Fl w i t = static_part h Fl i + harmonic_part 1 (vs_N s) h Fl w i t) :
  let n := (length (components h) * vs_N s)%nat in
  let guess := predict_harmonic_solution s w Fl h eigs EqAmp Xstat fmag (Some amp) (Some recov) (Some order) rhi neigs nl cg in
  (guess = Ok None /\ at_rest s w h Fl recov) \/
  exists U0, guess = Ok (Some U0) /\ U0 (n + 1)%nat = w /\
    exists Rr J, hbm_amp_control_res (linear_part s) U0 Fl h recov amp order Nt true = Ok (Rr, Some J) /\ forall i, (i < n + 1)%nat -> Rr i = 0.
Proof. exact (amp_guess s w Fl h eigs Xstat neigs a b harmonics first moving enough_modes modes regular static amp recov order fmag rhi nl cg Nt forcing). Qed.
Print Assumptions C67_amp.

(** equation = 'HBM_AMP_PHASE': likewise for the amplitude and phase controlled residual, when the force is a cosine. *)
Theorem C67_amp_phase s w Fl h eigs Xstat neigs a b amp recov order fmag rhi nl cg Nt
  (harmonics : admissible h) (first : starts_with_1 h) (moving : w <> 0) (enough_modes : (vs_N s <= neigs)%nat)
  (modes : modal_system s eigs a b) (regular : off_resonance s eigs a b w) (static : static_solution s h Xstat Fl)
  (cosine : forall i, (i < vs_N s)%nat -> first_sin (vs_N s) h Fl i = 0) :
  let n := (length (components h) * vs_N s)%nat in
  let guess := predict_harmonic_solution s w Fl h eigs EqAmpPhase Xstat fmag (Some amp) (Some recov) (Some order) rhi neigs nl cg in
  (guess = Ok None /\ at_rest s w h Fl recov) \/
  exists U0, guess = Ok (Some U0) /\ U0 (n + 2)%nat = w /\
    exists Rr J, hbm_amp_phase_control_res (linear_part s) U0 Fl h recov amp order Nt true = Ok (Rr, Some J) /\ forall i, (i < n + 2)%nat -> Rr i = 0.
Proof. exact (amp_phase_guess s w Fl h eigs Xstat neigs a b harmonics first moving enough_modes modes regular static cosine amp recov order fmag rhi nl cg Nt). Qed.
Print Assumptions C67_amp_phase.

(** equation = 'VPRNM_AMP_PHASE': the guess moves the control point in phase at the requested amplitude, and it solves the equations of
    motion in which the nonlinear forces of [nl] act only through their harmonic rhi, evaluated on the harmonics below rhi of the guess. *)
Theorem C67_vprnm s w Fl h eigs Xstat neigs a b amp recov order rhi nl cg fmag
  (harmonics : admissible h) (first : starts_with_1 h) (moving : w <> 0) (enough_modes : (vs_N s <= neigs)%nat)
  (modes : modal_system s eigs a b) (regular : off_resonance s eigs a b w) (static : static_solution s h Xstat Fl)
  (cosine : forall i, (i < vs_N s)%nat -> first_sin (vs_N s) h Fl i = 0)
  (super : (1 < rhi)%nat) (ordered : ordered_at rhi h) (regular_rhi : off_resonance s eigs a b (INR rhi * w))
  (forces : forall U, exists F G, total_aft nl U w h 128 cg = Ok (F, G)) :
  let N := vs_N s in let n := (length (components h) * N)%nat in
  let guess := predict_harmonic_solution s w Fl h eigs EqVprnmAmpPhase Xstat fmag (Some amp) (Some recov) (Some order) (Some rhi) neigs (Some nl) cg in
  (guess = Ok None /\ at_rest s w h Fl recov) \/
  exists U0 F G, guess = Ok (Some U0) /\ U0 (n + 2)%nat = w /\ U0 (n + 3)%nat = amp /\
    total_aft nl (below rhi N h U0) w h 128 cg = Ok (F, G) /\
    equation_of_motion N h (vs_M s) (vs_C s) (vs_K s) U0 w (harmonic_part rhi N h F w)
      (fun i t => static_part h Fl i + (U0 n * cos (w * t) + U0 (n + 1)%nat * sin (w * t)) * first_cos N h Fl i) /\
    forall t, w ^ order * recovered N h recov U0 w t = amp * cos (w * t).
Proof. exact (vprnm_guess s w Fl h eigs Xstat neigs a b harmonics first moving enough_modes modes regular static cosine amp recov order rhi nl cg fmag super ordered regular_rhi forces). Qed.
Print Assumptions C67_vprnm.

(** a two degree of freedom system with cubic and quintic springs, harmonics 1 and 3 *)
Example C67_case : modal_system case_sys case_eigs 1 1 /\ off_resonance case_sys case_eigs 1 1 1 /\ off_resonance case_sys case_eigs 1 1 (INR 3 * 1).
Proof. exact case_modal. Qed.
Example C67_case_setting : admissible [1%nat; 3%nat] /\ starts_with_1 [1%nat; 3%nat] /\ ordered_at 3 [1%nat; 3%nat] /\ static_solution case_sys [1%nat; 3%nat] None case_Fl /\
  (forall i, (i < 2)%nat -> first_sin 2 [1%nat; 3%nat] case_Fl i = 0) /\
  (forall i t, (i < 2)%nat -> motion 2 [1%nat; 3%nat] case_Fl 1 i t = static_part [1%nat; 3%nat] case_Fl i + harmonic_part 1 2 [1%nat; 3%nat] case_Fl 1 i t).
Proof. exact case_setting. Qed.
Example C67_case_moves : ~ at_rest case_sys 1 [1%nat; 3%nat] case_Fl case_recov.
Proof. exact case_moves. Qed.
Example C67_case_forces : forall U, exists F G, total_aft case_sys U 1 [1%nat; 3%nat] 128 true = Ok (F, G).
Proof. exact case_aft. Qed.
