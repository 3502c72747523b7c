(** Property C74: energy balance of harmonic solutions. *)
From Coq Require Import Reals List Arith Bool.
From Verif.Lib Require Import RSum Py.
From Verif.Spec Require Import Harmonic Elements System Slider Galerkin Rotation Energy.
From Verif.Model Require Import Harmonic VibSys SysElements Jenkins Iwan SysHistory SysHarmonic.
From Verif.Proofs Require Import RotationCaseP SymmetryCaseP EnergyP FrictionWorkP EnergyCaseP.
Import ListNotations.
Open Scope R_scope.

(** * C74 *)
(** At a zero of the residual of hbm_res the external forces feed in what the damping matrix and the elements take, on average over the
    period.  Symmetric mass and stiffness matrices take nothing.  A system whose parts do not create energy must be fed. *)
Theorem C74_forced : forall N h Nt M C K els X Fl v l Rr, admissible h ->
  let n := (length (components h) * N)%nat in let w := X n in let vel := fun j tau => w * v j tau in
  w <> 0 -> symmetric_matrix N M -> symmetric_matrix N K -> phase_velocity N h X v ->
  sys_hbm_res N M C K els X Fl h Nt = (l, Ok (Some Rr)) -> (forall r, (r < n)%nat -> Rr r = 0) ->
  exists Pext Pc Fs Ps, mean_power N (harmonic_force N h Fl) vel Pext /\ mean_power N (viscous N C vel) vel Pc /\
    Forall2 (fun e F => exists e', element_aft N e (take n X) w h Nt = Ok (e', Some F)) els Fs /\
    Forall2 (fun F P => mean_power N (harmonic_force N h F) vel P) Fs Ps /\ Pext = Pc + lsum (fun P => P) Ps /\
    (positive_semidefinite N C -> Forall (fun P => 0 <= P) Ps -> 0 <= Pext).
Proof. exact forced_balance. Qed.
Print Assumptions C74_forced.

(** At a zero of the residual of epmc_res the damping coefficient xi is the power taken by the damping matrix and the elements, divided by
    the mean of v'Mv, which is positive.  It is not negative if the system takes energy. *)
Theorem C74_nonlinear_mode : forall s h Nt X Fl outs v Rr G, admissible h -> starts_with_1 h ->
  let N := vs_N s in let n := (length (components h) * N)%nat in let w := X n in let xi := X (n + 1)%nat in
  let U := amplitude_scaled N h X (X (n + 2)%nat) in let vel := fun j tau => w * v j tau in
  w <> 0 -> symmetric_matrix N (vs_M s) -> symmetric_matrix N (vs_K s) -> positive_semidefinite N (vs_M s) -> phase_velocity N h U v ->
  Forall2 (fun f o => nl_aft f (take n U) w h Nt = Ok o) (vs_forces s) outs ->
  epmc_res s X Fl h Nt true = Ok (Rr, Some G) -> (forall i, (i < n + 2)%nat -> Rr i = 0) ->
  exists Pm Pc Ps, mean_power N (viscous N (vs_M s) vel) vel Pm /\ mean_power N (viscous N (vs_C s) vel) vel Pc /\
    Forall2 (fun o P => mean_power N (harmonic_force N h (fst (fst o))) vel P) outs Ps /\
    (w * Rpower 10 (X (n + 2)%nat)) ^ 2 / 2 <= Pm /\ xi = (Pc + lsum (fun P => P) Ps) / Pm /\
    (positive_semidefinite N (vs_C s) -> Forall (fun P => 0 <= P) Ps -> 0 <= xi).
Proof. exact epmc_damping. Qed.
Print Assumptions C74_nonlinear_mode.

(** Forces returned as exact Fourier integrals (C71) take the same power as the force during the motion. *)
Theorem C74_exact : forall N h Nt f phi U w v, admissible h -> exact_harmonics N h Nt f phi -> phase_velocity N h U v ->
  exists F dU dw P, nl_aft f U w h Nt = Ok (F, dU, dw) /\
    mean_power N (harmonic_force N h F) (fun j tau => w * v j tau) P /\ mean_power N (phi U w v) (fun j tau => w * v j tau) P.
Proof. exact exact_power. Qed.
Print Assumptions C74_exact.

(** Hence springs do no work over the period, with enough samples, and cubic dampers take energy. *)
Theorem C74_elements : forall N nnl Q T h Nt, admissible h -> (2 * list_max h + 1 < Nt)%nat -> Nat.even Nt = true -> acts_on_its_displacements N nnl Q T ->
  (forall k U w v, (4 * list_max h < Nt)%nat -> phase_velocity N h U v ->
    exists F dU dw, nl_aft (cubic_nl N nnl Q T k) U w h Nt = Ok (F, dU, dw) /\ mean_power N (harmonic_force N h F) (fun j tau => w * v j tau) 0) /\
  (forall k U w v, (6 * list_max h < Nt)%nat -> phase_velocity N h U v ->
    exists F dU dw, nl_aft (quintic_nl N nnl Q T k) U w h Nt = Ok (F, dU, dw) /\ mean_power N (harmonic_force N h F) (fun j tau => w * v j tau) 0) /\
  (forall c U w v, (4 * list_max h < Nt)%nat -> phase_velocity N h U v -> (forall d, (d < nnl)%nat -> 0 <= c d) ->
    exists F dU dw P, nl_aft (damping_nl N nnl Q T c) U w h Nt = Ok (F, dU, dw) /\ mean_power N (harmonic_force N h F) (fun j tau => w * v j tau) P /\ 0 <= P) /\
  (forall cnl E qq p U w v, (forall m, (m < cnl)%nat -> (fold_right Nat.add O (map (qq m) (seq 0 nnl)) <= p)%nat) -> ((p + 1) * list_max h < Nt)%nat -> phase_velocity N h U v ->
    has_potential nnl (fun q d => rsum cnl (fun m => E d m * monomial nnl (qq m) q)) ->
    exists F dU dw, nl_aft (poly_nl N nnl cnl Q T E qq) U w h Nt = Ok (F, dU, dw) /\ mean_power N (harmonic_force N h F) (fun j tau => w * v j tau) 0).
Proof. exact element_powers. Qed.
Print Assumptions C74_elements.

(** Friction elements in their steady state take energy from motions with one harmonic, for any number of samples. *)
Theorem C74_friction_partial : forall N h Nt k U w v e, admissible h -> (2 * list_max h + 1 < Nt)%nat -> Nat.even Nt = true -> one_harmonic h k -> phase_velocity N h U v -> 0 <= w ->
  steady_evaluation N h Nt e U ->
  (exists Q T s, e = ElJenkins Q T s /\ acts_on_its_displacements N 1 Q T /\ 0 < j_kt s) \/
  (exists Q T s, e = ElIwan Q T s /\ acts_on_its_displacements N 1 Q T /\ forall i, (i < iw_n s)%nat -> 0 <= iw_w s i) ->
  exists e' F P, element_aft N e U w h Nt = Ok (e', Some F) /\ mean_power N (harmonic_force N h F) (fun j tau => w * v j tau) P /\ 0 <= P.
Proof. exact friction_dissipates. Qed.
Print Assumptions C74_friction_partial.

(** With several harmonics this is false for admissible numbers of samples: a Jenkins element in its steady state can feed energy into the
    system (8 samples of 3/2 sin(tau) - 3/2 cos(3 tau)). *)
Theorem C74_friction_refuted : exists N h Nt Q T s U w v e F P, admissible h /\ (2 * list_max h + 1 < Nt)%nat /\ Nat.even Nt = true /\ acts_on_its_displacements N 1 Q T /\ phase_velocity N h U v /\
  0 < w /\ 0 < j_kt s /\ 0 < j_Fs s /\ steady_evaluation N h Nt (ElJenkins Q T s) U /\
  element_aft N (ElJenkins Q T s) U w h Nt = Ok (e, Some F) /\ mean_power N (harmonic_force N h F) (fun j tau => w * v j tau) P /\ P < 0.
Proof. exact friction_generates. Qed.
Print Assumptions C74_friction_refuted.

(** A Jenkins element and a cubic damper on the motion 2 cos(tau), with the external forces that make the residual zero. *)
Example C74_forced_case : let els := [ElJenkins one one (j_new 1 1); ElInstant (damping_nl 1 1 one one (fun _ => 2))] in
  admissible sym_h1 /\ one_harmonic sym_h1 1 /\ (2 * list_max sym_h1 + 1 < 6)%nat /\ (4 * list_max sym_h1 < 6)%nat /\ Nat.even 6 = true /\ acts_on_its_displacements 1 1 one one /\
  sym_X 2%nat = 1 /\ symmetric_matrix 1 one /\ steady_evaluation 1 sym_h1 6 (ElJenkins one one (j_new 1 1)) (take 2 sym_X) /\
  (exists v, phase_velocity 1 sym_h1 sym_X v) /\ exists Fl l Rr, sys_hbm_res 1 one one one els sym_X Fl sym_h1 6 = (l, Ok (Some Rr)) /\ forall r, (r < length (components sym_h1) * 1)%nat -> Rr r = 0.
Proof. exact forced_case. Qed.

(** The nonlinear mode cos(2 t) of an oscillator with mass 1, stiffness 1, damping 1/10, cubic stiffness 4 and cubic damping 1/10: the
    residual of epmc_res is zero with xi = 4/10. *)
Example C74_mode_case : admissible [1%nat] /\ starts_with_1 [1%nat] /\ mode_X 2%nat <> 0 /\ symmetric_matrix 1 one /\ positive_semidefinite 1 one /\ positive_semidefinite 1 (vs_C mode_sys) /\
  exists outs v Rr G, phase_velocity 1 [1%nat] (amplitude_scaled 1 [1%nat] mode_X (mode_X 4%nat)) v /\
    Forall2 (fun f o => nl_aft f (take 2 (amplitude_scaled 1 [1%nat] mode_X (mode_X 4%nat))) (mode_X 2%nat) [1%nat] 6 = Ok o) (vs_forces mode_sys) outs /\
    epmc_res mode_sys mode_X mode_F [1%nat] 6 true = Ok (Rr, Some G) /\ forall i, (i < 4)%nat -> Rr i = 0.
Proof. exact mode_case. Qed.
