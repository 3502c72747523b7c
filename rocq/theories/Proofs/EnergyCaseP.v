(** A Jenkins element that creates energy on a coarsely sampled motion, and examples of the energy balance. *)
From Coq Require Import Reals ZArith Lra Lia Arith List FunctionalExtensionality.
From Verif.Lib Require Import RSum Py Calc.
From Verif.Spec Require Import Calculus Harmonic Elements Slider System Galerkin Rotation Energy.
From Verif.Model Require Import Harmonic LocalForces Aft VibSys SysElements Jenkins Iwan JaxFriction SysHistory SysHarmonic.
From Verif.Proofs Require Import HystAftP HarmonicP HarmonicOpsP FourierP AftP VibSysP EpmcP SliderP SliderShiftP TrigPolyP GalerkinP RotationP RotationCaseP SymmetryP SymmetryCaseP EnergyP FrictionWorkP.
Import ListNotations.
Open Scope R_scope.

(** u = 3/2 sin(tau) - 3/2 cos(3 tau) *)
Definition gen_h : list nat := [1; 3]%nat.
Definition gen_X : vec := fun r => match r with 1%nat => 3/2 | 2%nat => - (3/2) | _ => 0 end.
Definition gen_l : list R := [- (3/2); 3 * sqrt 2 / 2; 3/2; 0; 3/2; - (3 * sqrt 2 / 2); - (3/2); 0].
Definition gen_v : list R := [3/2; 3 * sqrt 2; - (9/2); 3 * sqrt 2 / 2; - (3/2); - (3 * sqrt 2); 9/2; - (3 * sqrt 2 / 2)].
Definition gen_u (k : nat) : R := nth (k mod 8) gen_l 0.

Lemma gen_ok : admissible gen_h /\ (2 * list_max gen_h + 1 < 8)%nat /\ Nat.even 8 = true.
Proof. repeat split; [discriminate|repeat constructor; cbn; intuition discriminate|cbn; intuition discriminate|cbn; lia]. Qed.

Lemma gen_motion t : local_motion 1 one gen_h gen_X 0 t = 3/2 * sin t - 3/2 * cos (3 * t).
Proof. unfold local_motion, series, gen_h, components, dof_coefs, basis, gen_X, one. cbn. rewrite !Rmult_1_l. replace ((1 + 1 + 1) * t) with (3 * t) by ring. field. Qed.

Lemma gen_velocity t : local_velocity 1 one 1 (fun j => dseries gen_h (dof_coefs 1 gen_X j)) 0 t = 3/2 * cos t + 9/2 * sin (3 * t).
Proof. unfold local_velocity, dseries, gen_h, components, dof_coefs, dbasis, comp_dfun, gen_X, one. cbn. rewrite !Rmult_1_l. replace ((1 + 1 + 1) * t) with (3 * t) by ring. field. Qed.

Lemma gen_phases n : (n < 8)%nat -> cos (sample_phase 8 n) = nth n [1; sqrt 2 / 2; 0; - (sqrt 2 / 2); - (1); - (sqrt 2 / 2); 0; sqrt 2 / 2] 0 /\
  sin (sample_phase 8 n) = nth n [0; sqrt 2 / 2; 1; sqrt 2 / 2; 0; - (sqrt 2 / 2); - (1); - (sqrt 2 / 2)] 0 /\
  cos (3 * sample_phase 8 n) = nth n [1; - (sqrt 2 / 2); 0; sqrt 2 / 2; - (1); sqrt 2 / 2; 0; - (sqrt 2 / 2)] 0 /\
  sin (3 * sample_phase 8 n) = nth n [0; sqrt 2 / 2; - (1); sqrt 2 / 2; 0; - (sqrt 2 / 2); 1; - (sqrt 2 / 2)] 0.
Proof.
  assert (M1 : -1 / sqrt 2 = - (sqrt 2 / 2)) by (rewrite <- r2_inv; pose proof r2_bounds; field; lra).
  assert (L : forall n, (n < 4)%nat -> cos (sample_phase 8 n) = nth n [1; sqrt 2 / 2; 0; - (sqrt 2 / 2)] 0 /\ sin (sample_phase 8 n) = nth n [0; sqrt 2 / 2; 1; sqrt 2 / 2] 0 /\
    cos (3 * sample_phase 8 n) = nth n [1; - (sqrt 2 / 2); 0; sqrt 2 / 2] 0 /\ sin (3 * sample_phase 8 n) = nth n [0; sqrt 2 / 2; - (1); sqrt 2 / 2] 0).
  { intros m Hm. destruct m as [|[|[|[|m]]]]; [| | | |lia]; cbn [nth].
    - replace (sample_phase 8 0) with 0 by (unfold sample_phase; simpl; field). rewrite Rmult_0_r, cos_0, sin_0. auto.
    - replace (sample_phase 8 1) with (PI / 4) by (unfold sample_phase; simpl; field). rewrite cos_3PI4, sin_3PI4, cos_PI4, sin_PI4, M1, r2_inv. auto.
    - replace (sample_phase 8 2) with (PI / 2) by (unfold sample_phase; simpl; field). replace (3 * (PI / 2)) with (PI / 2 + PI) by field. rewrite neg_cos, neg_sin, cos_PI2, sin_PI2, Ropp_0. auto.
    - replace (sample_phase 8 3) with (3 * (PI / 4)) by (unfold sample_phase; simpl; field). replace (3 * (3 * (PI / 4))) with (PI / 4 + 2 * PI) by field.
      rewrite (cos_plus (PI / 4)), (sin_plus (PI / 4)), cos_2PI, sin_2PI, cos_3PI4, sin_3PI4, cos_PI4, sin_PI4, M1, r2_inv. repeat split; ring. }
  intros Hn. destruct (le_lt_dec 4 n) as [G|G]; [|destruct n as [|[|[|[|n]]]]; [apply (L 0%nat); lia|apply (L 1%nat); lia|apply (L 2%nat); lia|apply (L 3%nat); lia|lia]].
  replace (sample_phase 8 n) with (sample_phase 8 (n - 4) + PI) by (replace n with (4 + (n - 4))%nat at 2 by lia; rewrite sample_plus; unfold sample_phase at 2; simpl; field).
  replace (3 * (sample_phase 8 (n - 4) + PI)) with (3 * sample_phase 8 (n - 4) + PI + 2 * PI) by ring.
  rewrite (cos_plus (_ + PI)), (sin_plus (_ + PI)), cos_2PI, sin_2PI, !neg_cos, !neg_sin. destruct (L (n - 4)%nat ltac:(lia)) as (-> & -> & -> & ->).
  destruct n as [|[|[|[|[|[|[|[|n]]]]]]]]; try lia; cbn; repeat split; ring.
Qed.

Lemma gen_values n : (n < 8)%nat -> local_motion 1 one gen_h gen_X 0 (sample_phase 8 n) = nth n gen_l 0 /\
  local_velocity 1 one 1 (fun j => dseries gen_h (dof_coefs 1 gen_X j)) 0 (sample_phase 8 n) = nth n gen_v 0.
Proof.
  intros Hn. rewrite gen_motion, gen_velocity. destruct (gen_phases n Hn) as (-> & -> & -> & ->). destruct n as [|[|[|[|[|[|[|[|n]]]]]]]]; try lia; cbn; split; field.
Qed.

Lemma gen_repeat : repeat_samples 8 (fun n => local_motion 1 one gen_h gen_X 0 (sample_phase 8 n)) = gen_u.
Proof. apply functional_extensionality. intros k. apply gen_values. apply Nat.mod_upper_bound. lia. Qed.

Lemma r2_tight : sqrt 2 < 1415/1000.
Proof. pose proof r2. pose proof r2_bounds. nra. Qed.

Ltac genstep := unfold gen_u, gen_l; cbn [Nat.modulo Nat.divmod snd Nat.sub fst nth]; pose proof r2_bounds; unfold Slider.clamp; clamps.

Lemma gen_law : jenkins_law 1 1 gen_u 0 7 = 1 /\ map (fun n => jenkins_law 1 1 gen_u 0 (8 + n)) (seq 0 8) = [- (1/2); 1; 5/2 - 3 * sqrt 2 / 2; - (1); 1/2; - (1); 3 * sqrt 2 / 2 - 5/2; 1].
Proof.
  assert (E0 : jenkins_law 1 1 gen_u 0 0 = - (1)) by (apply law_first; genstep). assert (E1 := law_next 1 1 gen_u 0 0 _ 1 E0 ltac:(genstep)).
  assert (E2 := law_next 1 1 gen_u 0 1 _ (5/2 - 3 * sqrt 2 / 2) E1 ltac:(genstep)). assert (E3 := law_next 1 1 gen_u 0 2 _ (- (1)) E2 ltac:(genstep)).
  assert (E4 := law_next 1 1 gen_u 0 3 _ (1/2) E3 ltac:(genstep)). assert (E5 := law_next 1 1 gen_u 0 4 _ (- (1)) E4 ltac:(genstep)).
  assert (E6 := law_next 1 1 gen_u 0 5 _ (3 * sqrt 2 / 2 - 5/2) E5 ltac:(genstep)). assert (E7 := law_next 1 1 gen_u 0 6 _ 1 E6 ltac:(genstep)).
  assert (E8 := law_next 1 1 gen_u 0 7 _ (- (1/2)) E7 ltac:(genstep)). assert (E9 := law_next 1 1 gen_u 0 8 _ 1 E8 ltac:(genstep)).
  assert (E10 := law_next 1 1 gen_u 0 9 _ (5/2 - 3 * sqrt 2 / 2) E9 ltac:(genstep)). assert (E11 := law_next 1 1 gen_u 0 10 _ (- (1)) E10 ltac:(genstep)).
  assert (E12 := law_next 1 1 gen_u 0 11 _ (1/2) E11 ltac:(genstep)). assert (E13 := law_next 1 1 gen_u 0 12 _ (- (1)) E12 ltac:(genstep)).
  assert (E14 := law_next 1 1 gen_u 0 13 _ (3 * sqrt 2 / 2 - 5/2) E13 ltac:(genstep)). assert (E15 := law_next 1 1 gen_u 0 14 _ 1 E14 ltac:(genstep)).
  split; [exact E7|]. cbn [map seq Nat.add]. rewrite E8, E9, E10, E11, E12, E13, E14, E15. reflexivity.
Qed.

Lemma friction_generates : exists N h Nt Q T s U w v e F P, admissible h /\ (2 * list_max h + 1 < Nt)%nat /\ Nat.even Nt = true /\ acts_on_its_displacements N 1 Q T /\ phase_velocity N h U v /\
  0 < w /\ 0 < j_kt s /\ 0 < j_Fs s /\ steady_evaluation N h Nt (ElJenkins Q T s) U /\
  element_aft N (ElJenkins Q T s) U w h Nt = Ok (e, Some F) /\ mean_power N (harmonic_force N h F) (fun j tau => w * v j tau) P /\ P < 0.
Proof.
  destruct gen_ok as (Ha & HN & He). set (v := fun j => dseries gen_h (dof_coefs 1 gen_X j)). assert (Hv : phase_velocity 1 gen_h gen_X v) by apply velocity_exists.
  assert (HT : acts_on_its_displacements 1 1 one one) by (intros i d _ _; reflexivity). destruct gen_law as [L7 L].
  assert (S0 : local_first_coef 1 one gen_X = 0) by (unfold local_first_coef, gen_X, one; cbn; ring).
  assert (Hs : steady_evaluation 1 gen_h 8 (ElJenkins one one hex_s) gen_X).
  { split; [cbn; lra|]. cbv zeta. rewrite gen_repeat, S0. cbn [j_kt j_Fs hex_s j_new Nat.sub]. rewrite L7, Rabs_R1. pose proof tol_small. lra. }
  destruct (jenkins_work 1 gen_h 8 one one hex_s gen_X 1 v Ha HN He HT Hv Hs) as (e & F & E & P).
  eexists 1%nat, gen_h, 8%nat, one, one, hex_s, gen_X, 1, v, e, F, _. split; [exact Ha|]. split; [exact HN|]. split; [exact He|]. split; [exact HT|]. split; [exact Hv|]. split; [lra|]. split; [cbn; lra|]. split; [cbn; lra|].
  split; [exact Hs|]. split; [exact E|]. split; [exact P|]. rewrite gen_repeat, S0. cbn [j_kt j_Fs hex_s j_new]. cbn [map seq] in L. injection L as M0 M1 M2 M3 M4 M5 M6 M7.
  cbn [rsum]. unfold v. repeat rewrite (fun n Hn => proj2 (gen_values n Hn)) by lia. cbn [Nat.add] in *. rewrite M0, M1, M2, M3, M4, M5, M6, M7. cbn [nth gen_v].
  pose proof r2. pose proof r2_tight. cbn [INR].
  assert (X : 0 + - (1 / 2) * (3 / 2) + 1 * (3 * sqrt 2) + (5 / 2 - 3 * sqrt 2 / 2) * - (9 / 2) + -(1) * (3 * sqrt 2 / 2) + 1 / 2 * - (3 / 2) + -(1) * - (3 * sqrt 2) + (3 * sqrt 2 / 2 - 5 / 2) * (9 / 2) + 1 * - (3 * sqrt 2 / 2) = - 24 + 33 / 2 * sqrt 2) by field.
  rewrite X. lra.
Qed.

(** * Examples *)
(** a Jenkins element and a cubic damper on u = 2 cos(tau), held by the forces that the residual asks for *)
Lemma forced_case : let els := [ElJenkins one one (j_new 1 1); ElInstant (damping_nl 1 1 one one (fun _ => 2))] in
  admissible sym_h1 /\ one_harmonic sym_h1 1 /\ (2 * list_max sym_h1 + 1 < 6)%nat /\ (4 * list_max sym_h1 < 6)%nat /\ Nat.even 6 = true /\ acts_on_its_displacements 1 1 one one /\
  sym_X 2%nat = 1 /\ symmetric_matrix 1 one /\ steady_evaluation 1 sym_h1 6 (ElJenkins one one (j_new 1 1)) (take 2 sym_X) /\
  (exists v, phase_velocity 1 sym_h1 sym_X v) /\ exists Fl l Rr, sys_hbm_res 1 one one one els sym_X Fl sym_h1 6 = (l, Ok (Some Rr)) /\ forall r, (r < length (components sym_h1) * 1)%nat -> Rr r = 0.
Proof.
  intros els. destruct sym_ok as (Ha1 & _ & _ & HN & He). destruct symmetric_case as (_ & _ & _ & _ & _ & _ & _ & _ & SC).
  destruct (SC (ElJenkins one one (j_new 1 1)) ltac:(left; reflexivity)) as (_ & Hs & _).
  split; [exact Ha1|]. split; [split; [lia|split; [left; reflexivity|intros m [<-|[]]; auto]]|]. split; [cbn; lia|]. split; [cbn; lia|]. split; [reflexivity|]. split; [intros i d _ _; reflexivity|]. split; [reflexivity|].
  split; [intros i j _ _; reflexivity|]. split; [exact Hs|]. split; [eexists; apply velocity_exists|].
  assert (HR : forall Fl, exists l G, forall Fl' : vec, Fl' = Fl -> sys_hbm_res 1 one one one els sym_X Fl' sym_h1 6 = (l, Ok (Some (fun i => G i - Fl' i)))).
  { intros Fl. destruct (jenkins_work 1 sym_h1 6 one one (j_new 1 1) (take 2 sym_X) 1 _ Ha1 ltac:(cbn; lia) eq_refl ltac:(intros i d _ _; reflexivity) (velocity_exists 1 sym_h1 (take 2 sym_X)) Hs) as (e1 & F1 & E1 & _).
    destruct (damping_harmonics 1 1 one one sym_h1 6 Ha1 ltac:(cbn; lia) eq_refl (fun _ => 2) ltac:(cbn; lia) (take 2 sym_X) 1 _ (velocity_exists 1 sym_h1 (take 2 sym_X))) as (F2 & dU & dw & E2 & _).
    destruct (stiffness_eom 1 one one one 1 sym_h1 true sym_X Ha1) as (E & dE & _ & _ & HE & _).
    eexists _, (fun i => matvec 2 E sym_X i + vadd (vadd vzero F1) F2 i). intros Fl' ->. unfold sys_hbm_res. change (aft_Nhc sym_h1 * 1)%nat with 2%nat. change (sym_X 2%nat) with 1. rewrite HE. unfold els. cbn [sys_aft]. rewrite E1.
    cbn [element_aft]. rewrite E2. cbn [bind oadd fst]. reflexivity. }
  destruct (HR (fun _ => 0)) as (l & G & H0). destruct (HR G) as (l' & G' & H1).
  assert (EG : forall i, G' i = G i).
  { intros i. pose proof (H0 _ eq_refl) as A. pose proof (H1 _ eq_refl) as B. unfold sys_hbm_res in A, B. destruct (harmonic_stiffness 1 one one one (sym_X (aft_Nhc sym_h1 * 1)%nat) sym_h1 true false) as [[E dE]|x]; [|discriminate].
    destruct (sys_aft 1 els (take (aft_Nhc sym_h1 * 1) sym_X) (sym_X (aft_Nhc sym_h1 * 1)%nat) sym_h1 6 (Some vzero)) as [l2 [[F|]|x]]; cbn [bind] in A, B; try discriminate.
    injection A as _ A. injection B as _ B. pose proof (f_equal (fun f : vec => f i) A) as A'. pose proof (f_equal (fun f : vec => f i) B) as B'. cbv beta in A', B'. lra. }
  exists G, l', (fun i => G' i - G i). split; [exact (H1 G eq_refl)|]. intros r _. rewrite EG. ring.
Qed.

(** the nonlinear mode of an oscillator with cubic spring and cubic damper: u = cos(2 t), mass 1, stiffness 1 and 4, damping 1/10 and 1/10 *)
Definition mode_sys : vibsys := mkSys 1 one one (fun _ _ => 1/10) None [cubic_nl 1 1 one one (fun _ => 4); damping_nl 1 1 one one (fun _ => 1/10)].
Definition mode_X : vec := fun r => match r with O => 1 | 2%nat => 2 | 3%nat => 4/10 | _ => 0 end.
Definition mode_F : vec := fun r => match r with 1%nat => 1 | _ => 0 end.

Lemma sin_cube t : sin t ^ 3 = 3/4 * sin (1 * t) - 1/4 * sin (3 * t).
Proof.
  rewrite Rmult_1_l. replace (3 * t) with (2 * t + t) by ring. rewrite sin_plus, cos_2a_sin, sin_2a. pose proof (sin2_cos2 t) as P. unfold Rsqr in P.
  replace (2 * sin t * cos t * cos t) with (2 * sin t * (cos t * cos t)) by ring. replace (cos t * cos t) with (1 - sin t * sin t) by lra. field.
Qed.

Lemma mode_case : admissible [1%nat] /\ starts_with_1 [1%nat] /\ mode_X 2%nat <> 0 /\ symmetric_matrix 1 one /\ positive_semidefinite 1 one /\ positive_semidefinite 1 (vs_C mode_sys) /\
  exists outs v Rr G, phase_velocity 1 [1%nat] (amplitude_scaled 1 [1%nat] mode_X (mode_X 4%nat)) v /\
    Forall2 (fun f o => nl_aft f (take 2 (amplitude_scaled 1 [1%nat] mode_X (mode_X 4%nat))) (mode_X 2%nat) [1%nat] 6 = Ok o) (vs_forces mode_sys) outs /\
    epmc_res mode_sys mode_X mode_F [1%nat] 6 true = Ok (Rr, Some G) /\ forall i, (i < 4)%nat -> Rr i = 0.
Proof.
  assert (Ha : admissible [1%nat]) by (repeat split; [discriminate|repeat constructor; intros []|intros []]). assert (H1 : starts_with_1 [1%nat]) by (exists []; left; reflexivity).
  split; [exact Ha|]. split; [exact H1|]. split; [cbn; lra|]. split; [intros i j _ _; reflexivity|]. split; [intros x; unfold one; cbn; nra|]. split; [intros x; cbn; nra|].
  assert (EU : amplitude_scaled 1 [1%nat] mode_X (mode_X 4%nat) = mode_X).
  { apply functional_extensionality. intros r. unfold amplitude_scaled. destruct (in_dec Nat.eq_dec O [1%nat]) as [[I|[]]|_]; [discriminate|]. change (mode_X 4%nat) with 0. unfold Rpower. rewrite Rmult_0_l, exp_0. ring. }
  rewrite EU. set (U := mode_X).
  assert (EM : forall t, local_motion 1 one [1%nat] (take 2 U) 0 t = cos t) by (intros t; unfold local_motion, series, dof_coefs, basis, one, take; cbn; rewrite !Rmult_1_l; ring).
  set (v := fun j => dseries [1%nat] (dof_coefs 1 (take 2 U) j)). assert (Hv : phase_velocity 1 [1%nat] (take 2 U) v) by apply velocity_exists.
  assert (EV : forall t, local_velocity 1 one 2 v 0 t = - 2 * sin t) by (intros t; unfold local_velocity, v, dseries, dof_coefs, dbasis, comp_dfun, one, take; cbn; rewrite !Rmult_1_l; ring).
  destruct (cubic_harmonics 1 1 one one [1%nat] 6 Ha ltac:(cbn; lia) eq_refl (fun _ => 4) ltac:(cbn; lia) (take 2 U) 2 v Hv) as (F1 & dU1 & dw1 & E1 & H1').
  destruct (damping_harmonics 1 1 one one [1%nat] 6 Ha ltac:(cbn; lia) eq_refl (fun _ => 1/10) ltac:(cbn; lia) (take 2 U) 2 v Hv) as (F2 & dU2 & dw2 & E2 & H2').
  assert (D13 : NoDup [1%nat; 3%nat]) by (repeat constructor; cbn; intuition discriminate).
  assert (V1 : forall c, (c < 2)%nat -> F1 c = match c with O => 3 | _ => 0 end).
  { intros c Hc. pose proof (H1' c O ltac:(cbn; lia) ltac:(lia)) as P. replace (c * 1 + 0)%nat with c in P by lia. refine (fourier_unique _ _ _ _ P _).
    apply fourier_ext with (series [1%nat; 3%nat] (fun c => match c with O => 3 | 2%nat => 1 | _ => 0 end)).
    - intros tau. cbn [rsum]. rewrite EM, cos_cube. unfold series, basis, one. cbn. replace (1 + 1 + 1) with 3 by ring. field.
    - replace (nth c (components [1%nat]) (Cos 0)) with (nth c (components [1%nat; 3%nat]) (Cos 0)) by (destruct c as [|[|c]]; [reflexivity|reflexivity|lia]).
      replace (match c with O => 3 | _ => 0 end) with ((fun c : nat => match c with O => 3 | 2%nat => 1 | _ => 0 end) c) by (destruct c as [|[|c]]; [reflexivity|reflexivity|lia]). apply series_integral; [exact D13|cbn; lia]. }
  assert (V2 : forall c, (c < 2)%nat -> F2 c = match c with O => 0 | _ => - (6/10) end).
  { intros c Hc. pose proof (H2' c O ltac:(cbn; lia) ltac:(lia)) as P. replace (c * 1 + 0)%nat with c in P by lia. refine (fourier_unique _ _ _ _ P _).
    apply fourier_ext with (series [1%nat; 3%nat] (fun c => match c with 1%nat => - (6/10) | 3%nat => 2/10 | _ => 0 end)).
    - intros tau. cbn [rsum]. rewrite EV. replace ((-2 * sin tau) ^ 3) with (- 8 * sin tau ^ 3) by ring. rewrite sin_cube. unfold series, basis, one. cbn. replace (1 + 1 + 1) with 3 by ring. field.
    - replace (nth c (components [1%nat]) (Cos 0)) with (nth c (components [1%nat; 3%nat]) (Cos 0)) by (destruct c as [|[|c]]; [reflexivity|reflexivity|lia]).
      replace (match c with O => 0 | _ => - (6/10) end) with ((fun c : nat => match c with 1%nat => - (6/10) | 3%nat => 2/10 | _ => 0 end) c) by (destruct c as [|[|c]]; [reflexivity|reflexivity|lia]). apply series_integral; [exact D13|cbn; lia]. }
  set (outs := [(F1, dU1, dw1); (F2, dU2, dw2)]).
  assert (Ho : Forall2 (fun f o => nl_aft f (take 2 U) (mode_X 2%nat) [1%nat] 6 = Ok o) (vs_forces mode_sys) outs) by (constructor; [exact E1|constructor; [exact E2|constructor]]).
  pose proof (epmc_zero mode_sys [1%nat] 6 mode_X mode_F outs Ha H1) as EZ. cbv zeta in EZ. change (length (components [1%nat]) * vs_N mode_sys)%nat with 2%nat in EZ. change (vs_N mode_sys) with 1%nat in EZ. change (mode_X (2 + 2)%nat) with (mode_X 4%nat) in EZ. rewrite EU in EZ.
  destruct (EZ ltac:(cbn; lra) Ho) as (Rr & G & HR & HZ).
  exists outs, (fun j => dseries [1%nat] (dof_coefs 1 U j)), Rr, G. split; [apply velocity_exists|]. split; [exact Ho|]. split; [exact HR|]. apply (proj2 HZ). clear HZ HR.
  change (mode_X (2 + 1)%nat) with (4/10). change (mode_X 2%nat) with 2. fold U. split; [|split].
  - assert (EMt : forall t, motion 1 [1%nat] U 2 0 t = cos (2 * t)) by (intros t; unfold motion, series, dof_coefs, basis; cbn; rewrite !Rmult_1_l; ring).
    exists (fun _ t => - (2 * sin (2 * t))), (fun _ t => - 2 * (2 * cos (2 * t))). split; [|split].
    + intros j t Hj. assert (j = O) by lia. subst. apply dlim_ext with (fun t => cos (2 * t)); [intros; symmetry; apply EMt|]. apply dlim_cos_lin.
    + intros j t _. apply dlim_ext with (fun t => - 2 * sin (2 * t)); [intros; ring|]. apply dlim_scal. apply dlim_sin_lin.
    + intros i t Hi. assert (i = O) by lia. subst. cbn [rsum vs_M vs_C vs_K mode_sys]. rewrite EMt. unfold total_motion, lsum, outs, motion, series, dof_coefs, basis, static_part, one. cbn. rewrite !V1, !V2 by lia. rewrite !Rmult_1_l. lra.
  - rewrite <- (modal_mass_eq 1 [1%nat] _ mode_X Ha H1). unfold dot, matvec, one. cbn. unfold one. ring.
  - unfold dynamic_dot. cbn. ring.
Qed.
