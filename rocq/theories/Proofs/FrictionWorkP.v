(** Work of friction elements on harmonic motions. *)
From Coq Require Import Reals ZArith Lra Lia Arith List FunctionalExtensionality.
From Verif.Lib Require Import RSum Py Calc.
From Verif.Spec Require Import Calculus Harmonic Elements Slider System Galerkin Rotation Energy.
From Verif.Model Require Import Harmonic LocalForces Aft VibSys SysElements Jenkins Iwan JaxFriction SysHistory SysHarmonic.
From Verif.Proofs Require Import HystAftP IwanAftP HarmonicP FourierP HarmonicOpsP AftP SliderP SliderShiftP TrigPolyP GalerkinP RotationP RotationCaseP SymmetryP SymmetryCaseP EnergyP.
Import ListNotations.
Open Scope R_scope.

(** power of the forces with the Fourier coefficients of samples x *)
Lemma sampled_power N Q T h Nt U w v (x : nat -> R) (F : vec) : admissible h -> (0 < Nt)%nat -> acts_on_its_displacements N 1 Q T -> phase_velocity N h U v ->
  (forall c i, (c < length (components h))%nat -> (i < N)%nat -> F (c * N + i)%nat = T i O * fourier_coef Nt x (nth c (components h) (Cos O))) ->
  mean_power N (harmonic_force N h F) (fun j tau => w * v j tau) (rsum Nt (fun n => x n * local_velocity N Q w v O (sample_phase Nt n)) / INR Nt).
Proof.
  intros Ha HN HT Hv HF. destruct (velocity_series N h U v Ha Hv) as (V & HV).
  set (A := fun c => fourier_coef Nt x (nth c (components h) (Cos O))). set (B := fun c => w * rsum N (fun j => Q O j * V (c * N + j)%nat)).
  assert (EL : forall t, local_velocity N Q w v O t = series h B t).
  { intros t. unfold local_velocity, series, B. rewrite (rsum_ext N _ (fun j => rsum (length (components h)) (fun c => Q O j * (V (c * N + j)%nat * basis h c t)))).
    - rewrite rsum_swap, <- rsum_scal_l. apply rsum_ext. intros c Hc. rewrite (Rmult_assoc w). f_equal. rewrite <- rsum_scal_r. apply rsum_ext. intros; ring.
    - intros j Hj. rewrite HV by exact Hj. unfold series, dof_coefs. rewrite <- rsum_scal_l. reflexivity. }
  pose proof (product_mean h A B (proj1 (proj2 Ha))) as P. unfold mean_power. replace (rsum Nt (fun n => x n * local_velocity N Q w v O (sample_phase Nt n)) / INR Nt)
    with (rsum (length (components h)) (fun c => B c * (A c / weight (nth c (components h) (Cos O))))).
  - eapply integral_ext; [|exact P]. intros t. cbv beta. rewrite <- EL. pose proof (local_work N 1 Q T (fun _ => series h A t) w v t HT) as L. cbn [rsum] in L. rewrite Rplus_0_l in L. rewrite <- L. apply rsum_ext. intros i Hi. f_equal.
    rewrite Rplus_0_l. unfold harmonic_force, series. rewrite <- rsum_scal_l. apply rsum_ext. intros c Hc. unfold dof_coefs. rewrite HF by assumption. unfold A. ring.
  - assert (INR Nt <> 0) by (apply not_0_INR; lia). apply Rmult_eq_reg_r with (INR Nt); [|assumption]. unfold Rdiv at 2. rewrite (Rmult_assoc (rsum Nt _)), Rinv_l, Rmult_1_r by assumption.
    rewrite <- rsum_scal_r. rewrite (rsum_ext Nt _ (fun n => rsum (length (components h)) (fun c => x n * (B c * basis h c (sample_phase Nt n))))) by (intros; rewrite EL; unfold series; rewrite <- rsum_scal_l; reflexivity).
    rewrite rsum_swap. apply rsum_ext. intros c Hc. unfold A, fourier_coef. change (match nth c (components h) (Cos 0) with Cos O => 1 | _ => 2 end) with (weight (nth c (components h) (Cos O))).
    pose proof (weight_pos (nth c (components h) (Cos O))). transitivity (B c * rsum Nt (fun n => x n * comp_fun (nth c (components h) (Cos 0)) (sample_phase Nt n))); [field; split; lra|].
    rewrite <- rsum_scal_l. apply rsum_ext. intros n _. unfold basis. ring.
Qed.

(** one step of a slider, with the mean of the forces before and after *)
Lemma step_work kt Fs f d : - Fs <= f <= Fs -> let f' := Slider.clamp (- Fs) Fs (f + kt * d) in f' ^ 2 - f ^ 2 <= (f + f') * (kt * d).
Proof.
  intros Hf f'. assert (Hc : (f' = f + kt * d) \/ (f' = Fs /\ Fs < f + kt * d) \/ (f' = - Fs /\ f + kt * d < - Fs)) by (unfold f'; minmax). destruct Hc as [E|[[E H]|[E H]]]; rewrite E; nra.
Qed.

Lemma trapezoid_work kt Fs (u : nat -> R) u0 n m : 0 <= Fs -> let f := jenkins_law kt Fs u u0 in
  f (n + m)%nat ^ 2 - f n ^ 2 <= kt * rsum m (fun k => (f (n + k)%nat + f (n + S k)%nat) * (u (n + S k)%nat - u (n + k)%nat)).
Proof.
  intros HF f. induction m as [|m IH].
  - rewrite Nat.add_0_r. cbn [rsum]. lra.
  - rewrite rsum_S. replace (n + S m)%nat with (S (n + m)) in * by lia.
    assert (R0 : - Fs <= f (n + m)%nat <= Fs) by (unfold f, jenkins_law; apply (slider_range kt (fun _ => - Fs) (fun _ => Fs) u); intros; lra).
    pose proof (step_work kt Fs (f (n + m)%nat) (u (S (n + m)) - u (n + m)%nat) R0) as E. cbv zeta in E.
    change (Slider.clamp (- Fs) Fs (f (n + m)%nat + kt * (u (S (n + m)) - u (n + m)%nat))) with (f (S (n + m))) in E. nra.
Qed.

(** central differences *)
Lemma central_sum Nt (g u : nat -> R) : (0 < Nt)%nat -> periodic Nt g -> periodic Nt u ->
  rsum Nt (fun n => g n * (u (S n) - u (n + (Nt - 1))%nat)) = rsum Nt (fun n => (g n + g (S n)) * (u (S n) - u n)).
Proof.
  intros HN Pg Pu.
  assert (T : forall x : nat -> R, periodic Nt x -> rsum Nt (fun n => x (S n)) = rsum Nt x) by (intros x Px; exact (rsum_turn Nt x Px 1)).
  assert (A : rsum Nt (fun n => g n * u (n + (Nt - 1))%nat) = rsum Nt (fun n => g (S n) * u n)).
  { rewrite <- (T (fun n => g n * u (n + (Nt - 1))%nat)).
    - apply rsum_ext. intros n _. f_equal. replace (S n + (Nt - 1))%nat with (Nt + n)%nat by lia. apply Pu.
    - intros n. rewrite Pg. f_equal. replace (Nt + n + (Nt - 1))%nat with (Nt + (n + (Nt - 1)))%nat by lia. apply Pu. }
  assert (B : rsum Nt (fun n => g (S n) * u (S n)) = rsum Nt (fun n => g n * u n)) by (apply (T (fun n => g n * u n)); intros n; rewrite Pg, Pu; reflexivity).
  transitivity (rsum Nt (fun n => g n * u (S n)) - rsum Nt (fun n => g n * u (n + (Nt - 1))%nat)); [rewrite <- rsum_minus; apply rsum_ext; intros; ring|].
  rewrite A. transitivity (rsum Nt (fun n => g n * u (S n)) - rsum Nt (fun n => g (S n) * u n) + (rsum Nt (fun n => g (S n) * u (S n)) - rsum Nt (fun n => g n * u n))); [rewrite B; ring|].
  rewrite <- !rsum_minus, <- rsum_plus. apply rsum_ext. intros; ring.
Qed.

Lemma comp_central c k t d : harm c = O \/ harm c = k -> (0 < k)%nat -> comp_fun c (t + d) - comp_fun c (t - d) = 2 * sin (INR k * d) / INR k * comp_dfun c t.
Proof.
  intros Hc Hk. assert (INR k <> 0) by (apply not_0_INR; lia).
  destruct c as [m|m]; cbn [harm comp_fun comp_dfun] in *; (destruct Hc as [-> | ->]; [cbn [INR]; rewrite !Rmult_0_l, ?sin_0; field; assumption|]);
    rewrite !Rmult_plus_distr_l, (Rmult_minus_distr_l (INR k)), ?cos_plus, ?cos_minus, ?sin_plus, ?sin_minus; field; assumption.
Qed.

Section OneHarmonic.
  Variables (N : nat) (h : list nat) (Nt k : nat) (Q : mat) (U : vec) (v : nat -> R -> R).
  Hypothesis Ha : admissible h.
  Hypothesis HN : (2 * list_max h + 1 < Nt)%nat.
  Hypothesis Hh : one_harmonic h k.
  Hypothesis Hv : phase_velocity N h U v.
  Let u := at_samples N h Nt U Q 0.

  Lemma harmonic_below : (2 * k < Nt)%nat.
  Proof. destruct Hh as (_ & I & _). pose proof (proj1 (list_max_le h (list_max h)) (le_n _)) as M. rewrite Forall_forall in M. specialize (M k I). lia. Qed.

  Lemma sine_pos : 0 < sin (INR k * sample_phase Nt 1).
  Proof.
    pose proof harmonic_below as B. destruct Hh as (K & _ & _). pose proof PI_RGT_0. assert (N0 : 0 < INR Nt) by (apply lt_0_INR; lia). apply sin_gt_0.
    - apply Rmult_lt_0_compat; [apply lt_0_INR; exact K|]. unfold sample_phase. cbn [INR]. unfold Rdiv. apply Rmult_lt_0_compat; [lra|apply Rinv_0_lt_compat; exact N0].
    - unfold sample_phase. cbn [INR]. apply Rmult_lt_reg_r with (INR Nt); [exact N0|]. replace (INR k * (2 * PI * 1 / INR Nt) * INR Nt) with (PI * (2 * INR k)) by (field; lra). apply Rmult_lt_compat_l; [assumption|].
      change 2 with (INR 2). rewrite <- mult_INR. apply lt_INR. exact B.
  Qed.

  Lemma velocity_central (w : R) n : local_velocity N Q w v 0 (sample_phase Nt n) = w * INR k / (2 * sin (INR k * sample_phase Nt 1)) * (u (S n) - u (n + (Nt - 1))%nat).
  Proof.
    pose proof sine_pos as SP. destruct Hh as (K & I & Hm). assert (INR k <> 0) by (apply not_0_INR; lia).
    assert (E : forall X, series h X (sample_phase Nt (S n)) - series h X (sample_phase Nt (n + (Nt - 1))) = 2 * sin (INR k * sample_phase Nt 1) / INR k * dseries h X (sample_phase Nt n)).
    { intros X. replace (sample_phase Nt (S n)) with (sample_phase Nt n + sample_phase Nt 1) by (rewrite <- sample_plus; f_equal; lia).
      rewrite <- (series_period h X (sample_phase Nt (n + (Nt - 1))) (-1)). replace (sample_phase Nt (n + (Nt - 1)) + 2 * PI * IZR (-1)) with (sample_phase Nt n - sample_phase Nt 1).
      - unfold series, dseries. rewrite <- rsum_minus, <- rsum_scal_l. apply rsum_ext. intros c Hc. unfold basis, dbasis. rewrite <- Rmult_minus_distr_l.
        pose proof (in_components h _ (nth_In (components h) (Cos O) Hc)) as [J _]. rewrite (comp_central _ k _ _ (Hm _ J) K). ring.
      - pose proof (sample_all Nt ltac:(lia)) as P. replace Nt with (Nt - 1 + 1)%nat in P at 2 by lia. rewrite !sample_plus in *. lra. }
    unfold u, at_samples, local_motion, local_velocity. rewrite <- rsum_minus. rewrite (rsum_ext N (fun i => _ - _) (fun j => 2 * sin (INR k * sample_phase Nt 1) / INR k * (Q O j * v j (sample_phase Nt n)))).
    - rewrite rsum_scal_l. field. split; lra.
    - intros j Hj. rewrite <- Rmult_minus_distr_l, E, (velocity_dseries N h U v Hv j _ Hj). ring.
  Qed.

  (** a slider takes energy *)
  Lemma slider_work kt Fs u0 w : 0 < kt -> 0 <= Fs -> 0 <= w -> 0 <= rsum Nt (fun n => jenkins_law kt Fs u u0 (Nt + n) * local_velocity N Q w v 0 (sample_phase Nt n)).
  Proof.
    intros Hk HF Hw. set (g := fun n => jenkins_law kt Fs u u0 (Nt + n)).
    assert (Pu : periodic Nt u) by (apply at_samples_period; exact HN). assert (Pg : periodic Nt g) by (intros n; apply jenkins_period; assumption).
    rewrite (rsum_ext Nt _ (fun n => w * INR k / (2 * sin (INR k * sample_phase Nt 1)) * (g n * (u (S n) - u (n + (Nt - 1))%nat)))) by (intros n _; rewrite velocity_central; unfold g; ring).
    rewrite rsum_scal_l. rewrite (central_sum Nt g u ltac:(lia) Pg Pu). pose proof sine_pos as SP. apply Rmult_le_pos.
    - unfold Rdiv. apply Rmult_le_pos; [apply Rmult_le_pos; [exact Hw|apply pos_INR]|]. left. apply Rinv_0_lt_compat. lra.
    - pose proof (trapezoid_work kt Fs u u0 Nt Nt HF) as W. cbv zeta in W.
      assert (E : jenkins_law kt Fs u u0 (Nt + Nt) = jenkins_law kt Fs u u0 Nt) by (pose proof (Pg O) as P; unfold g in P; rewrite !Nat.add_0_r in P; exact P).
      rewrite E in W. assert (W0 : 0 <= kt * rsum Nt (fun n => (g n + g (S n)) * (u (S n) - u n))).
      { eapply Rle_trans; [|eapply Rle_trans; [exact W|]]; [lra|]. right. f_equal. apply rsum_ext. intros n _. unfold g. f_equal. rewrite (Pu (S n)), (Pu n). reflexivity. }
      apply Rmult_le_reg_l with kt; [exact Hk|]. rewrite Rmult_0_r. exact W0.
  Qed.
End OneHarmonic.

Lemma jenkins_work N h Nt Q T s U w v : admissible h -> (2 * list_max h + 1 < Nt)%nat -> Nat.even Nt = true -> acts_on_its_displacements N 1 Q T -> phase_velocity N h U v ->
  steady_evaluation N h Nt (ElJenkins Q T s) U ->
  exists e F, element_aft N (ElJenkins Q T s) U w h Nt = Ok (e, Some F) /\
    mean_power N (harmonic_force N h F) (fun j tau => w * v j tau)
      (rsum Nt (fun n => jenkins_law (j_kt s) (j_Fs s) (repeat_samples Nt (fun n => local_motion N Q h U 0 (sample_phase Nt n))) (local_first_coef N Q U) (Nt + n) * local_velocity N Q w v 0 (sample_phase Nt n)) / INR Nt).
Proof.
  intros Ha HN He HT Hv [HF HU]. cbv zeta in HU. destruct (jenkins_aft_exact s N Q T h Nt Ha HN He HF) as (st & F & dU & E & HA & _).
  exists (ElJenkins Q T (st U)), (F U). cbn [element_aft]. rewrite E. cbn [bind fst]. split; [reflexivity|]. apply (sampled_power N Q T h Nt U w v); try assumption; [lia|]. exact (HA U HU).
Qed.

Lemma iwan_work N h Nt Q T s U w v : admissible h -> (2 * list_max h + 1 < Nt)%nat -> Nat.even Nt = true -> acts_on_its_displacements N 1 Q T -> phase_velocity N h U v ->
  steady_evaluation N h Nt (ElIwan Q T s) U ->
  exists e F, element_aft N (ElIwan Q T s) U w h Nt = Ok (e, Some F) /\
    mean_power N (harmonic_force N h F) (fun j tau => w * v j tau)
      (rsum Nt (fun n => bank_law (iw_n s) (iw_w s) (iw_phi s) (repeat_samples Nt (fun n => local_motion N Q h U 0 (sample_phase Nt n))) (local_first_coef N Q U) (Nt + n) * local_velocity N Q w v 0 (sample_phase Nt n)) / INR Nt).
Proof.
  intros Ha HN He HT Hv [HF HU]. cbv zeta in HU. destruct (iwan_aft_exact s N Q T h Nt Ha HN He HF) as (st & F & dU & E & HA & _).
  exists (ElIwan Q T (st U)), (F U). cbn [element_aft]. rewrite E. cbn [bind fst]. split; [reflexivity|]. apply (sampled_power N Q T h Nt U w v); try assumption; [lia|]. exact (HA U HU).
Qed.

Lemma friction_dissipates N h Nt k U w v e : admissible h -> (2 * list_max h + 1 < Nt)%nat -> Nat.even Nt = true -> one_harmonic h k -> phase_velocity N h U v -> 0 <= w ->
  steady_evaluation N h Nt e U ->
  (exists Q T s, e = ElJenkins Q T s /\ acts_on_its_displacements N 1 Q T /\ 0 < j_kt s) \/
  (exists Q T s, e = ElIwan Q T s /\ acts_on_its_displacements N 1 Q T /\ forall i, (i < iw_n s)%nat -> 0 <= iw_w s i) ->
  exists e' F P, element_aft N e U w h Nt = Ok (e', Some F) /\ mean_power N (harmonic_force N h F) (fun j tau => w * v j tau) P /\ 0 <= P.
Proof.
  intros Ha HN He Hh Hv Hw Hs Hc. assert (N0 : 0 < / INR Nt) by (apply Rinv_0_lt_compat, lt_0_INR; lia). destruct Hc as [(Q & T & s & -> & HT & Hk)|(Q & T & s & -> & HT & Hk)].
  - destruct (jenkins_work N h Nt Q T s U w v Ha HN He HT Hv Hs) as (e' & F & E & P). eexists e', F, _. split; [exact E|]. split; [exact P|]. rewrite (repeat_U N h Nt HN).
    unfold Rdiv. apply Rmult_le_pos; [|lra]. apply (slider_work N h Nt k Q U v HN Hh Hv); [exact Hk|apply Hs|exact Hw].
  - destruct (iwan_work N h Nt Q T s U w v Ha HN He HT Hv Hs) as (e' & F & E & P). eexists e', F, _. split; [exact E|]. split; [exact P|]. rewrite (repeat_U N h Nt HN).
    unfold Rdiv. apply Rmult_le_pos; [|lra]. unfold bank_law.
    rewrite (rsum_ext Nt _ (fun n => rsum (iw_n s) (fun i => iw_w s i * (jenkins_law 1 (iw_phi s i) (at_samples N h Nt U Q 0) (local_first_coef N Q U) (Nt + n) * local_velocity N Q w v 0 (sample_phase Nt n))))) by (intros n _; rewrite <- rsum_scal_r; apply rsum_ext; intros; ring).
    rewrite rsum_swap. apply rsum_nonneg. intros i Hi. rewrite rsum_scal_l. apply Rmult_le_pos; [apply Hk; exact Hi|]. apply (slider_work N h Nt k Q U v HN Hh Hv); [lra|apply Hs; exact Hi|exact Hw].
Qed.
