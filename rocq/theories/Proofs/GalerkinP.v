(** Harmonic forces of polynomial elements as Fourier integrals. *)
From Coq Require Import Reals Lra Lia Arith List FunctionalExtensionality.
From Verif.Lib Require Import RSum Calc Py.
From Verif.Spec Require Import Calculus Harmonic Elements System Galerkin.
From Verif.Model Require Import Harmonic LocalForces Aft VibSys SysElements.
From Verif.Proofs Require Import HarmonicP FourierP HarmonicOpsP AftP VibSysP ElementsP TrigPolyP.
Import ListNotations.
Open Scope R_scope.

Lemma trig_local N Q h U d : trig (list_max h) (local_motion N Q h U d).
Proof.
  apply (trig_rsum (list_max h) N (fun j tau => Q d j * series h (dof_coefs N U j) tau)). intros j Hj. apply trig_scal, trig_series.
Qed.

Lemma trig_phase N h U v : phase_velocity N h U v -> forall j, (j < N)%nat -> trig (list_max h) (v j).
Proof. intros H j Hj. apply (trig_velocity (list_max h) (series h (dof_coefs N U j))); [apply trig_series|intros t; apply H; exact Hj]. Qed.

Lemma trig_local_velocity N Q h U w v d : phase_velocity N h U v -> trig (list_max h) (local_velocity N Q w v d).
Proof.
  intros H. apply (trig_scal (list_max h) w (fun tau => rsum N (fun j => Q d j * v j tau))). apply (trig_rsum (list_max h) N (fun j tau => Q d j * v j tau)).
  intros j Hj. apply trig_scal. apply (trig_phase N h U v H); exact Hj.
Qed.

Lemma local_phase N Q h U v d tau : phase_velocity N h U v -> derivable_pt_lim (local_motion N Q h U d) tau (rsum N (fun j => Q d j * v j tau)).
Proof.
  intros H. apply (dlim_rsum N (fun j t => Q d j * series h (dof_coefs N U j) t) tau (fun j => Q d j * v j tau)). intros j Hj. apply dlim_scal, H. exact Hj.
Qed.

(** an evaluation whose forces are trigonometric polynomials of degree at most D *)
Lemma exact_from_samples aft N nnl Q T f h Nt reg D : aft_is_exact aft N nnl Q T f h Nt reg -> (D + list_max h < Nt)%nat ->
  (forall U w v d, phase_velocity N h U v -> trig D (fun tau => f d (local_motion N Q h U d tau) (local_velocity N Q w v d tau))) ->
  forall U w v, phase_velocity N h U v -> exists F dU dw, aft U w = Ok (F, dU, dw) /\
    forall c i, (c < length (components h))%nat -> (i < N)%nat ->
      fourier_integral (fun tau => rsum nnl (fun d => T i d * f d (local_motion N Q h U d tau) (local_velocity N Q w v d tau))) (nth c (components h) (Cos O)) (F (c * N + i)%nat).
Proof.
  intros (F & dU & dw & H1 & H2 & _) HD Hf U w v Hv. exists (F U w), (dU U w), (dw U w). split; [apply H1|].
  intros c i Hc Hi. rewrite (H2 U w (fun d tau => rsum N (fun j => Q d j * v j tau))) by (try assumption; intros; apply local_phase; exact Hv).
  apply (coef_exact D (fun tau => rsum nnl (fun d => T i d * f d (local_motion N Q h U d tau) (local_velocity N Q w v d tau)))).
  - apply (trig_rsum D nnl (fun d tau => T i d * f d (local_motion N Q h U d tau) (local_velocity N Q w v d tau))). intros d Hd. apply trig_scal. apply (Hf U w v d Hv).
  - pose proof (harm_max h _ (nth_In (components h) (Cos O) Hc)). lia.
Qed.

Lemma trig_monomial N Q h U e : forall n, trig (fold_right Nat.add O (map e (seq 0 n)) * list_max h) (fun tau => monomial n e (fun d => local_motion N Q h U d tau)).
Proof.
  intros n. unfold monomial. generalize (seq 0 n). intros l. induction l as [|j l IH]; cbn [map fold_right].
  - apply trig_const.
  - rewrite Nat.mul_add_distr_r. apply (trig_mult (e j * list_max h) _ (fun tau => local_motion N Q h U j tau ^ e j)); [|exact IH].
    apply (trig_pow (list_max h) (local_motion N Q h U j) (e j)). apply trig_local.
Qed.

Section Elements.
  Variables (N nnl : nat) (Q T : mat) (h : list nat) (Nt : nat).
  Hypothesis Ha : admissible h.
  Hypothesis HN : (2 * list_max h + 1 < Nt)%nat.
  Hypothesis He : Nat.even Nt = true.

  Lemma cubic_harmonics k : (4 * list_max h < Nt)%nat ->
    exact_harmonics N h Nt (cubic_nl N nnl Q T k) (fun U w v i tau => rsum nnl (fun d => T i d * (k d * local_motion N Q h U d tau ^ 3))).
  Proof.
    intros H4. intros U w v Hv.
    refine (exact_from_samples (fun U w => aft_instantaneous N nnl Q T (cubic_history k) U w h Nt) N nnl Q T (fun d u _ => k d * u ^ 3) h Nt _ (3 * list_max h) (aft_cubic N nnl Q T h Nt Ha HN He k) ltac:(lia) _ U w v Hv).
    intros U' w' v' d _. apply trig_scal. apply (trig_pow (list_max h) (local_motion N Q h U' d) 3). apply trig_local.
  Qed.

  Lemma quintic_harmonics k : (6 * list_max h < Nt)%nat ->
    exact_harmonics N h Nt (quintic_nl N nnl Q T k) (fun U w v i tau => rsum nnl (fun d => T i d * (k d * local_motion N Q h U d tau ^ 5))).
  Proof.
    intros H4. intros U w v Hv.
    refine (exact_from_samples (fun U w => aft_instantaneous N nnl Q T (quintic_history k) U w h Nt) N nnl Q T (fun d u _ => k d * u ^ 5) h Nt _ (5 * list_max h) (aft_quintic N nnl Q T h Nt Ha HN He k) ltac:(lia) _ U w v Hv).
    intros U' w' v' d _. apply trig_scal. apply (trig_pow (list_max h) (local_motion N Q h U' d) 5). apply trig_local.
  Qed.

  Lemma damping_harmonics c : (4 * list_max h < Nt)%nat ->
    exact_harmonics N h Nt (damping_nl N nnl Q T c) (fun U w v i tau => rsum nnl (fun d => T i d * (c d * local_velocity N Q w v d tau ^ 3))).
  Proof.
    intros H4. intros U w v Hv.
    refine (exact_from_samples (fun U w => aft_instantaneous N nnl Q T (damping_history c) U w h Nt) N nnl Q T (fun d _ v => c d * v ^ 3) h Nt _ (3 * list_max h) (aft_damping N nnl Q T h Nt Ha HN He c) ltac:(lia) _ U w v Hv).
    intros U' w' v' d Hv'. apply trig_scal. apply (trig_pow (list_max h) (local_velocity N Q w' v' d) 3). apply (trig_local_velocity N Q h U'). exact Hv'.
  Qed.

  Lemma poly_harmonics cnl E qq p : (forall m, (m < cnl)%nat -> (fold_right Nat.add O (map (qq m) (seq 0 nnl)) <= p)%nat) -> ((p + 1) * list_max h < Nt)%nat ->
    exact_harmonics N h Nt (poly_nl N nnl cnl Q T E qq) (fun U w v i tau => rsum nnl (fun d => T i d * rsum cnl (fun m => E d m * monomial nnl (qq m) (fun e => local_motion N Q h U e tau)))).
  Proof.
    intros Hp Hs U w v Hv. destruct (aft_poly N nnl Q T h Nt Ha HN He cnl E qq) as (F & dU & H1 & H2 & _).
    exists (F U), (dU U), (fun _ => 0). split; [apply H1|]. intros c i Hc Hi. rewrite H2 by assumption.
    apply (coef_exact (p * list_max h) (fun tau => rsum nnl (fun d => T i d * rsum cnl (fun m => E d m * monomial nnl (qq m) (fun e => local_motion N Q h U e tau))))).
    - apply (trig_rsum (p * list_max h) nnl (fun d tau => T i d * rsum cnl (fun m => E d m * monomial nnl (qq m) (fun e => local_motion N Q h U e tau)))). intros d Hd. apply trig_scal.
      apply (trig_rsum (p * list_max h) cnl (fun m tau => E d m * monomial nnl (qq m) (fun e => local_motion N Q h U e tau))). intros m Hm. apply trig_scal.
      eapply trig_mono; [|apply trig_monomial]. apply Nat.mul_le_mono_r. apply Hp. exact Hm.
    - pose proof (harm_max h _ (nth_In (components h) (Cos O) Hc)). lia.
  Qed.
End Elements.

(** the residual of a system *)
Lemma take_velocity N h X v : phase_velocity N h X v -> phase_velocity N h (take (length (components h) * N) X) v.
Proof.
  intros H j tau Hj. apply dlim_ext with (series h (dof_coefs N X j)); [|apply H; exact Hj]. intros t. apply rsum_ext. intros c Hc. unfold dof_coefs. rewrite take_lt by nia. reflexivity.
Qed.

Lemma forces_harmonics N h Nt fs phis U w v : phase_velocity N h U v -> Forall2 (exact_harmonics N h Nt) fs phis ->
  exists outs, Forall2 (fun f o => nl_aft f U w h Nt = Ok o) fs outs /\
    forall c i, (c < length (components h))%nat -> (i < N)%nat ->
      fourier_integral (fun tau => lsum (fun phi => phi U w v i tau) phis) (nth c (components h) (Cos O)) (lsum (fun o => fst (fst o) (c * N + i)%nat) outs).
Proof.
  intros Hv H. induction H as [|f phi fs phis Hf H (outs & IH1 & IH2)].
  - exists []. split; [constructor|]. intros c i Hc Hi. apply fourier_zero.
  - destruct (Hf U w v Hv) as (F & dU & dw & E & HF). exists ((F, dU, dw) :: outs). split; [constructor; assumption|]. intros c i Hc Hi.
    apply (fourier_plus (phi U w v i) (fun tau => lsum (fun phi => phi U w v i tau) phis)); [apply HF; assumption|apply IH2; assumption].
Qed.

Lemma hbm_integral s h Nt X Fl phis v a : admissible h ->
  let n := (length (components h) * vs_N s)%nat in
  X n <> 0 -> Forall2 (exact_harmonics (vs_N s) h Nt) (vs_forces s) phis ->
  phase_velocity (vs_N s) h X v -> (forall j tau, (j < vs_N s)%nat -> derivable_pt_lim (v j) tau (a j tau)) ->
  exists Rr G, hbm_res s X Fl h Nt true = Ok (Rr, Some G) /\
    forall c i, (c < length (components h))%nat -> (i < vs_N s)%nat ->
      fourier_integral (motion_residual (vs_N s) h (vs_M s) (vs_C s) (vs_K s) X Fl (X n) v a (fun i tau => lsum (fun phi => phi (take n X) (X n) v i tau) phis) i)
        (nth c (components h) (Cos O)) (Rr (c * vs_N s + i)%nat).
Proof.
  intros Ha n Hw Hf Hv Hacc. set (N := vs_N s) in *. set (w := X n) in *.
  destruct (forces_harmonics N h Nt (vs_forces s) phis (take n X) w v (take_velocity N h X v Hv) Hf) as (outs & H1 & H2).
  destruct (hbm_value s h Nt X Fl outs Ha H1) as (E & dE & Rr & G & HE & HR & HV). fold N n w in HE, HR, HV.
  exists Rr, G. split; [exact HR|]. intros c i Hc Hi.
  destruct (stiffness_eom N (vs_M s) (vs_C s) (vs_K s) w h true X Ha) as (E' & dE' & v' & a' & HE' & Hv' & Ha' & Heom).
  rewrite HE in HE'. injection HE' as <- <-. fold n in Heom.
  assert (Ev : forall j t, (j < N)%nat -> v' j t = w * v j (w * t)).
  { intros j t Hj. apply (uniqueness_limite (motion N h X w j) t _ _ (Hv' j t)).
    apply dlim_eq with (v j (w * t) * (w * 1)); [|ring].
    apply (dlim_comp (fun t => w * t) (series h (dof_coefs N X j)) t (w * 1) (v j (w * t))); [apply dlim_scal, dlim_id|apply Hv; exact Hj]. }
  assert (Ea : forall j t, (j < N)%nat -> a' j t = w ^ 2 * a j (w * t)).
  { intros j t Hj. apply (uniqueness_limite (v' j) t _ _ (Ha' j t)). apply dlim_ext with (fun t => w * v j (w * t)); [intros x; symmetry; apply Ev; exact Hj|].
    apply dlim_eq with (w * (a j (w * t) * (w * 1))); [|ring]. apply dlim_scal.
    apply (dlim_comp (fun t => w * t) (v j) t (w * 1) (a j (w * t))); [apply dlim_scal, dlim_id|apply Hacc; exact Hj]. }
  rewrite HV.
  apply fourier_ext with (fun tau => series h (dof_coefs N (matvec n E X) i) tau + lsum (fun phi => phi (take n X) w v i tau) phis + (-1) * series h (dof_coefs N Fl i) tau).
  { intros tau. unfold motion_residual.
    assert (M1 : series h (dof_coefs N (matvec n E X) i) tau = rsum N (fun j => vs_M s i j * (w ^ 2 * a j tau) + vs_C s i j * (w * v j tau) + vs_K s i j * series h (dof_coefs N X j) tau)).
    { pose proof (Heom i (tau / w) Hi) as P. unfold motion in P. replace (w * (tau / w)) with tau in P by (field; exact Hw). rewrite P. apply rsum_ext. intros j Hj.
      rewrite Ev, Ea by exact Hj. replace (w * (tau / w)) with tau by (field; exact Hw). reflexivity. }
    rewrite M1. ring. }
  replace (matvec n E X (c * N + i)%nat + lsum (fun o => fst (fst o) (c * N + i)%nat) outs - Fl (c * N + i)%nat)
    with (matvec n E X (c * N + i)%nat + lsum (fun o => fst (fst o) (c * N + i)%nat) outs + (-1) * Fl (c * N + i)%nat) by ring.
  destruct Ha as [_ [Hd _]].
  apply (fourier_plus (fun tau => series h (dof_coefs N (matvec n E X) i) tau + lsum (fun phi => phi (take n X) w v i tau) phis)).
  - apply fourier_plus.
    + apply (series_integral h (dof_coefs N (matvec n E X) i) c Hd Hc).
    + apply H2; assumption.
  - apply fourier_scal. apply (series_integral h (dof_coefs N Fl i) c Hd Hc).
Qed.

Lemma velocity_exists N h U : phase_velocity N h U (fun j => dseries h (dof_coefs N U j)).
Proof. intros j tau _. apply series_dseries. Qed.

(** more samples do not change the forces *)
Lemma sample_counts N h Nt Nt' f phi U w : exact_harmonics N h Nt f phi -> exact_harmonics N h Nt' f phi ->
  exists F dU dw F' dU' dw', nl_aft f U w h Nt = Ok (F, dU, dw) /\ nl_aft f U w h Nt' = Ok (F', dU', dw') /\
    forall r, (r < length (components h) * N)%nat -> F r = F' r.
Proof.
  intros H H'. destruct (H U w _ (velocity_exists N h U)) as (F & dU & dw & E & P). destruct (H' U w _ (velocity_exists N h U)) as (F' & dU' & dw' & E' & P').
  exists F, dU, dw, F', dU', dw'. split; [exact E|]. split; [exact E'|]. intros r Hr. destruct (block_form _ _ _ Hr) as (c & i & Hc & Hi & ->).
  exact (fourier_unique _ _ _ _ (P c i Hc Hi) (P' c i Hc Hi)).
Qed.

(** 4 max(h) samples are not enough for a cubic spring: x = cos(t) *)
Lemma cos_cube t : cos t ^ 3 = 3/4 * cos (1 * t) + 1/4 * cos (3 * t).
Proof.
  rewrite Rmult_1_l. replace (3 * t) with (2 * t + t) by ring. rewrite cos_plus, cos_2a, sin_2a.
  pose proof (sin2_cos2 t) as P. unfold Rsqr in P. replace (sin t * sin t) with (1 - cos t * cos t) by lra.
  replace (2 * sin t * cos t * sin t) with (2 * cos t * (sin t * sin t)) by ring. replace (sin t * sin t) with (1 - cos t * cos t) by lra. field.
Qed.

Lemma too_few : exists N nnl Q T k h Nt U w v F dU dw, admissible h /\ (2 * list_max h + 1 < Nt)%nat /\ Nat.even Nt = true /\ (Nt = 4 * list_max h)%nat /\
  phase_velocity N h U v /\ nl_aft (cubic_nl N nnl Q T k) U w h Nt = Ok (F, dU, dw) /\ (0 < length (components h))%nat /\ (0 < N)%nat /\
  fourier_integral (fun tau => rsum nnl (fun d => T O d * (k d * local_motion N Q h U d tau ^ 3))) (nth 0 (components h) (Cos O)) (3/4) /\ F O = 1.
Proof.
  assert (Ha : admissible [1%nat]) by (repeat split; [discriminate|repeat constructor; intros []|intros []]).
  set (U := fun r : nat => match r with O => 1 | _ => 0 end).
  destruct (aft_cubic 1 1 (fun _ _ => 1) (fun _ _ => 1) [1%nat] 4 Ha ltac:(cbn; lia) eq_refl (fun _ => 1)) as (F & dU & dw & H1 & H2 & _).
  exists 1%nat, 1%nat, (fun _ _ => 1), (fun _ _ => 1), (fun _ => 1), [1%nat], 4%nat, U, 1, (fun j => dseries [1%nat] (dof_coefs 1 U j)), (F U 1), (dU U 1), (dw U 1).
  assert (Em : forall tau, local_motion 1 (fun _ _ => 1) [1%nat] U 0 tau = cos tau).
  { intros tau. unfold local_motion, series, basis, dof_coefs, U. cbn. rewrite !Rmult_1_l. ring. }
  split; [exact Ha|]. split; [cbn; lia|]. split; [reflexivity|]. split; [reflexivity|]. split; [apply velocity_exists|]. split; [apply H1|].
  split; [cbn; lia|]. split; [lia|]. split.
  - apply fourier_ext with (series [1%nat; 3%nat] (fun c => match c with O => 3/4 | 2%nat => 1/4 | _ => 0 end)).
    + intros tau. cbn [rsum]. rewrite Em, cos_cube. unfold series, basis. cbn. replace (1 + 1 + 1) with 3 by ring. ring.
    + change (nth 0 (components [1%nat]) (Cos 0)) with (nth 0 (components [1%nat; 3%nat]) (Cos 0)).
      apply (series_integral [1%nat; 3%nat] (fun c => match c with O => 3/4 | 2%nat => 1/4 | _ => 0 end) 0); [|cbn; lia]. repeat constructor; cbn; lia.
  - pose proof (H2 U 1 (fun d tau => rsum 1 (fun j => 1 * dseries [1%nat] (dof_coefs 1 U j) tau)) (fun d tau => local_phase 1 (fun _ _ => 1) [1%nat] U _ d tau (velocity_exists 1 [1%nat] U)) O O ltac:(cbn; lia) ltac:(lia)) as P.
    change (0 * 1 + 0)%nat with O in P. rewrite P. unfold fourier_coef. cbn [rsum nth components flat_map app comp_fun INR]. rewrite !Em, !Rmult_1_l.
    assert (S0 : sample_phase 4 0 = 0) by (unfold sample_phase; cbn [INR]; field).
    assert (S1 : sample_phase 4 1 = PI / 2) by (unfold sample_phase; cbn [INR]; field).
    assert (S2 : sample_phase 4 2 = PI) by (unfold sample_phase; cbn [INR]; field).
    assert (S3 : sample_phase 4 3 = 3 * (PI / 2)) by (unfold sample_phase; cbn [INR]; field).
    rewrite S0, S1, S2, S3, cos_0, cos_PI2, cos_PI, cos_3PI2. field.
Qed.

Lemma galerkin_case : let Q := fun _ j : nat => match j with O => 1 | 1%nat => Ropp 1 | _ => 0 end in let T := fun i _ : nat => match i with O => 1 | 1%nat => Ropp 1 | _ => 0 end in
  let P := fun _ j : nat => match j with 1%nat => 1 | _ => 0 end in let V := fun i _ : nat => match i with 1%nat => 1 | _ => 0 end in
  let h := [0; 1; 3]%nat in
  admissible h /\ length (components h) = 5%nat /\
  Forall2 (exact_harmonics 2 h 14) [cubic_nl 2 1 Q T (fun _ => 5); damping_nl 2 1 P V (fun _ => 2)]
    [fun U w v i tau => rsum 1 (fun d => T i d * (5 * local_motion 2 Q h U d tau ^ 3)); fun U w v i tau => rsum 1 (fun d => V i d * (2 * local_velocity 2 P w v d tau ^ 3))] /\
  forall X : vec, exists v a, phase_velocity 2 h X v /\ forall j tau, (j < 2)%nat -> derivable_pt_lim (v j) tau (a j tau).
Proof.
  intros Q T P V h.
  assert (Ha : admissible h) by (repeat split; [discriminate|repeat constructor; cbn; intuition discriminate|intros [E|[E|[]]]; discriminate]).
  split; [exact Ha|]. split; [reflexivity|]. split.
  - constructor; [|constructor; [|constructor]].
    + refine (cubic_harmonics 2 1 Q T h 14 Ha _ eq_refl (fun _ => 5) _); cbn; lia.
    + refine (damping_harmonics 2 1 P V h 14 Ha _ eq_refl (fun _ => 2) _); cbn; lia.
  - intros X. set (v := fun j => dseries h (dof_coefs 2 X j)). assert (Hv : phase_velocity 2 h X v) by apply velocity_exists.
    destruct (trig_derivative _ _ (trig_phase 2 h X v Hv 0 ltac:(lia))) as (a0 & _ & D0). destruct (trig_derivative _ _ (trig_phase 2 h X v Hv 1 ltac:(lia))) as (a1 & _ & D1).
    exists v, (fun j => match j with O => a0 | _ => a1 end). split; [exact Hv|]. intros [|[|j]] tau Hj; [apply D0|apply D1|lia].
Qed.
