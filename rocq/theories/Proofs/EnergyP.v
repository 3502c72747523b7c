(** Energy balance of harmonic motions. *)
From Coq Require Import Reals ZArith Lra Lia Arith List FunctionalExtensionality.
From Verif.Lib Require Import RSum Py Calc.
From Verif.Spec Require Import Calculus Harmonic Elements Slider System Galerkin Rotation Energy.
From Verif.Model Require Import Harmonic LocalForces Aft VibSys SysElements Jenkins Iwan JaxFriction SysHistory SysHarmonic.
From Verif.Proofs Require Import HystAftP IwanAftP ElementsP VibSysP EpmcP HarmonicP FourierP HarmonicOpsP AftP SliderP SliderShiftP TrigPolyP GalerkinP RotationP.
Import ListNotations.
Open Scope R_scope.

Lemma power_unique N f v P P' : mean_power N f v P -> mean_power N f v P' -> P = P'.
Proof. intros H H'. pose proof (integral_unique _ _ _ H H') as E. pose proof PI_RGT_0. apply Rmult_eq_reg_l with (2 * PI); lra. Qed.

Lemma power_ext N f g v v' P : (forall i t, (i < N)%nat -> f i t * v i t = g i t * v' i t) -> mean_power N f v P -> mean_power N g v' P.
Proof. intros E. apply integral_ext. intros t. apply rsum_ext. intros i Hi. apply E. exact Hi. Qed.

Lemma integral_plus f g I J : period_integral f I -> period_integral g J -> period_integral (fun t => f t + g t) (I + J).
Proof. intros (F & HF & ->) (G & HG & ->). exists (fun t => F t + G t). split; [intros t; apply dlim_plus; auto|ring]. Qed.

Lemma power_plus N f g v P P' : mean_power N f v P -> mean_power N g v P' -> mean_power N (fun i t => f i t + g i t) v (P + P').
Proof.
  intros H H'. pose proof (integral_plus _ _ _ _ H H') as Q. unfold mean_power. replace (2 * PI * (P + P')) with (2 * PI * P + 2 * PI * P') by ring.
  eapply integral_ext; [|exact Q]. intros t. cbv beta. rewrite <- rsum_plus. apply rsum_ext. intros i _. ring.
Qed.

Lemma power_scal N k f v P : mean_power N f v P -> mean_power N (fun i t => k * f i t) v (k * P).
Proof.
  intros H. pose proof (integral_scal k _ _ H) as Q. unfold mean_power. replace (2 * PI * (k * P)) with (k * (2 * PI * P)) by ring.
  eapply integral_ext; [|exact Q]. intros t. cbv beta. rewrite <- rsum_scal_l. apply rsum_ext. intros i _. ring.
Qed.

Lemma power_zero N f v : (forall i t, (i < N)%nat -> f i t = 0) -> mean_power N f v 0.
Proof.
  intros E. exists (fun _ => 0). split; [|ring]. intros t. apply dlim_eq with 0; [apply dlim_const|]. symmetry. apply rsum_zero. intros i Hi. rewrite E by exact Hi. ring.
Qed.

Lemma power_trig N D E f v : (forall i, (i < N)%nat -> trig D (f i)) -> (forall i, (i < N)%nat -> trig E (v i)) -> exists P, mean_power N f v P.
Proof.
  intros Hf Hv. destruct (trig_mean (D + E) (fun t => rsum N (fun i => f i t * v i t))) as (m & F & H1 & H2 & _).
  - apply (trig_rsum (D + E) N (fun i t => f i t * v i t)). intros i Hi. apply trig_mult; auto.
  - exists m, F. split; [exact H1|lra].
Qed.

Lemma power_conservative N f v W : (forall t, derivable_pt_lim W t (rsum N (fun i => f i t * v i t))) -> W (2 * PI) = W 0 -> mean_power N f v 0.
Proof. intros H E. exists W. split; [exact H|lra]. Qed.

(** a nonnegative function has a nonnegative integral *)
Lemma integral_nonneg f I : (forall t, 0 <= f t) -> period_integral f I -> 0 <= I.
Proof.
  intros Hf (F & HF & ->). pose proof PI_RGT_0 as P. destruct (MVT_cor2 F f 0 (2 * PI) ltac:(lra) ltac:(intros; apply HF)) as (c & H & _). rewrite H. apply Rmult_le_pos; [apply Hf|lra].
Qed.

(** * Mass and stiffness do no work over a period *)
Lemma quadratic_derivative N (A : mat) (x dx : nat -> R -> R) t : symmetric_matrix N A -> (forall j, (j < N)%nat -> derivable_pt_lim (x j) t (dx j t)) ->
  derivable_pt_lim (fun t => / 2 * rsum N (fun i => x i t * rsum N (fun j => A i j * x j t))) t (rsum N (fun i => rsum N (fun j => A i j * x j t) * dx i t)).
Proof.
  intros HA Hx.
  apply dlim_eq with (/ 2 * rsum N (fun i => dx i t * rsum N (fun j => A i j * x j t) + x i t * rsum N (fun j => A i j * dx j t))).
  - apply dlim_scal. apply (dlim_rsum N (fun i t => x i t * rsum N (fun j => A i j * x j t)) t (fun i => dx i t * rsum N (fun j => A i j * x j t) + x i t * rsum N (fun j => A i j * dx j t))).
    intros i Hi. apply dlim_mult; [apply Hx; exact Hi|]. apply (dlim_rsum N (fun j t => A i j * x j t) t (fun j => A i j * dx j t)). intros j Hj. apply dlim_scal. apply Hx. exact Hj.
  - rewrite rsum_plus. assert (E : rsum N (fun i => x i t * rsum N (fun j => A i j * dx j t)) = rsum N (fun i => dx i t * rsum N (fun j => A i j * x j t))).
    { rewrite (rsum_ext N _ (fun i => rsum N (fun j => x i t * (A i j * dx j t)))) by (intros; rewrite rsum_scal_l; reflexivity). rewrite rsum_swap. apply rsum_ext. intros j Hj.
      rewrite <- rsum_scal_l. apply rsum_ext. intros i Hi. rewrite (HA i j Hi Hj). ring. }
    rewrite E. rewrite (rsum_ext N (fun i => rsum N (fun j => A i j * x j t) * dx i t) (fun i => dx i t * rsum N (fun j => A i j * x j t))) by (intros; ring). lra.
Qed.

Section Motion.
  Variables (N : nat) (h : list nat) (U : vec) (w : R) (v : nat -> R -> R).
  Hypothesis Hv : phase_velocity N h U v.
  Let vel := fun j tau => w * v j tau.

  Lemma vel_trig j : (j < N)%nat -> trig (list_max h) (vel j).
  Proof. intros Hj. apply trig_scal. apply (trig_phase N h U v Hv). exact Hj. Qed.

  Lemma force_trig F j : trig (list_max h) (harmonic_force N h F j).
  Proof. apply trig_series. Qed.

  Lemma harmonic_power F : exists P, mean_power N (harmonic_force N h F) vel P.
  Proof. apply (power_trig N (list_max h) (list_max h)); [intros; apply force_trig|apply vel_trig]. Qed.

  Lemma trig_period D f : trig D f -> forall t, f (t + 2 * PI) = f t.
  Proof.
    intros H. induction H as [|a c f Hc Hf IH]; [reflexivity|]. intros t. rewrite IH. f_equal. f_equal. replace (t + 2 * PI) with (t + 2 * PI * IZR 1) by ring. apply comp_fun_period.
  Qed.

  (** power of the linear forces *)
  Lemma linear_power M C K a F : symmetric_matrix N M -> symmetric_matrix N K -> (forall j tau, (j < N)%nat -> derivable_pt_lim (v j) tau (a j tau)) ->
    (forall i tau, (i < N)%nat -> harmonic_force N h F i tau = rsum N (fun j => M i j * (w ^ 2 * a j tau) + C i j * vel j tau + K i j * series h (dof_coefs N U j) tau)) ->
    exists P, mean_power N (harmonic_force N h F) vel P /\ mean_power N (viscous N C vel) vel P.
  Proof.
    intros HM HK Hacc HF. destruct (power_trig N (list_max h) (list_max h) (viscous N C vel) vel) as (P & HP).
    { intros i Hi. apply (trig_rsum (list_max h) N (fun j tau => C i j * vel j tau)). intros j Hj. apply trig_scal. apply vel_trig. exact Hj. }
    { apply vel_trig. }
    exists P. split; [|exact HP].
    assert (PM : mean_power N (fun i tau => rsum N (fun j => M i j * v j tau)) a 0).
    { apply (power_conservative N _ a (fun t => / 2 * rsum N (fun i => v i t * rsum N (fun j => M i j * v j t)))).
      - intros t. apply quadratic_derivative; [exact HM|]. intros j Hj. apply Hacc. exact Hj.
      - f_equal. apply rsum_ext. intros i Hi. assert (E : forall j, (j < N)%nat -> v j (2 * PI) = v j 0) by (intros j Hj; rewrite <- (Rplus_0_l (2 * PI)); apply (trig_period (list_max h)); apply (trig_phase N h U v Hv); exact Hj).
        rewrite (E i Hi). f_equal. apply rsum_ext. intros j Hj. rewrite (E j Hj). reflexivity. }
    assert (PK : mean_power N (fun i tau => rsum N (fun j => K i j * series h (dof_coefs N U j) tau)) v 0).
    { apply (power_conservative N _ v (fun t => / 2 * rsum N (fun i => series h (dof_coefs N U i) t * rsum N (fun j => K i j * series h (dof_coefs N U j) t)))).
      - intros t. apply (quadratic_derivative N K (fun j => series h (dof_coefs N U j)) v); [exact HK|]. intros j Hj. apply Hv. exact Hj.
      - f_equal. apply rsum_ext. intros i Hi. assert (E : forall j, series h (dof_coefs N U j) (2 * PI) = series h (dof_coefs N U j) 0) by (intros j; rewrite <- (Rplus_0_l (2 * PI)); apply (trig_period (list_max h)); apply trig_series).
        rewrite E. f_equal. apply rsum_ext. intros j Hj. rewrite E. reflexivity. }
    assert (PM2 : mean_power N (fun i tau => rsum N (fun j => M i j * (w ^ 2 * a j tau))) vel (w ^ 3 * 0)).
    { pose proof (integral_scal (w ^ 3) _ _ PM) as Q. unfold mean_power. replace (2 * PI * (w ^ 3 * 0)) with (w ^ 3 * (2 * PI * 0)) by ring. eapply integral_ext; [|exact Q]. intros t. cbv beta. unfold vel.
      rewrite (rsum_ext N (fun i => rsum N (fun j => M i j * v j t) * a i t) (fun i => rsum N (fun j => M i j * v j t * a i t))) by (intros i _; rewrite Rmult_comm, <- rsum_scal_l; apply rsum_ext; intros; ring).
      rewrite rsum_swap, <- rsum_scal_l. apply rsum_ext. intros j Hj.
      rewrite <- rsum_scal_l, (Rmult_comm (rsum _ _)), <- rsum_scal_l. apply rsum_ext. intros i Hi. rewrite (HM i j Hi Hj). ring. }
    assert (PK2 : mean_power N (fun i tau => rsum N (fun j => K i j * series h (dof_coefs N U j) tau)) vel (w * 0)).
    { pose proof (integral_scal w _ _ PK) as Q. unfold mean_power. replace (2 * PI * (w * 0)) with (w * (2 * PI * 0)) by ring. eapply integral_ext; [|exact Q]. intros t. cbv beta. unfold vel. rewrite <- rsum_scal_l. apply rsum_ext. intros i Hi. ring. }
    pose proof (power_plus N _ _ vel _ _ (power_plus N _ _ vel _ _ PM2 HP) PK2) as T. replace (w ^ 3 * 0 + P + w * 0) with P in T by ring.
    eapply power_ext; [|exact T]. intros i t Hi. cbv beta. f_equal. rewrite HF by exact Hi. unfold viscous. rewrite <- !rsum_plus. reflexivity.
  Qed.
End Motion.

(** * Power of returned forces *)
Lemma velocity_series N h U v : admissible h -> phase_velocity N h U v -> exists V : vec, forall j t, (j < N)%nat -> v j t = series h (dof_coefs N V j) t.
Proof.
  intros Ha Hv. destruct (stiffness_eom N (fun _ _ => 0) (fun i j => if Nat.eqb i j then 1 else 0) (fun _ _ => 0) 1 h true U Ha) as (E & dE & v' & a' & _ & Hv' & _ & Heom).
  exists (matvec (length (components h) * N) E U). intros j t Hj. pose proof (Heom j t Hj) as P. unfold motion at 1 in P. rewrite Rmult_1_l in P. rewrite P. rewrite (rsum_single N j).
  - rewrite Nat.eqb_refl. transitivity (v' j t); [|ring]. apply (uniqueness_limite (series h (dof_coefs N U j)) t); [apply Hv; exact Hj|].
    apply dlim_ext with (motion N h U 1 j); [intros x; unfold motion; rewrite Rmult_1_l; reflexivity|apply Hv'].
  - exact Hj.
  - intros i Hi Hne. rewrite (proj2 (Nat.eqb_neq j i)) by congruence. ring.
Qed.

Lemma weight_pos c : 0 < weight c.
Proof. destruct c as [[|k]|k]; cbn; lra. Qed.

Lemma fourier_integral_of f c a : fourier_integral f c a -> period_integral (fun t => f t * comp_fun c t) (2 * PI * (a / weight c)).
Proof.
  intros (I & H & ->). replace (2 * PI * _) with I; [exact H|]. change (match c with Cos O => 1 | _ => 2 end) with (weight c). pose proof (weight_pos c). pose proof PI_RGT_0. field. lra.
Qed.

(** a function and the series of its Fourier coefficients have the same integrals against series *)
Lemma series_parseval h (f : R -> R) (A B : vec) : NoDup h ->
  (forall c, (c < length (components h))%nat -> fourier_integral f (nth c (components h) (Cos O)) (A c)) ->
  exists P, period_integral (fun t => f t * series h B t) (2 * PI * P) /\ period_integral (fun t => series h A t * series h B t) (2 * PI * P).
Proof.
  intros Hd HA. exists (rsum (length (components h)) (fun c => B c * (A c / weight (nth c (components h) (Cos O))))).
  assert (G : forall g, (forall c, (c < length (components h))%nat -> fourier_integral g (nth c (components h) (Cos O)) (A c)) ->
    period_integral (fun t => g t * series h B t) (2 * PI * rsum (length (components h)) (fun c => B c * (A c / weight (nth c (components h) (Cos O)))))).
  { intros g Hg. rewrite <- rsum_scal_l.
    eapply integral_ext; [|apply (integral_rsum (length (components h)) (fun c t => B c * (g t * comp_fun (nth c (components h) (Cos O)) t)) (fun c => 2 * PI * (B c * (A c / weight (nth c (components h) (Cos O))))))].
    - intros t. unfold series. rewrite <- rsum_scal_l. apply rsum_ext. intros c Hc. unfold basis. ring.
    - intros c Hc. replace (2 * PI * (B c * (A c / weight (nth c (components h) (Cos O))))) with (B c * (2 * PI * (A c / weight (nth c (components h) (Cos O))))) by ring.
      apply integral_scal. apply fourier_integral_of. apply Hg. exact Hc. }
  split; [apply G; exact HA|apply G]. intros c Hc. apply series_integral; assumption.
Qed.

Lemma power_of_series N h (phi : nat -> R -> R) F (V : vec) w : NoDup h ->
  (forall c i, (c < length (components h))%nat -> (i < N)%nat -> fourier_integral (phi i) (nth c (components h) (Cos O)) (F (c * N + i)%nat)) ->
  exists P, mean_power N phi (fun j t => w * series h (dof_coefs N V j) t) P /\ mean_power N (harmonic_force N h F) (fun j t => w * series h (dof_coefs N V j) t) P.
Proof.
  intros Hd HF.
  destruct (finite_choice (fun i P => period_integral (fun t => phi i t * series h (dof_coefs N V i) t) (2 * PI * P) /\ period_integral (fun t => harmonic_force N h F i t * series h (dof_coefs N V i) t) (2 * PI * P)) 0 N) as (P & HP).
  { intros i Hi. apply (series_parseval h (phi i) (dof_coefs N F i) (dof_coefs N V i) Hd). intros c Hc. apply HF; assumption. }
  exists (w * rsum N P).
  assert (G : forall g : nat -> R -> R, (forall i, (i < N)%nat -> period_integral (fun t => g i t * series h (dof_coefs N V i) t) (2 * PI * P i)) ->
    mean_power N g (fun j t => w * series h (dof_coefs N V j) t) (w * rsum N P)).
  { intros g Hg. unfold mean_power. replace (2 * PI * (w * rsum N P)) with (w * rsum N (fun i => 2 * PI * P i)) by (rewrite rsum_scal_l; ring).
    eapply integral_ext; [|apply integral_scal; apply (integral_rsum N (fun i t => g i t * series h (dof_coefs N V i) t) (fun i => 2 * PI * P i)); exact Hg].
    intros t. cbv beta. rewrite <- rsum_scal_l. apply rsum_ext. intros; ring. }
  split; apply G; intros i Hi; apply (HP i Hi).
Qed.

Lemma exact_power N h Nt f phi U w v : admissible h -> exact_harmonics N h Nt f phi -> phase_velocity N h U v ->
  exists F dU dw P, nl_aft f U w h Nt = Ok (F, dU, dw) /\
    mean_power N (harmonic_force N h F) (fun j tau => w * v j tau) P /\ mean_power N (phi U w v) (fun j tau => w * v j tau) P.
Proof.
  intros Ha Hf Hv. destruct (Hf U w v Hv) as (F & dU & dw & E & HF). destruct (velocity_series N h U v Ha Hv) as (V & HV).
  destruct (power_of_series N h (phi U w v) F V w (proj1 (proj2 Ha)) HF) as (P & P1 & P2). exists F, dU, dw, P. split; [exact E|].
  split; [eapply power_ext; [|exact P2]|eapply power_ext; [|exact P1]]; intros i t Hi; cbv beta; rewrite (HV i t Hi); reflexivity.
Qed.

(** forces that act on their local displacements *)
Lemma local_work N nnl Q T (g : nat -> R) (w : R) (v : nat -> R -> R) tau : acts_on_its_displacements N nnl Q T ->
  rsum N (fun i => rsum nnl (fun d => T i d * g d) * (w * v i tau)) = rsum nnl (fun d => g d * local_velocity N Q w v d tau).
Proof.
  intros HT. rewrite (rsum_ext N _ (fun i => rsum nnl (fun d => T i d * g d * (w * v i tau)))) by (intros; rewrite <- rsum_scal_r; reflexivity).
  rewrite rsum_swap. apply rsum_ext. intros d Hd. unfold local_velocity. rewrite <- Rmult_assoc, <- rsum_scal_l. apply rsum_ext. intros i Hi. rewrite (HT i d Hi Hd). ring.
Qed.

Lemma potential_power N nnl Q T h U w v (f : vec -> vec) : acts_on_its_displacements N nnl Q T -> phase_velocity N h U v -> has_potential nnl f ->
  mean_power N (fun i tau => rsum nnl (fun d => T i d * f (fun e => local_motion N Q h U e tau) d)) (fun j tau => w * v j tau) 0.
Proof.
  intros HT Hv (W & He & HW). apply (power_conservative N _ _ (fun t => w * W (fun e => local_motion N Q h U e t))).
  - intros t. rewrite (local_work N nnl Q T (fun d => f (fun e => local_motion N Q h U e t) d) w v t HT).
    apply dlim_eq with (w * rsum nnl (fun d => f (fun e => local_motion N Q h U e t) d * rsum N (fun j => Q d j * v j t))).
    + apply dlim_scal. apply (HW (local_motion N Q h U) (fun d t => rsum N (fun j => Q d j * v j t)) t). intros d Hd. apply local_phase. exact Hv.
    + rewrite <- rsum_scal_l. apply rsum_ext. intros d Hd. unfold local_velocity. ring.
  - f_equal. apply He. intros d Hd. rewrite <- (Rplus_0_l (2 * PI)). apply (trig_period (list_max h)). apply trig_local.
Qed.

Lemma power_potential nnl (k : nat -> R) p : has_potential nnl (fun q d => k d * q d ^ p).
Proof.
  exists (fun q => rsum nnl (fun d => k d / INR (S p) * q d ^ S p)). split.
  - intros q q' E. apply rsum_ext. intros d Hd. rewrite E by exact Hd. reflexivity.
  - intros q dq t H. apply (dlim_rsum nnl (fun d t => k d / INR (S p) * q d t ^ S p) t (fun d => k d * q d t ^ p * dq d t)). intros d Hd.
    apply dlim_eq with (k d / INR (S p) * (INR (S p) * q d t ^ pred (S p) * dq d t)); [|cbn [pred]; field; apply not_0_INR; lia].
    apply dlim_scal. apply (dlim_comp (q d) (fun x => x ^ S p) t (dq d t) (INR (S p) * q d t ^ pred (S p))); [apply H; exact Hd|apply derivable_pt_lim_pow].
Qed.

Lemma element_powers N nnl Q T h Nt : admissible h -> (2 * list_max h + 1 < Nt)%nat -> Nat.even Nt = true -> acts_on_its_displacements N nnl Q T ->
  (forall k U w v, (4 * list_max h < Nt)%nat -> phase_velocity N h U v ->
    exists F dU dw, nl_aft (cubic_nl N nnl Q T k) U w h Nt = Ok (F, dU, dw) /\ mean_power N (harmonic_force N h F) (fun j tau => w * v j tau) 0) /\
  (forall k U w v, (6 * list_max h < Nt)%nat -> phase_velocity N h U v ->
    exists F dU dw, nl_aft (quintic_nl N nnl Q T k) U w h Nt = Ok (F, dU, dw) /\ mean_power N (harmonic_force N h F) (fun j tau => w * v j tau) 0) /\
  (forall c U w v, (4 * list_max h < Nt)%nat -> phase_velocity N h U v -> (forall d, (d < nnl)%nat -> 0 <= c d) ->
    exists F dU dw P, nl_aft (damping_nl N nnl Q T c) U w h Nt = Ok (F, dU, dw) /\ mean_power N (harmonic_force N h F) (fun j tau => w * v j tau) P /\ 0 <= P) /\
  (forall cnl E qq p U w v, (forall m, (m < cnl)%nat -> (fold_right Nat.add O (map (qq m) (seq 0 nnl)) <= p)%nat) -> ((p + 1) * list_max h < Nt)%nat -> phase_velocity N h U v ->
    has_potential nnl (fun q d => rsum cnl (fun m => E d m * monomial nnl (qq m) q)) ->
    exists F dU dw, nl_aft (poly_nl N nnl cnl Q T E qq) U w h Nt = Ok (F, dU, dw) /\ mean_power N (harmonic_force N h F) (fun j tau => w * v j tau) 0).
Proof.
  intros Ha HN He HT.
  assert (Z : forall f phi U w v, exact_harmonics N h Nt f phi -> phase_velocity N h U v -> mean_power N (phi U w v) (fun j tau => w * v j tau) 0 ->
    exists F dU dw, nl_aft f U w h Nt = Ok (F, dU, dw) /\ mean_power N (harmonic_force N h F) (fun j tau => w * v j tau) 0).
  { intros f phi U w v Hf Hv H0. destruct (exact_power N h Nt f phi U w v Ha Hf Hv) as (F & dU & dw & P & E & P1 & P2). exists F, dU, dw. split; [exact E|].
    rewrite (power_unique _ _ _ _ _ H0 P2). exact P1. }
  split; [|split; [|split]].
  - intros k U w v H4 Hv. eapply Z; [apply (cubic_harmonics N nnl Q T h Nt Ha HN He k H4)|exact Hv|]. cbv beta. apply (potential_power N nnl Q T h U w v (fun q d => k d * q d ^ 3) HT Hv (power_potential nnl k 3)).
  - intros k U w v H4 Hv. eapply Z; [apply (quintic_harmonics N nnl Q T h Nt Ha HN He k H4)|exact Hv|]. cbv beta. apply (potential_power N nnl Q T h U w v (fun q d => k d * q d ^ 5) HT Hv (power_potential nnl k 5)).
  - intros c U w v H4 Hv Hc. destruct (exact_power N h Nt _ _ U w v Ha (damping_harmonics N nnl Q T h Nt Ha HN He c H4) Hv) as (F & dU & dw & P & E & P1 & P2). exists F, dU, dw, P.
    split; [exact E|]. split; [exact P1|]. pose proof PI_RGT_0. apply Rmult_le_reg_l with (2 * PI); [lra|]. rewrite Rmult_0_r. refine (integral_nonneg _ _ _ P2).
    intros t. cbv beta. rewrite (local_work N nnl Q T (fun d => c d * local_velocity N Q w v d t ^ 3) w v t HT). apply rsum_nonneg. intros d Hd.
    replace (c d * local_velocity N Q w v d t ^ 3 * local_velocity N Q w v d t) with (c d * (local_velocity N Q w v d t ^ 2) ^ 2) by ring. apply Rmult_le_pos; [apply Hc; exact Hd|apply pow2_ge_0].
  - intros cnl E qq p U w v Hp Hs Hv HW. eapply Z; [apply (poly_harmonics N nnl Q T h Nt Ha HN He cnl E qq p Hp Hs)|exact Hv|]. cbv beta.
    apply (potential_power N nnl Q T h U w v (fun q d => rsum cnl (fun m => E d m * monomial nnl (qq m) q)) HT Hv HW).
Qed.

(** * Balance of a system *)
Lemma sys_aft_none N U w h Nt : forall els l r, sys_aft N els U w h Nt None = (l, Ok r) -> r = None.
Proof.
  induction els as [|e els IH]; cbn [sys_aft]; intros l r H; [congruence|]. destruct (element_aft N e U w h Nt) as [[e' Fe]|x]; [|discriminate]. cbn [oadd] in H.
  destruct (sys_aft N els U w h Nt None) as [l1 r1] eqn:E. injection H as <- ->. exact (IH l1 r eq_refl).
Qed.

Lemma sys_aft_parts N U w h Nt : forall els F0 l G, sys_aft N els U w h Nt (Some F0) = (l, Ok (Some G)) ->
  exists Fs, Forall2 (fun e F => exists e', element_aft N e U w h Nt = Ok (e', Some F)) els Fs /\ forall i, G i = F0 i + lsum (fun F : vec => F i) Fs.
Proof.
  induction els as [|e els IH]; cbn [sys_aft]; intros F0 l G H.
  - injection H as <- <-. exists []. split; [constructor|]. intros i. unfold lsum. cbn. ring.
  - destruct (element_aft N e U w h Nt) as [[e' [Fe|]]|x] eqn:Ee; cbn [oadd] in H; [| |discriminate].
    + destruct (sys_aft N els U w h Nt (Some (vadd F0 Fe))) as [l1 r1] eqn:E. injection H as <- ->. destruct (IH _ _ _ E) as (Fs & A & B). exists (Fe :: Fs). split.
      * constructor; [exists e'; exact Ee|exact A].
      * intros i. rewrite B. unfold lsum. cbn [map fold_right]. unfold vadd. ring.
    + destruct (sys_aft N els U w h Nt None) as [l1 r1] eqn:E. injection H as <- ->. apply sys_aft_none in E. discriminate.
Qed.

Lemma power_lsum N h v (Fs : list vec) Ps : Forall2 (fun F P => mean_power N (harmonic_force N h F) v P) Fs Ps ->
  mean_power N (fun i t => lsum (fun F => harmonic_force N h F i t) Fs) v (lsum (fun P => P) Ps).
Proof.
  intros H. induction H as [|F P Fs Ps HF H IH]; [apply power_zero; reflexivity|]. exact (power_plus N _ _ v _ _ HF IH).
Qed.

Lemma force_lsum N h (Fs : list vec) i t : harmonic_force N h (fun r => lsum (fun F : vec => F r) Fs) i t = lsum (fun F => harmonic_force N h F i t) Fs.
Proof.
  unfold harmonic_force. induction Fs as [|F Fs IH]; unfold lsum in *; cbn [map fold_right].
  - unfold series, dof_coefs. apply rsum_zero. intros; ring.
  - rewrite <- IH. unfold series, dof_coefs. rewrite <- rsum_plus. apply rsum_ext. intros; ring.
Qed.

Lemma forces_powers N h U w v (Hv : phase_velocity N h U v) : forall Fs : list vec, exists Ps, Forall2 (fun F P => mean_power N (harmonic_force N h F) (fun j tau => w * v j tau) P) Fs Ps.
Proof.
  induction Fs as [|F Fs (Ps & IH)]; [exists []; constructor|]. destruct (harmonic_power N h U w v Hv F) as (P & HP). exists (P :: Ps). constructor; assumption.
Qed.

Lemma accelerations N h U v : phase_velocity N h U v -> exists a : nat -> R -> R, forall j tau, (j < N)%nat -> derivable_pt_lim (v j) tau (a j tau).
Proof.
  intros Hv. destruct (finite_choice (fun j (a : R -> R) => forall tau, derivable_pt_lim (v j) tau (a tau)) (fun _ => 0) N) as (a & Hacc).
  - intros j Hj. destruct (trig_derivative _ _ (trig_phase N h U v Hv j Hj)) as (a & _ & D). exists a. exact D.
  - exists a. intros j tau Hj. apply Hacc. exact Hj.
Qed.

Lemma eom_phase N h M C K U w v a f g : w <> 0 -> phase_velocity N h U v -> (forall j tau, (j < N)%nat -> derivable_pt_lim (v j) tau (a j tau)) ->
  equation_of_motion N h M C K U w f g -> forall i tau, (i < N)%nat ->
  rsum N (fun j => M i j * (w ^ 2 * a j tau) + C i j * (w * v j tau) + K i j * series h (dof_coefs N U j) tau) + f i (tau / w) = g i (tau / w).
Proof.
  intros Hw Hv Hacc (v' & a' & Hv' & Ha' & Heom) i tau Hi.
  assert (Ev : forall j t, (j < N)%nat -> v' j t = w * v j (w * t)).
  { intros j t Hj. apply (uniqueness_limite (motion N h U w j) t _ _ (Hv' j t Hj)). apply dlim_eq with (v j (w * t) * (w * 1)); [|ring].
    apply (dlim_comp (fun t => w * t) (series h (dof_coefs N U j)) t (w * 1) (v j (w * t))); [apply dlim_scal, dlim_id|apply Hv; exact Hj]. }
  assert (Ea : forall j t, (j < N)%nat -> a' j t = w ^ 2 * a j (w * t)).
  { intros j t Hj. apply (uniqueness_limite (v' j) t _ _ (Ha' j t Hj)). apply dlim_ext with (fun t => w * v j (w * t)); [intros x; symmetry; apply Ev; exact Hj|].
    apply dlim_eq with (w * (a j (w * t) * (w * 1))); [|ring]. apply dlim_scal. apply (dlim_comp (fun t => w * t) (v j) t (w * 1) (a j (w * t))); [apply dlim_scal, dlim_id|apply Hacc; exact Hj]. }
  rewrite <- (Heom i (tau / w) Hi). f_equal. apply rsum_ext. intros j Hj. rewrite Ev, Ea by exact Hj. unfold motion. replace (w * (tau / w)) with tau by (field; exact Hw). reflexivity.
Qed.

Lemma viscous_nonneg N C vel P : positive_semidefinite N C -> mean_power N (viscous N C vel) vel P -> 0 <= P.
Proof.
  intros HC HP. pose proof PI_RGT_0. apply Rmult_le_reg_l with (2 * PI); [lra|]. rewrite Rmult_0_r. refine (integral_nonneg _ _ _ HP). intros t. cbv beta. unfold viscous.
  rewrite (rsum_ext N _ (fun i => vel i t * rsum N (fun j => C i j * vel j t))) by (intros; ring). apply (HC (fun j => vel j t)).
Qed.

Lemma lsum_nonneg Ps : Forall (fun P => 0 <= P) Ps -> 0 <= lsum (fun P => P) Ps.
Proof. intros H. unfold lsum. induction H as [|P Ps H HPs IH]; cbn [map fold_right]; lra. Qed.

Lemma forced_balance N h Nt M C K els X Fl v l Rr : admissible h ->
  let n := (length (components h) * N)%nat in let w := X n in let vel := fun j tau => w * v j tau in
  w <> 0 -> symmetric_matrix N M -> symmetric_matrix N K -> phase_velocity N h X v ->
  sys_hbm_res N M C K els X Fl h Nt = (l, Ok (Some Rr)) -> (forall r, (r < n)%nat -> Rr r = 0) ->
  exists Pext Pc Fs Ps, mean_power N (harmonic_force N h Fl) vel Pext /\ mean_power N (viscous N C vel) vel Pc /\
    Forall2 (fun e F => exists e', element_aft N e (take n X) w h Nt = Ok (e', Some F)) els Fs /\
    Forall2 (fun F P => mean_power N (harmonic_force N h F) vel P) Fs Ps /\ Pext = Pc + lsum (fun P => P) Ps /\
    (positive_semidefinite N C -> Forall (fun P => 0 <= P) Ps -> 0 <= Pext).
Proof.
  intros Ha n w vel Hw HM HK Hv HR H0. unfold sys_hbm_res in HR. rewrite nhc_aft in HR. fold n w in HR.
  destruct (stiffness_eom N M C K w h true X Ha) as (E & dE & v' & a' & HE & Hv' & Ha' & Heom). rewrite HE in HR.
  destruct (sys_aft N els (take n X) w h Nt (Some vzero)) as [l' r] eqn:ES. destruct r as [[G|]|x]; cbn [bind] in HR; try discriminate. injection HR as <- <-.
  destruct (sys_aft_parts N (take n X) w h Nt els vzero l' G ES) as (Fs & A & B). destruct (forces_powers N h X w v Hv Fs) as (Ps & HPs).
  destruct (accelerations N h X v Hv) as (a & Hacc).
  assert (EM : equation_of_motion N h M C K X w (fun _ _ => 0) (motion N h (matvec n E X) w)).
  { exists v', a'. split; [intros j t _; apply Hv'|]. split; [intros j t _; apply Ha'|]. intros i t Hi. rewrite Rplus_0_r. symmetry. apply Heom. exact Hi. }
  destruct (linear_power N h X w v Hv M C K a (matvec n E X) HM HK Hacc) as (P & P1 & P2).
  { intros i tau Hi. pose proof (eom_phase N h M C K X w v a _ _ Hw Hv Hacc EM i tau Hi) as Q. cbv beta in Q. rewrite Rplus_0_r in Q. rewrite Q. unfold motion, harmonic_force. f_equal. field. exact Hw. }
  exists (P + lsum (fun P => P) Ps), P, Fs, Ps. split; [|split; [exact P2|split; [exact A|split; [exact HPs|split; [reflexivity|]]]]]; cycle 1.
  { intros HC HP0. apply Rplus_le_le_0_compat; [exact (viscous_nonneg N C _ P HC P2)|exact (lsum_nonneg Ps HP0)]. }
  eapply power_ext; [|exact (power_plus N _ _ _ _ _ P1 (power_lsum N h _ Fs Ps HPs))]. intros i t Hi. cbv beta. f_equal. rewrite <- force_lsum. unfold harmonic_force, series. rewrite <- rsum_plus. apply rsum_ext. intros c Hc.
  unfold dof_coefs. rewrite <- Rmult_plus_distr_r. f_equal. pose proof (H0 (c * N + i)%nat ltac:(unfold n; nia)) as Z. rewrite B in Z. unfold vzero in Z. lra.
Qed.

Lemma epmc_balance s h Nt X Fl outs v Rr G : admissible h -> starts_with_1 h ->
  let N := vs_N s in let n := (length (components h) * N)%nat in let w := X n in let xi := X (n + 1)%nat in
  let U := amplitude_scaled N h X (X (n + 2)%nat) in let vel := fun j tau => w * v j tau in
  w <> 0 -> symmetric_matrix N (vs_M s) -> symmetric_matrix N (vs_K s) -> phase_velocity N h U v ->
  Forall2 (fun f o => nl_aft f (take n U) w h Nt = Ok o) (vs_forces s) outs ->
  epmc_res s X Fl h Nt true = Ok (Rr, Some G) -> (forall i, (i < n + 2)%nat -> Rr i = 0) ->
  exists Pm Pc Ps, mean_power N (viscous N (vs_M s) vel) vel Pm /\ mean_power N (viscous N (vs_C s) vel) vel Pc /\
    Forall2 (fun o P => mean_power N (harmonic_force N h (fst (fst o))) vel P) outs Ps /\ xi * Pm = Pc + lsum (fun P => P) Ps.
Proof.
  intros Ha H1 N n w xi U vel Hw HM HK Hv Ho HR H0. destruct (epmc_zero s h Nt X Fl outs Ha H1 Hw Ho) as (Rr' & G' & HR' & HE). rewrite HR in HR'. injection HR' as <- <-.
  destruct (proj1 HE H0) as (EM & _ & _). fold N n w xi U in EM. clear HE HR H0. destruct (accelerations N h U v Hv) as (a & Hacc).
  set (Fs := map (fun o : vec * mat * vec => fst (fst o)) outs). destruct (forces_powers N h U w v Hv Fs) as (Ps & HPs).
  assert (HPo : Forall2 (fun o P => mean_power N (harmonic_force N h (fst (fst o))) vel P) outs Ps).
  { clear -HPs. unfold Fs in HPs. revert Ps HPs. induction outs as [|o outs IH]; intros Ps H; inversion H; subst; constructor; auto. }
  assert (PT : forall A : mat, exists P, mean_power N (viscous N A vel) vel P).
  { intros A. apply (power_trig N (list_max h) (list_max h)); [|apply (vel_trig N h U w v Hv)]. intros i Hi. apply (trig_rsum (list_max h) N (fun j tau => A i j * vel j tau)). intros j Hj. apply trig_scal. apply (vel_trig N h U w v Hv). exact Hj. }
  destruct (PT (vs_M s)) as (Pm & HPm). destruct (PT (vs_C s)) as (Pc & HPc). exists Pm, Pc, Ps. split; [exact HPm|]. split; [exact HPc|]. split; [exact HPo|].
  (* power of the linear part by its forces *)
  destruct (stiffness_eom N (vs_M s) (fun i j => vs_C s i j - xi * vs_M s i j) (vs_K s) w h true U Ha) as (E' & dE & v' & a' & _ & Hv' & Ha' & Heom).
  assert (EM2 : equation_of_motion N h (vs_M s) (fun i j => vs_C s i j - xi * vs_M s i j) (vs_K s) U w (fun _ _ => 0) (motion N h (matvec n E' U) w)).
  { exists v', a'. split; [intros j t _; apply Hv'|]. split; [intros j t _; apply Ha'|]. intros i t Hi. rewrite Rplus_0_r. symmetry. apply Heom. exact Hi. }
  pose proof (eom_phase N h _ _ _ U w v a _ _ Hw Hv Hacc EM) as Q1. pose proof (eom_phase N h _ _ _ U w v a _ _ Hw Hv Hacc EM2) as Q2.
  assert (X0 : forall tau, w * (tau / w) = tau) by (intros; field; exact Hw).
  destruct (linear_power N h U w v Hv (vs_M s) (fun i j => vs_C s i j - xi * vs_M s i j) (vs_K s) a (matvec n E' U) HM HK Hacc) as (P & P1 & P2).
  { intros i tau Hi. pose proof (Q2 i tau Hi) as Q. cbv beta in Q. rewrite Rplus_0_r in Q. rewrite Q. unfold motion, harmonic_force. rewrite X0. reflexivity. }
  (* viscous part *)
  assert (V1 : mean_power N (viscous N (fun i j => vs_C s i j - xi * vs_M s i j) vel) vel (Pc + (- xi) * Pm)).
  { eapply power_ext; [|exact (power_plus N _ _ vel _ _ HPc (power_scal N (- xi) _ vel _ HPm))]. intros i t Hi. cbv beta. f_equal. unfold viscous. rewrite <- rsum_scal_l, <- rsum_plus. apply rsum_ext. intros; ring. }
  pose proof (power_unique _ _ _ _ _ V1 P2) as EP.
  (* static force *)
  assert (V2 : mean_power N (fun i _ => static_part h Fl i) vel 0).
  { apply (power_conservative N _ vel (fun t => w * rsum N (fun i => static_part h Fl i * series h (dof_coefs N U i) t))).
    - intros t. apply dlim_eq with (w * rsum N (fun i => static_part h Fl i * v i t)).
      + apply dlim_scal. apply (dlim_rsum N (fun i t => static_part h Fl i * series h (dof_coefs N U i) t) t (fun i => static_part h Fl i * v i t)). intros i Hi. apply dlim_scal. apply Hv. exact Hi.
      + rewrite <- rsum_scal_l. apply rsum_ext. intros i Hi. unfold vel. ring.
    - f_equal. apply rsum_ext. intros i Hi. f_equal. rewrite <- (Rplus_0_l (2 * PI)). apply (trig_period (list_max h)). apply trig_series. }
  assert (V3 : mean_power N (fun i _ => static_part h Fl i) vel (P + lsum (fun P => P) Ps)).
  { eapply power_ext; [|exact (power_plus N _ _ _ _ _ P1 (power_lsum N h _ Fs Ps HPs))]. intros i t Hi. cbv beta. f_equal. rewrite <- (Q1 i t Hi). f_equal.
    - pose proof (Q2 i t Hi) as Q. cbv beta in Q. rewrite Rplus_0_r in Q. rewrite Q. unfold motion, harmonic_force. rewrite X0. reflexivity.
    - unfold total_motion, Fs. unfold lsum. rewrite map_map. f_equal. apply map_ext. intros o. unfold motion, harmonic_force. rewrite X0. reflexivity. }
  pose proof (power_unique _ _ _ _ _ V2 V3). lra.
Qed.

(** * Kinetic energy *)
Definition harm2 (h : list nat) (c : nat) : R := INR (harm (nth c (components h) (Cos O))) ^ 2.

Lemma product_mean h (A B : vec) : NoDup h -> period_integral (fun t => series h A t * series h B t) (2 * PI * rsum (length (components h)) (fun c => B c * (A c / weight (nth c (components h) (Cos O))))).
Proof.
  intros Hd. rewrite <- rsum_scal_l.
  eapply integral_ext; [|apply (integral_rsum (length (components h)) (fun c t => B c * (series h A t * comp_fun (nth c (components h) (Cos O)) t)) (fun c => 2 * PI * (B c * (A c / weight (nth c (components h) (Cos O))))))].
  - intros t. unfold series at 3. rewrite <- rsum_scal_l. apply rsum_ext. intros c Hc. unfold basis. ring.
  - intros c Hc. replace (2 * PI * (B c * (A c / weight (nth c (components h) (Cos O))))) with (B c * (2 * PI * (A c / weight (nth c (components h) (Cos O))))) by ring.
    apply integral_scal. apply fourier_integral_of. apply series_integral; assumption.
Qed.

Lemma dseries_derivative h X t : derivable_pt_lim (dseries h X) t (- series h (fun c => harm2 h c * X c) t).
Proof.
  unfold dseries, series. rewrite <- rsum_opp.
  apply (dlim_rsum (length (components h)) (fun c t => X c * dbasis h c t) t (fun c => - (harm2 h c * X c * basis h c t))). intros c Hc.
  apply dlim_eq with (X c * (- (harm2 h c * basis h c t))); [|ring]. apply dlim_scal. unfold dbasis, basis, harm2. destruct (nth c (components h) (Cos O)) as [k|k]; cbn [comp_dfun comp_fun harm].
  - apply dlim_ext with (fun t => - INR k * sin (INR k * t)); [intros; ring|]. apply dlim_eq with (- INR k * (INR k * cos (INR k * t))); [|ring]. apply dlim_scal. apply dlim_sin_lin.
  - apply dlim_eq with (INR k * (- (INR k * sin (INR k * t)))); [|ring]. apply dlim_scal. apply dlim_cos_lin.
Qed.

Lemma velocity_dseries N h U v : phase_velocity N h U v -> forall j t, (j < N)%nat -> v j t = dseries h (dof_coefs N U j) t.
Proof. intros Hv j t Hj. apply (uniqueness_limite (series h (dof_coefs N U j)) t); [apply Hv; exact Hj|apply series_dseries]. Qed.

Lemma velocity_products h (A B : vec) : NoDup h ->
  period_integral (fun t => dseries h A t * dseries h B t) (2 * PI * rsum (length (components h)) (fun c => harm2 h c / weight (nth c (components h) (Cos O)) * (A c * B c))).
Proof.
  intros Hd. pose proof (product_mean h A (fun c => harm2 h c * B c) Hd) as P.
  assert (C : period_integral (fun t => dseries h A t * dseries h B t - series h A t * series h (fun c => harm2 h c * B c) t) 0).
  { exists (fun t => series h A t * dseries h B t). split.
    - intros t. apply dlim_eq with (dseries h A t * dseries h B t + series h A t * - series h (fun c => harm2 h c * B c) t); [|ring].
      apply dlim_mult; [apply series_dseries|apply dseries_derivative].
    - assert (T1 : series h A (2 * PI) = series h A 0) by (rewrite <- (Rplus_0_l (2 * PI)); apply (trig_period (list_max h)); apply trig_series).
      assert (T2 : dseries h B (2 * PI) = dseries h B 0).
      { rewrite <- (Rplus_0_l (2 * PI)). apply (trig_period (list_max h)). apply (trig_velocity (list_max h) (series h B)); [apply trig_series|intros; apply series_dseries]. }
      rewrite T1, T2. ring. }
  pose proof (integral_plus _ _ _ _ C P) as Q. rewrite Rplus_0_l in Q.
  replace (rsum (length (components h)) (fun c => harm2 h c / weight (nth c (components h) (Cos O)) * (A c * B c)))
    with (rsum (length (components h)) (fun c => harm2 h c * B c * (A c / weight (nth c (components h) (Cos O))))) by (apply rsum_ext; intros c _; unfold Rdiv; ring).
  eapply integral_ext; [|exact Q]. intros t. cbv beta. ring.
Qed.

(** mean of v'Mv by the coefficients of the motion *)
Lemma kinetic_sum N h U w v M P : NoDup h -> phase_velocity N h U v -> mean_power N (viscous N M (fun j tau => w * v j tau)) (fun j tau => w * v j tau) P ->
  P = w ^ 2 * rsum (length (components h)) (fun c => harm2 h c / weight (nth c (components h) (Cos O)) * rsum N (fun i => U (c * N + i)%nat * rsum N (fun j => M i j * U (c * N + j)%nat))).
Proof.
  intros Hd Hv H. pose proof PI_RGT_0. apply Rmult_eq_reg_l with (2 * PI); [|lra]. apply (integral_unique _ _ _ H). clear H.
  set (S := fun i j => rsum (length (components h)) (fun c => harm2 h c / weight (nth c (components h) (Cos O)) * (U (c * N + i)%nat * U (c * N + j)%nat))).
  assert (Q : period_integral (fun t => w ^ 2 * rsum N (fun i => rsum N (fun j => M i j * (dseries h (dof_coefs N U i) t * dseries h (dof_coefs N U j) t)))) (w ^ 2 * rsum N (fun i => rsum N (fun j => M i j * (2 * PI * S i j))))).
  { apply integral_scal. apply (integral_rsum N (fun i t => rsum N (fun j => M i j * (dseries h (dof_coefs N U i) t * dseries h (dof_coefs N U j) t)))). intros i Hi.
    apply (integral_rsum N (fun j t => M i j * (dseries h (dof_coefs N U i) t * dseries h (dof_coefs N U j) t))). intros j Hj. apply integral_scal. apply (velocity_products h (dof_coefs N U i) (dof_coefs N U j) Hd). }
  replace (2 * PI * _) with (w ^ 2 * rsum N (fun i => rsum N (fun j => M i j * (2 * PI * S i j)))).
  - eapply integral_ext; [|exact Q]. intros t. cbv beta. unfold viscous. rewrite <- rsum_scal_l. apply rsum_ext. intros i Hi. rewrite <- rsum_scal_r, <- rsum_scal_l. apply rsum_ext. intros j Hj.
    rewrite !(velocity_dseries N h U v Hv) by assumption. ring.
  - rewrite <- (Rmult_assoc (2 * PI) (w ^ 2)), (Rmult_comm (2 * PI) (w ^ 2)), (Rmult_assoc (w ^ 2) (2 * PI)). f_equal. rewrite <- rsum_scal_l.
    rewrite (rsum_ext N _ (fun i => rsum (length (components h)) (fun c => rsum N (fun j => 2 * PI * (harm2 h c / weight (nth c (components h) (Cos O)) * (U (c * N + i)%nat * (M i j * U (c * N + j)%nat))))))).
    + rewrite rsum_swap. apply rsum_ext. intros c Hc. rewrite <- !rsum_scal_l. apply rsum_ext. intros i Hi. rewrite <- !rsum_scal_l. reflexivity.
    + intros i Hi. rewrite rsum_swap. apply rsum_ext. intros j Hj. unfold S. rewrite <- !rsum_scal_l. apply rsum_ext. intros c Hc. ring.
Qed.

Lemma kinetic_bound N h U w v M P : admissible h -> starts_with_1 h -> positive_semidefinite N M -> phase_velocity N h U v ->
  mean_power N (viscous N M (fun j tau => w * v j tau)) (fun j tau => w * v j tau) P -> w ^ 2 / 2 * modal_mass N h M U <= P.
Proof.
  intros Ha H1 HM Hv HP. rewrite (kinetic_sum N h U w v M P (proj1 (proj2 Ha)) Hv HP). rewrite <- (modal_mass_eq N h M U Ha H1).
  unfold Rdiv. rewrite !Rmult_assoc. apply Rmult_le_compat_l; [apply pow2_ge_0|]. unfold dot, matvec.
  set (q := fun c => rsum N (fun i => U (c * N + i)%nat * rsum N (fun j => M i j * U (c * N + j)%nat))).
  assert (Hq : forall c, 0 <= q c) by (intros c; apply (HM (fun i => U (c * N + i)%nat))).
  assert (Hg : forall c, 0 <= harm2 h c / weight (nth c (components h) (Cos O)) * q c).
  { intros c. apply Rmult_le_pos; [|apply Hq]. pose proof (weight_pos (nth c (components h) (Cos O))). unfold Rdiv. apply Rmult_le_pos; [apply pow2_ge_0|]. left. apply Rinv_0_lt_compat. assumption. }
  change (/ 2 * (q (zi h) + q (zi h + 1)%nat) <= rsum (length (components h)) (fun c => harm2 h c / weight (nth c (components h) (Cos O)) * q c)).
  assert (L : forall m r, (length (components h) = m + (2 + r))%nat -> (forall c, (c < 2)%nat -> harm2 h (m + c) / weight (nth (m + c) (components h) (Cos O)) = / 2) -> / 2 * (q m + q (m + 1)%nat) <= rsum (length (components h)) (fun c => harm2 h c / weight (nth c (components h) (Cos O)) * q c)).
  { intros m r E Hc. rewrite E, rsum_split, rsum_split. pose proof (rsum_nonneg m _ (fun c _ => Hg c)) as A.
    pose proof (rsum_nonneg r (fun i => harm2 h (m + (2 + i)) / weight (nth (m + (2 + i)) (components h) (Cos 0)) * q (m + (2 + i))%nat) (fun c _ => Hg _)) as B. cbn [rsum] in *. rewrite !Hc by lia. rewrite Nat.add_0_r. lra. }
  destruct H1 as (rest & [-> | ->]); unfold zi; cbn [hd Nat.eqb].
  - apply (L 0%nat (length (components rest))); [reflexivity|]. intros [|[|c]] Hc; [| |lia]; unfold harm2; cbn; field.
  - apply (L 1%nat (length (components rest))); [reflexivity|]. intros [|[|c]] Hc; [| |lia]; unfold harm2; cbn; field.
Qed.

Lemma scaled_mass N h M X la : admissible h -> starts_with_1 h -> modal_mass N h M (amplitude_scaled N h X la) = Rpower 10 la ^ 2 * modal_mass N h M X.
Proof.
  intros Ha H1. rewrite <- !(modal_mass_eq N h M) by assumption.
  assert (E : forall m i, (m < 2)%nat -> (i < N)%nat -> amplitude_scaled N h X la ((zi h + m) * N + i)%nat = Rpower 10 la * X ((zi h + m) * N + i)%nat).
  { intros m i Hm Hi. unfold amplitude_scaled. destruct (in_dec Nat.eq_dec O h) as [I|I]; [|reflexivity].
    assert (Z : zi h = 1%nat). { destruct Ha as (_ & _ & Hz). destruct h as [|k h']; [destruct I|]. cbn [tl] in Hz. unfold zi. cbn [hd]. destruct I as [->|I]; [reflexivity|contradiction]. }
    rewrite Z. replace (Nat.ltb ((1 + m) * N + i) N) with false; [reflexivity|]. symmetry. apply Nat.ltb_ge. nia. }
  assert (D : forall m, (m < 2)%nat -> dot N (fun i => amplitude_scaled N h X la ((zi h + m) * N + i)%nat) (matvec N M (fun i => amplitude_scaled N h X la ((zi h + m) * N + i)%nat))
     = Rpower 10 la ^ 2 * dot N (fun i => X ((zi h + m) * N + i)%nat) (matvec N M (fun i => X ((zi h + m) * N + i)%nat))).
  { intros m Hm. unfold dot, matvec. rewrite <- rsum_scal_l. apply rsum_ext. intros i Hi. rewrite E by assumption. rewrite (rsum_ext N _ (fun j => Rpower 10 la * (M i j * X ((zi h + m) * N + j)%nat))) by (intros j Hj; rewrite E by assumption; ring).
    rewrite rsum_scal_l. ring. }
  pose proof (D 0%nat ltac:(lia)) as D0. pose proof (D 1%nat ltac:(lia)) as D1. rewrite Nat.add_0_r in D0. rewrite D0, D1. ring.
Qed.

(** the damping of EPMC is the dissipated power by the kinetic energy, hence not negative for dissipative systems *)
Lemma epmc_damping s h Nt X Fl outs v Rr G : admissible h -> starts_with_1 h ->
  let N := vs_N s in let n := (length (components h) * N)%nat in let w := X n in let xi := X (n + 1)%nat in
  let U := amplitude_scaled N h X (X (n + 2)%nat) in let vel := fun j tau => w * v j tau in
  w <> 0 -> symmetric_matrix N (vs_M s) -> symmetric_matrix N (vs_K s) -> positive_semidefinite N (vs_M s) -> phase_velocity N h U v ->
  Forall2 (fun f o => nl_aft f (take n U) w h Nt = Ok o) (vs_forces s) outs ->
  epmc_res s X Fl h Nt true = Ok (Rr, Some G) -> (forall i, (i < n + 2)%nat -> Rr i = 0) ->
  exists Pm Pc Ps, mean_power N (viscous N (vs_M s) vel) vel Pm /\ mean_power N (viscous N (vs_C s) vel) vel Pc /\
    Forall2 (fun o P => mean_power N (harmonic_force N h (fst (fst o))) vel P) outs Ps /\
    (w * Rpower 10 (X (n + 2)%nat)) ^ 2 / 2 <= Pm /\ xi = (Pc + lsum (fun P => P) Ps) / Pm /\
    (positive_semidefinite N (vs_C s) -> Forall (fun P => 0 <= P) Ps -> 0 <= xi).
Proof.
  intros Ha H1 N n w xi U vel Hw HM HK HP Hv Ho HR H0.
  destruct (epmc_balance s h Nt X Fl outs v Rr G Ha H1 Hw HM HK Hv Ho HR H0) as (Pm & Pc & Ps & P1 & P2 & P3 & E). fold N n w xi U vel in P1, P2, P3, E.
  exists Pm, Pc, Ps. split; [exact P1|]. split; [exact P2|]. split; [exact P3|].
  assert (B : (w * Rpower 10 (X (n + 2)%nat)) ^ 2 / 2 <= Pm).
  { destruct (epmc_zero s h Nt X Fl outs Ha H1 Hw Ho) as (Rr' & G' & HR' & HE). rewrite HR in HR'. injection HR' as <- <-. destruct (proj1 HE H0) as (_ & MM & _). fold N in MM.
    pose proof (kinetic_bound N h U w v (vs_M s) Pm Ha H1 HP Hv P1) as K. unfold U in K. rewrite (scaled_mass N h (vs_M s) X _ Ha H1), MM in K. fold n in K. eapply Rle_trans; [|exact K]. right. field. }
  assert (Pos : 0 < Pm).
  { eapply Rlt_le_trans; [|exact B]. assert (0 < (w * Rpower 10 (X (n + 2)%nat)) ^ 2); [|lra]. rewrite <- Rsqr_pow2. apply Rlt_0_sqr. intros Z. apply Rmult_integral in Z. destruct Z as [Z|Z]; [exact (Hw Z)|]. unfold Rpower in Z. pose proof (exp_pos (X (n + 2)%nat * ln 10)). lra. }
  split; [exact B|]. assert (Ex : xi = (Pc + lsum (fun P => P) Ps) / Pm) by (rewrite <- E; field; lra). split; [exact Ex|]. intros HC HPs. rewrite Ex.
  unfold Rdiv. apply Rmult_le_pos; [|left; apply Rinv_0_lt_compat; exact Pos]. apply Rplus_le_le_0_compat.
  - exact (viscous_nonneg N (vs_C s) vel Pc HC P2).
  - exact (lsum_nonneg Ps HPs).
Qed.
