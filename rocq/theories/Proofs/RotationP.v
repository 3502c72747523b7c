(** Harmonic forces of delayed motions. *)
From Coq Require Import Reals ZArith Lra Lia Arith List FunctionalExtensionality.
From Verif.Lib Require Import RSum Py Calc.
From Verif.Spec Require Import Calculus Harmonic Elements Slider System Galerkin Rotation.
From Verif.Model Require Import Harmonic LocalForces Aft VibSys SysElements Jenkins Iwan JaxFriction SysHistory SysHarmonic.
From Verif.Proofs Require Import HystAftP IwanAftP EldryP JaxFrictionP ElementsP VibSysP HarmonicP FourierP HarmonicOpsP AftP SliderP SliderShiftP TrigPolyP GalerkinP.
Import ListNotations.
Open Scope R_scope.

(** * The reproducing kernel of a harmonic list *)
Definition weight (c : comp) : R := match c with Cos O => 1 | _ => 2 end.
Definition dirichlet (k : nat) (t : R) : R := match k with O => 1 | _ => 2 * cos (INR k * t) end.
Definition kernel (h : list nat) (t : R) : R := lsum (fun k => dirichlet k t) h.

Lemma lsum_app {A} (f : A -> R) l m : lsum f (l ++ m) = lsum f l + lsum f m.
Proof. unfold lsum. induction l as [|x l IH]; cbn; [lra|]. rewrite IH. lra. Qed.

Lemma rsum_nth {A} (f : A -> R) l d : rsum (length l) (fun c => f (nth c l d)) = lsum f l.
Proof.
  induction l as [|x l IH]; [reflexivity|]. cbn [length]. rewrite rsum_S_l. unfold lsum. cbn [nth map fold_right]. f_equal. exact IH.
Qed.

Lemma kernel_sum h t s : rsum (length (components h)) (fun c => weight (nth c (components h) (Cos O)) * basis h c t * comp_fun (nth c (components h) (Cos O)) s) = kernel h (t - s).
Proof.
  unfold basis. rewrite (rsum_nth (fun c => weight c * comp_fun c t * comp_fun c s)). induction h as [|k h IH]; [reflexivity|].
  unfold components, kernel. cbn [flat_map]. rewrite lsum_app. unfold components, kernel in IH. rewrite IH. unfold lsum at 3. cbn [map fold_right]. f_equal.
  destruct k; unfold lsum; cbn [map fold_right weight comp_fun dirichlet].
  - rewrite !Rmult_0_l, cos_0. lra.
  - rewrite Rmult_minus_distr_l, cos_minus. ring.
Qed.

Lemma dirichlet_period k t : dirichlet k (t + 2 * PI) = dirichlet k t.
Proof. destruct k; [reflexivity|]. cbn [dirichlet]. f_equal. replace (INR (S k) * (t + 2 * PI)) with (INR (S k) * t + 2 * PI * INR (S k)) by ring. apply cos_period_nat. Qed.

Lemma kernel_period h t : kernel h (t + 2 * PI) = kernel h t.
Proof. unfold kernel, lsum. f_equal. apply map_ext. intros k. apply dirichlet_period. Qed.

(** the function with the discrete Fourier coefficients of x *)
Lemma coefs_kernel h Nt x t : series h (fun c => fourier_coef Nt x (nth c (components h) (Cos O))) t
  = / INR Nt * rsum Nt (fun n => x n * kernel h (t - sample_phase Nt n)).
Proof.
  unfold series, fourier_coef. rewrite <- rsum_scal_l.
  rewrite (rsum_ext Nt _ (fun n => rsum (length (components h)) (fun c => / INR Nt * (x n * (weight (nth c (components h) (Cos O)) * basis h c t * comp_fun (nth c (components h) (Cos O)) (sample_phase Nt n)))))).
  2:{ intros n _. rewrite <- kernel_sum. rewrite <- !rsum_scal_l. reflexivity. }
  rewrite rsum_swap. apply rsum_ext. intros c _. fold (weight (nth c (components h) (Cos O))). unfold Rdiv.
  rewrite <- rsum_scal_l. rewrite <- rsum_scal_r. apply rsum_ext. intros n _. ring.
Qed.

(** sums over a period *)
Lemma rsum_turn N g : (forall n, g (N + n)%nat = g n) -> forall K, rsum N (fun n => g (K + n)%nat) = rsum N g.
Proof.
  intros Hg. induction K as [|K IH]; [reflexivity|]. rewrite <- IH. destruct N as [|N]; [reflexivity|].
  rewrite rsum_S, (rsum_S_l N (fun n => g (K + n)%nat)). rewrite (rsum_ext N (fun n => g (S K + n)%nat) (fun n => g (K + S n)%nat)) by (intros; f_equal; lia).
  replace (S K + N)%nat with (S N + K)%nat by lia. rewrite Hg. rewrite Nat.add_0_r. lra.
Qed.

Lemma sample_plus Nt a b : sample_phase Nt (a + b) = sample_phase Nt a + sample_phase Nt b.
Proof. unfold sample_phase. rewrite plus_INR. unfold Rdiv. ring. Qed.

Lemma sample_all Nt : (0 < Nt)%nat -> sample_phase Nt Nt = 2 * PI.
Proof. intros H. unfold sample_phase. field. apply not_0_INR. lia. Qed.

(** samples taken K steps later *)
Lemma coefs_later h Nt (x : nat -> R) K t : (0 < Nt)%nat -> (forall n, x (Nt + n)%nat = x n) ->
  series h (fun c => fourier_coef Nt (fun n => x (K + n)%nat) (nth c (components h) (Cos O))) t
  = series h (fun c => fourier_coef Nt x (nth c (components h) (Cos O))) (t + sample_phase Nt K).
Proof.
  intros HN Hx. rewrite !coefs_kernel. f_equal.
  rewrite <- (rsum_turn Nt (fun n => x n * kernel h (t + sample_phase Nt K - sample_phase Nt n))) with (K := K).
  - apply rsum_ext. intros n _. rewrite sample_plus. do 2 f_equal. lra.
  - intros n. rewrite Hx, sample_plus, (sample_all Nt HN). f_equal.
    rewrite <- (kernel_period h (t + sample_phase Nt K - (2 * PI + sample_phase Nt n))). f_equal. lra.
Qed.

(** a whole number of samples is an advance by K samples up to full periods *)
Lemma comp_fun_period c t z : comp_fun c (t + 2 * PI * IZR z) = comp_fun c t.
Proof.
  assert (P : forall n, comp_fun c (t + 2 * PI * INR n) = comp_fun c t).
  { intros n. destruct c as [k|k]; cbn [comp_fun].
    - replace (INR k * (t + 2 * PI * INR n)) with (INR k * t + 2 * PI * INR (k * n)) by (rewrite mult_INR; ring). apply cos_period_nat.
    - replace (INR k * (t + 2 * PI * INR n)) with (INR k * t + 2 * PI * INR (k * n)) by (rewrite mult_INR; ring). apply sin_period_nat. }
  assert (M : forall n s, comp_fun c (s - 2 * PI * INR n) = comp_fun c s).
  { intros n s. destruct c as [k|k]; cbn [comp_fun].
    - rewrite <- (cos_period_nat (INR k * (s - 2 * PI * INR n)) (k * n)). f_equal. rewrite mult_INR. ring.
    - rewrite <- (sin_period_nat (INR k * (s - 2 * PI * INR n)) (k * n)). f_equal. rewrite mult_INR. ring. }
  destruct (Z_le_gt_dec 0 z) as [L|L].
  - rewrite <- (Z2Nat.id z L), <- INR_IZR_INZ. apply P.
  - replace (IZR z) with (- INR (Z.to_nat (- z))) by (rewrite INR_IZR_INZ, Z2Nat.id by lia; rewrite opp_IZR; lra).
    replace (t + 2 * PI * - INR (Z.to_nat (- z))) with (t - 2 * PI * INR (Z.to_nat (- z))) by ring. apply M.
Qed.

Lemma series_period h X t z : series h X (t + 2 * PI * IZR z) = series h X t.
Proof. apply rsum_ext. intros c _. unfold basis. rewrite comp_fun_period. reflexivity. Qed.

Lemma whole_advance Nt p : (0 < Nt)%nat -> whole_samples Nt p -> exists K z, p = - sample_phase Nt K + 2 * PI * IZR z.
Proof.
  intros HN [m ->]. assert (HR : INR Nt <> 0) by (apply not_0_INR; lia).
  exists (Z.to_nat ((- m) mod Z.of_nat Nt)), (- ((- m) / Z.of_nat Nt))%Z.
  assert (B : (0 <= (- m) mod Z.of_nat Nt < Z.of_nat Nt)%Z) by (apply Z.mod_pos_bound; lia).
  unfold sample_phase. rewrite (INR_IZR_INZ (Z.to_nat _)), Z2Nat.id by lia.
  pose proof (Z.div_mod (- m) (Z.of_nat Nt) ltac:(lia)) as D. set (r := ((- m) mod Z.of_nat Nt)%Z) in *. set (q := ((- m) / Z.of_nat Nt)%Z) in *.
  replace m with (- (Z.of_nat Nt * q + r))%Z by lia. rewrite !opp_IZR, plus_IZR, mult_IZR, <- INR_IZR_INZ. field. exact HR.
Qed.


Lemma finite_choice {A} (P : nat -> A -> Prop) (a0 : A) m : (forall i, (i < m)%nat -> exists a, P i a) -> exists f, forall i, (i < m)%nat -> P i (f i).
Proof.
  induction m as [|m IH]; intros H; [exists (fun _ => a0); intros; lia|].
  destruct IH as [f Hf]; [intros i Hi; apply H; lia|]. destruct (H m ltac:(lia)) as [a Ha].
  exists (fun i => if Nat.eqb i m then a else f i). intros i Hi. destruct (Nat.eqb_spec i m) as [->|N]; [exact Ha|apply Hf; lia].
Qed.

Lemma first_component h : admissible h -> In O h -> (0 < length (components h))%nat /\ nth 0 (components h) (Cos O) = Cos O.
Proof.
  intros (Hne & _ & Hz) H0. destruct h as [|k h]; [congruence|]. destruct H0 as [->|H0]; [|contradiction]. cbn. split; [lia|reflexivity].
Qed.

Lemma coef_constant h Nt a c : (list_max h < Nt)%nat -> ~ In O h -> (c < length (components h))%nat -> fourier_coef Nt (fun _ => a) (nth c (components h) (Cos O)) = 0.
Proof.
  intros HN H0 Hc. destruct (in_components h _ (nth_In (components h) (Cos O) Hc)) as [Hi _]. pose proof (harm_max h _ (nth_In (components h) (Cos O) Hc)) as Hm.
  unfold fourier_coef. rewrite rsum_scal_l. destruct (nth c (components h) (Cos O)) as [[|k]|[|k]]; cbn [harm comp_fun] in *; try contradiction.
  - rewrite sum_cos by lia. ring.
  - rewrite sum_sin by lia. ring.
Qed.

Section Delay.
  Variables (N : nat) (h : list nat) (Nt : nat) (p : R) (K : nat) (z : Z).
  Hypothesis Ha : admissible h.
  Hypothesis HN : (2 * list_max h + 1 < Nt)%nat.
  Hypothesis Hp : p = - sample_phase Nt K + 2 * PI * IZR z.
  Let nhc := length (components h).

  Lemma delayed_samples (F G : vec) (x y : nat -> nat -> R) (a : nat -> R) :
    (forall c i, (c < nhc)%nat -> (i < N)%nat -> F (c * N + i)%nat = fourier_coef Nt (x i) (nth c (components h) (Cos O))) ->
    (forall c i, (c < nhc)%nat -> (i < N)%nat -> G (c * N + i)%nat = fourier_coef Nt (y i) (nth c (components h) (Cos O))) ->
    (forall i n, (i < N)%nat -> x i (Nt + n)%nat = x i n) -> (forall i n, (i < N)%nat -> (n < Nt)%nat -> y i n = x i (K + n)%nat + a i) ->
    (In O h -> forall i, (i < N)%nat -> a i = 0) -> delayed N h p F G.
  Proof.
    intros HF HG Hx Hy Hc d t Hd.
    transitivity (series h (fun c => fourier_coef Nt (fun n => x d (K + n)%nat) (nth c (components h) (Cos O))) t).
    { apply rsum_ext. intros c Lc. unfold dof_coefs. f_equal. rewrite HG by assumption.
      rewrite (fourier_coef_ext Nt (y d) (fun n => x d (K + n)%nat + a d)) by (intros n Hn; apply Hy; assumption).
      rewrite (fourier_coef_plus Nt (fun n => x d (K + n)%nat) (fun _ => a d)).
      destruct (in_dec Nat.eq_dec O h) as [I|I].
      - rewrite (Hc I d Hd). replace (fourier_coef Nt (fun _ => 0) (nth c (components h) (Cos O))) with 0; [ring|].
        unfold fourier_coef. rewrite (rsum_zero Nt) by (intros; ring). ring.
      - rewrite (coef_constant h Nt (a d) c ltac:(lia) I Lc). ring. }
    rewrite coefs_later by (try lia; intros n; apply Hx; exact Hd).
    rewrite Hp. replace (t - (- sample_phase Nt K + 2 * PI * IZR z)) with (t + sample_phase Nt K + 2 * PI * IZR (- z)) by (rewrite opp_IZR; ring). rewrite series_period.
    apply rsum_ext. intros c Lc. unfold dof_coefs. f_equal. symmetry. apply HF; assumption.
  Qed.

  Variables (U V : vec).
  Hypothesis HUV : delayed N h p U V.

  Lemma series_advance d t : (d < N)%nat -> series h (dof_coefs N V d) t = series h (dof_coefs N U d) (t + sample_phase Nt K).
  Proof.
    intros Hd. rewrite (HUV d t Hd), Hp. replace (t - (- sample_phase Nt K + 2 * PI * IZR z)) with (t + sample_phase Nt K + 2 * PI * IZR (- z)) by (rewrite opp_IZR; ring). apply series_period.
  Qed.

  Lemma series_samples X n : series h X (sample_phase Nt (Nt + n)) = series h X (sample_phase Nt n).
  Proof. rewrite sample_plus, (sample_all Nt) by lia. rewrite <- (series_period h X (sample_phase Nt n) 1). f_equal. ring. Qed.

  Lemma series_mod X k : series h X (sample_phase Nt (k mod Nt)) = series h X (sample_phase Nt k).
  Proof.
    rewrite (Nat.div_mod k Nt) at 2 by lia. generalize (k / Nt)%nat. intros q. induction q as [|q IH]; [rewrite Nat.mul_0_r; reflexivity|].
    rewrite IH. replace (Nt * S q + k mod Nt)%nat with (Nt + (Nt * q + k mod Nt))%nat by lia. symmetry. apply series_samples.
  Qed.

  Definition at_samples (Q : mat) (d k : nat) : R := local_motion N Q h U d (sample_phase Nt k).

  Lemma repeat_U Q d : repeat_samples Nt (fun n => local_motion N Q h U d (sample_phase Nt n)) = at_samples Q d.
  Proof. apply functional_extensionality. intros k. unfold repeat_samples, at_samples, local_motion. apply rsum_ext. intros j _. f_equal. apply series_mod. Qed.

  Lemma repeat_V Q d : repeat_samples Nt (fun n => local_motion N Q h V d (sample_phase Nt n)) = fun k => at_samples Q d (K + k).
  Proof.
    apply functional_extensionality. intros k. unfold repeat_samples, at_samples, local_motion. apply rsum_ext. intros j Hj. f_equal.
    rewrite series_mod, series_advance by exact Hj. rewrite sample_plus. f_equal. lra.
  Qed.

  Lemma at_samples_period Q d : periodic Nt (at_samples Q d).
  Proof. intros k. unfold at_samples, local_motion. apply rsum_ext. intros j _. f_equal. apply series_samples. Qed.

  Lemma same_mean : In O h -> forall j, (j < N)%nat -> V j = U j.
  Proof.
    intros H0 j Hj. destruct (first_component h Ha H0) as [L E]. pose proof Ha as (_ & Hd & _).
    pose proof (series_coef Nt h (dof_coefs N U j) 0 Hd ltac:(lia) L) as SU. pose proof (series_coef Nt h (dof_coefs N V j) 0 Hd ltac:(lia) L) as SV.
    rewrite E in SU, SV. unfold dof_coefs at 2 in SU. unfold dof_coefs at 2 in SV. cbn [Nat.mul Nat.add] in SU, SV. rewrite <- SU, <- SV.
    unfold fourier_coef. f_equal. cbn [comp_fun INR].
    rewrite (rsum_ext Nt (fun n => series h (dof_coefs N U j) (sample_phase Nt n) * _) (fun n => series h (dof_coefs N U j) (sample_phase Nt n))) by (intros; rewrite Rmult_0_l, cos_0; ring).
    rewrite <- (rsum_turn Nt (fun n => series h (dof_coefs N U j) (sample_phase Nt n))) with (K := K) by (intros n; apply series_samples).
    apply rsum_ext. intros n Hn. rewrite Rmult_0_l, cos_0, series_advance by exact Hj. rewrite sample_plus, Rmult_1_r. f_equal. lra.
  Qed.

  (** friction elements *)
  Lemma friction_periodic kt lo hi u u0 k : (forall i, lo i <= hi i) -> periodic Nt lo -> periodic Nt hi -> periodic Nt u ->
    slider kt lo hi u u0 (Nt + (Nt + k)) = slider kt lo hi u u0 (Nt + k).
  Proof.
    intros Hl P1 P2 P3. rewrite <- (slider_shift kt Nt lo hi u ltac:(lia) Hl P1 P2 P3 u0 Nt k).
    f_equal; apply functional_extensionality; intros i; [apply P1|apply P2|apply P3].
  Qed.

  Lemma jenkins_delay kt Fs Q d u0 u1 : 0 <= Fs -> exists a, (u0 = u1 -> a = 0) /\
    forall k, jenkins_law kt Fs (fun k => at_samples Q d (K + k)) u1 (Nt + k) = jenkins_law kt Fs (at_samples Q d) u0 (Nt + (K + k)) + a.
  Proof.
    intros HF. apply (slider_starts kt Nt (fun _ => - Fs) (fun _ => Fs) (at_samples Q d)); [lia|intros; lra|intros k; reflexivity|intros k; reflexivity|apply at_samples_period].
  Qed.

  Lemma jenkins_period kt Fs Q d u0 k : 0 <= Fs -> jenkins_law kt Fs (at_samples Q d) u0 (Nt + (Nt + k)) = jenkins_law kt Fs (at_samples Q d) u0 (Nt + k).
  Proof. intros HF. apply friction_periodic; [intros; lra|intros i; reflexivity|intros i; reflexivity|apply at_samples_period]. Qed.

  Lemma first_same (Q : mat) d : In O h -> rsum N (fun j => Q d j * U j) = rsum N (fun j => Q d j * V j).
  Proof. intros H0. apply rsum_ext. intros j Hj. f_equal. symmetry. apply same_mean; assumption. Qed.

  Lemma delayed_scaled (s : nat -> R) (x y : nat -> R) (a : R) (F G : vec) :
    (forall c i, (c < nhc)%nat -> (i < N)%nat -> F (c * N + i)%nat = s i * fourier_coef Nt x (nth c (components h) (Cos O))) ->
    (forall c i, (c < nhc)%nat -> (i < N)%nat -> G (c * N + i)%nat = s i * fourier_coef Nt y (nth c (components h) (Cos O))) ->
    (forall n, x (Nt + n)%nat = x n) -> (forall n, y n = x (K + n)%nat + a) -> (In O h -> a = 0) -> delayed N h p F G.
  Proof.
    intros HF HG Hx Hy Hc. apply (delayed_samples F G (fun i n => s i * x n) (fun i n => s i * y n) (fun i => s i * a)).
    - intros c i Lc Li. rewrite fourier_coef_scal. apply HF; assumption.
    - intros c i Lc Li. rewrite fourier_coef_scal. apply HG; assumption.
    - intros i n _. rewrite Hx. reflexivity.
    - intros i n _ _. rewrite Hy. ring.
    - intros H0 i _. rewrite (Hc H0). ring.
  Qed.

  Lemma jenkins_forces Q T s w : Nat.even Nt = true -> steady_evaluation N h Nt (ElJenkins Q T s) U -> steady_evaluation N h Nt (ElJenkins Q T s) V ->
    forces_delayed N h Nt p w U V (ElJenkins Q T s).
  Proof.
    intros He [HF HU] [_ HV]. cbv zeta in HU, HV. destruct (jenkins_aft_exact s N Q T h Nt Ha HN He HF) as (st & F & dU & E & HA & _).
    exists (ElJenkins Q T (st U)), (F U), (ElJenkins Q T (st V)), (F V). cbn [element_aft]. rewrite !E. cbn [bind fst]. split; [reflexivity|]. split; [reflexivity|].
    pose proof (HA U HU) as AU. pose proof (HA V HV) as AV. clear HU HV HA. rewrite repeat_U in AU. rewrite repeat_V in AV.
    destruct (jenkins_delay (j_kt s) (j_Fs s) Q 0 (local_first_coef N Q U) (local_first_coef N Q V) HF) as (a & Ea & Hl).
    apply (delayed_scaled (fun i => T i O) (fun n => jenkins_law (j_kt s) (j_Fs s) (at_samples Q 0) (local_first_coef N Q U) (Nt + n))
      (fun n => jenkins_law (j_kt s) (j_Fs s) (fun k => at_samples Q 0 (K + k)) (local_first_coef N Q V) (Nt + n)) a); [exact AU|exact AV| |exact Hl|].
    - intros n. apply jenkins_period. exact HF.
    - intros H0. apply Ea. apply first_same. exact H0.
  Qed.

  Lemma jax_jenkins_forces Q T kt u0 Fs rf pf w : Nat.even Nt = true -> steady_evaluation N h Nt (ElJaxJenkins Q T kt u0 Fs rf pf) U ->
    forces_delayed N h Nt p w U V (ElJaxJenkins Q T kt u0 Fs rf pf).
  Proof.
    intros He [HF H2]. destruct (jax_jenkins_exact N Q T kt Fs u0 h Nt Ha HN He H2 HF) as (F & dU & dw & E & HA & _).
    exists (ElJaxJenkins Q T kt u0 Fs rf pf), (F U w), (ElJaxJenkins Q T kt u0 Fs rf pf), (F V w). cbn [element_aft]. rewrite !E. cbn [bind fst]. split; [reflexivity|]. split; [reflexivity|].
    destruct (HA U w) as [_ AU]. destruct (HA V w) as [_ AV]. clear HA. cbv zeta in AU, AV. rewrite repeat_U in AU. rewrite repeat_V in AV.
    set (s0 := match u0 with None => local_first_coef N Q U | Some x => x end) in *. set (s1 := match u0 with None => local_first_coef N Q V | Some x => x end) in *.
    destruct (jenkins_delay kt Fs Q 0 s0 s1 HF) as (a & Ea & Hl).
    apply (delayed_scaled (fun i => T i O) (fun n => jenkins_law kt Fs (at_samples Q 0) s0 (Nt + n))
      (fun n => jenkins_law kt Fs (fun k => at_samples Q 0 (K + k)) s1 (Nt + n)) a); [exact AU|exact AV| |exact Hl|].
    - intros n. apply jenkins_period. exact HF.
    - intros H0. apply Ea. unfold s0, s1. destruct u0; [reflexivity|]. apply first_same. exact H0.
  Qed.

  Lemma iwan_forces Q T s w : Nat.even Nt = true -> steady_evaluation N h Nt (ElIwan Q T s) U -> steady_evaluation N h Nt (ElIwan Q T s) V ->
    forces_delayed N h Nt p w U V (ElIwan Q T s).
  Proof.
    intros He [HF HU] [_ HV]. cbv zeta in HU, HV. destruct (iwan_aft_exact s N Q T h Nt Ha HN He HF) as (st & F & dU & E & HA & _).
    exists (ElIwan Q T (st U)), (F U), (ElIwan Q T (st V)), (F V). cbn [element_aft]. rewrite !E. cbn [bind fst]. split; [reflexivity|]. split; [reflexivity|].
    pose proof (HA U HU) as AU. pose proof (HA V HV) as AV. clear HU HV HA. rewrite repeat_U in AU. rewrite repeat_V in AV.
    destruct (finite_choice _ 0 (iw_n s) (fun i Hi => jenkins_delay 1 (iw_phi s i) Q 0 (local_first_coef N Q U) (local_first_coef N Q V) (HF i Hi))) as (a & Hl).
    apply (delayed_scaled (fun i => T i O) (fun n => bank_law (iw_n s) (iw_w s) (iw_phi s) (at_samples Q 0) (local_first_coef N Q U) (Nt + n))
      (fun n => bank_law (iw_n s) (iw_w s) (iw_phi s) (fun k => at_samples Q 0 (K + k)) (local_first_coef N Q V) (Nt + n)) (rsum (iw_n s) (fun i => iw_w s i * a i))); [exact AU|exact AV| | |].
    - intros n. apply rsum_ext. intros i Hi. f_equal. apply jenkins_period. apply HF. exact Hi.
    - intros n. unfold bank_law. rewrite <- rsum_plus. apply rsum_ext. intros i Hi. destruct (Hl i Hi) as [_ ->]. ring.
    - intros H0. apply rsum_zero. intros i Hi. destruct (Hl i Hi) as [Ea _]. rewrite Ea; [ring|]. apply first_same. exact H0.
  Qed.

  Lemma contact_nonneg kn gap u : 0 < kn -> 0 <= contact_force kn gap u.
  Proof. intros H. unfold contact_force. destruct (Rlt_dec gap u); [|lra]. apply Rmult_le_pos; lra. Qed.

  Lemma contact_delay q kt kn mu gap Q d (s0 s1 : nat -> R) : 0 < kn -> 0 <= mu ->
    (exists a, (s0 d = s1 d -> a = 0) /\ forall k, contact_history q kt kn mu gap (fun d k => at_samples Q d (K + k)) s1 d (Nt + k) = contact_history q kt kn mu gap (at_samples Q) s0 d (Nt + (K + k)) + a) /\
    forall k, contact_history q kt kn mu gap (at_samples Q) s0 d (Nt + (Nt + k)) = contact_history q kt kn mu gap (at_samples Q) s0 d (Nt + k).
  Proof.
    intros Hk Hm. unfold contact_history. set (fn := fun k => contact_force kn gap (at_samples Q (normal_dof q d) k)).
    assert (Pf : periodic Nt fn) by (intros k; unfold fn; rewrite (at_samples_period Q (normal_dof q d) k); reflexivity).
    destruct (Nat.eqb d (normal_dof q d)).
    - split; [|intros k; unfold fn; rewrite (at_samples_period Q (normal_dof q d) (Nt + k)%nat); reflexivity]. exists 0. split; [reflexivity|]. intros k. unfold fn.
      replace (K + (Nt + k))%nat with (Nt + (K + k))%nat by lia. lra.
    - assert (Hl : forall i, - (mu * fn i) <= mu * fn i) by (intros i; pose proof (Rmult_le_pos mu (fn i) Hm (contact_nonneg kn gap _ Hk)); lra).
      assert (P1 : periodic Nt (fun k => - (mu * fn k))) by (intros k; rewrite Pf; reflexivity). assert (P2 : periodic Nt (fun k => mu * fn k)) by (intros k; rewrite Pf; reflexivity).
      split; [|intros k; apply friction_periodic; [exact Hl|exact P1|exact P2|apply at_samples_period]].
      apply (slider_starts kt Nt (fun k => - (mu * fn k)) (fun k => mu * fn k) (at_samples Q d) ltac:(lia) Hl P1 P2 (at_samples_period Q d) (s0 d) (s1 d) K).
  Qed.

  Lemma eldry_forces q ne Q T s w : Nat.even Nt = true -> steady_evaluation N h Nt (ElEldry q ne Q T s) U -> forces_delayed N h Nt p w U V (ElEldry q ne Q T s).
  Proof.
    intros He (H1 & H2 & H3 & H4 & H5). set (P := ed_pars s) in *. destruct (eldry_aft_exact q ne N Q T P (ed_u0 s) h Nt H1 H2 Ha HN He H5 H3 H4) as (F & dU & dw & E & HA & _).
    exists (ElEldry q ne Q T s), (F U w), (ElEldry q ne Q T s), (F V w). cbn [element_aft]. fold P. rewrite !E. cbn [bind fst]. split; [reflexivity|]. split; [reflexivity|].
    pose proof (HA U w) as AU. pose proof (HA V w) as AV. clear HA. cbv zeta in AU, AV.
    set (s0 := match ed_u0 s with None => fun d => rsum N (fun j => Q d j * U j) | Some x => x end) in *.
    set (s1 := match ed_u0 s with None => fun d => rsum N (fun j => Q d j * V j) | Some x => x end) in *.
    assert (Es : In O h -> forall d, s0 d = s1 d) by (intros H0 d; unfold s0, s1; destruct (ed_u0 s); [reflexivity|apply first_same; exact H0]).
    destruct (finite_choice _ 0 (q * ne) (fun d _ => proj1 (contact_delay q (ep_kt P) (ep_kn P) (ep_mu P) (ep_gap P) Q d s0 s1 H3 H4))) as (a & Hl).
    apply (delayed_samples _ _ (fun i n => rsum (q * ne) (fun d => T i d * contact_history q (ep_kt P) (ep_kn P) (ep_mu P) (ep_gap P) (at_samples Q) s0 d (Nt + n)))
      (fun i n => rsum (q * ne) (fun d => T i d * contact_history q (ep_kt P) (ep_kn P) (ep_mu P) (ep_gap P) (fun d k => at_samples Q d (K + k)) s1 d (Nt + n)))
      (fun i => rsum (q * ne) (fun d => T i d * a d))).
    - intros c i Lc Li. rewrite (AU c i Lc Li). rewrite (fourier_coef_rsum Nt (q * ne) (fun d n => T i d * contact_history q (ep_kt P) (ep_kn P) (ep_mu P) (ep_gap P) (at_samples Q) s0 d (Nt + n))).
      apply rsum_ext. intros d Hd. rewrite fourier_coef_scal. do 2 f_equal. apply functional_extensionality. intros n. f_equal. apply functional_extensionality. intros e. apply repeat_U.
    - intros c i Lc Li. rewrite (AV c i Lc Li). rewrite (fourier_coef_rsum Nt (q * ne) (fun d n => T i d * contact_history q (ep_kt P) (ep_kn P) (ep_mu P) (ep_gap P) (fun d k => at_samples Q d (K + k)) s1 d (Nt + n))).
      apply rsum_ext. intros d Hd. rewrite fourier_coef_scal. do 2 f_equal. apply functional_extensionality. intros n. f_equal. apply functional_extensionality. intros e. apply repeat_V.
    - intros i n _. apply rsum_ext. intros d Hd. f_equal. apply (contact_delay q (ep_kt P) (ep_kn P) (ep_mu P) (ep_gap P) Q d s0 s1 H3 H4).
    - intros i n _ _. rewrite <- rsum_plus. apply rsum_ext. intros d Hd. destruct (Hl d Hd) as [_ ->]. ring.
    - intros H0 i _. apply rsum_zero. intros d Hd. destruct (Hl d Hd) as [Ea _]. rewrite Ea by (apply Es; exact H0). ring.
  Qed.

  (** elements without memory *)
  Lemma velocity_delay v : phase_velocity N h U v -> phase_velocity N h V (fun j t => v j (t - p)) /\ forall j t0 z, (j < N)%nat -> v j (t0 + 2 * PI * IZR z) = v j t0.
  Proof.
    intros Hv. split.
    - intros j t Hj. apply dlim_ext with (fun t => series h (dof_coefs N U j) (t - p)); [intros s; symmetry; apply HUV; exact Hj|].
      apply dlim_eq with (v j (t - p) * (1 - 0)); [|ring]. apply (dlim_comp (fun t => t - p) (series h (dof_coefs N U j)) t (1 - 0) (v j (t - p))); [|apply Hv; exact Hj].
      apply dlim_minus; [apply dlim_id|apply dlim_const].
    - intros j t0 z0 Hj. apply (uniqueness_limite (series h (dof_coefs N U j)) t0); [|apply Hv; exact Hj].
      apply dlim_ext with (fun t => series h (dof_coefs N U j) (t + 2 * PI * IZR z0)); [intros s; apply series_period|].
      apply dlim_eq with (v j (t0 + 2 * PI * IZR z0) * (1 + 0)); [|ring].
      apply (dlim_comp (fun t => t + 2 * PI * IZR z0) (series h (dof_coefs N U j)) t0 (1 + 0) (v j (t0 + 2 * PI * IZR z0))); [|apply Hv; exact Hj].
      apply dlim_plus; [apply dlim_id|apply dlim_const].
  Qed.
End Delay.

Lemma instant_forces N h Nt p K z U V f w : admissible h -> (2 * list_max h + 1 < Nt)%nat -> p = - sample_phase Nt K + 2 * PI * IZR z -> delayed N h p U V ->
  steady_evaluation N h Nt (ElInstant f) U -> forces_delayed N h Nt p w U V (ElInstant f).
Proof.
  intros Ha HN Hp HUV (psi & Hl & Hf). set (v := fun j => dseries h (dof_coefs N U j)). assert (Hv : phase_velocity N h U v) by apply velocity_exists.
  destruct (velocity_delay N h p U V HUV v Hv) as [Hv' Hz].
  destruct (Hf U w v Hv) as (F & dU & dw & E & HF). destruct (Hf V w _ Hv') as (G & dU' & dw' & E' & HG).
  exists (ElInstant f), F, (ElInstant f), G. cbn [element_aft]. rewrite E, E'. cbn [bind fst]. split; [reflexivity|]. split; [reflexivity|].
  apply (delayed_samples N h Nt p K z HN Hp F G
    (fun i n => psi (fun j => series h (dof_coefs N U j) (sample_phase Nt n)) (fun j => w * v j (sample_phase Nt n)) i)
    (fun i n => psi (fun j => series h (dof_coefs N V j) (sample_phase Nt n)) (fun j => w * v j (sample_phase Nt n - p)) i) (fun _ => 0) HF HG).
  - intros i n _. apply Hl. intros j Hj. split; [apply series_samples; lia|]. f_equal. rewrite sample_plus, (sample_all Nt) by lia.
    rewrite <- (Hz j (sample_phase Nt n) 1%Z Hj). f_equal. ring.
  - intros i n _ _. rewrite Rplus_0_r. apply Hl. intros j Hj. split.
    + rewrite (series_advance N h Nt p K z Hp U V HUV j) by exact Hj. rewrite sample_plus. f_equal. lra.
    + f_equal. rewrite <- (Hz j (sample_phase Nt n - p) z Hj). f_equal. rewrite Hp, sample_plus. ring.
  - reflexivity.
Qed.

Lemma element_delay N h Nt p w U V e : admissible h -> (2 * list_max h + 1 < Nt)%nat -> Nat.even Nt = true -> whole_samples Nt p -> delayed N h p U V ->
  steady_evaluation N h Nt e U -> steady_evaluation N h Nt e V -> forces_delayed N h Nt p w U V e.
Proof.
  intros Ha HN He Hp HUV HU HV. destruct (whole_advance Nt p ltac:(lia) Hp) as (K & z & E). destruct e; try contradiction.
  - apply (instant_forces N h Nt p K z); assumption.
  - apply (jenkins_forces N h Nt p K z); assumption.
  - apply (iwan_forces N h Nt p K z); assumption.
  - apply (eldry_forces N h Nt p K z); assumption.
  - apply (jax_jenkins_forces N h Nt p K z); assumption.
Qed.

(** * Fourier integrals of delayed forces *)
Lemma integral_scal k f I : period_integral f I -> period_integral (fun t => k * f t) (k * I).
Proof. intros [F [H ->]]. exists (fun t => k * F t). split; [|ring]. intros t. apply dlim_scal. apply H. Qed.

Lemma integral_rsum n (f : nat -> R -> R) (I : nat -> R) : (forall i, (i < n)%nat -> period_integral (f i) (I i)) -> period_integral (fun t => rsum n (fun i => f i t)) (rsum n I).
Proof.
  induction n as [|n IH]; intros H; [exists (fun _ => 0); split; [intros t; apply dlim_const|cbn; ring]|].
  destruct (IH ltac:(intros; apply H; lia)) as [F [HF EF]]. destruct (H n ltac:(lia)) as [G [HG EG]]. exists (fun t => F t + G t). split.
  - intros t. rewrite rsum_S. apply dlim_plus; auto.
  - rewrite rsum_S, EF, EG. ring.
Qed.

Lemma integral_shift g p I : (forall t, g (t + 2 * PI) = g t) -> period_integral g I -> period_integral (fun t => g (t - p)) I.
Proof.
  intros Hg [F [HF ->]]. exists (fun t => F (t - p)). split.
  - intros t. apply dlim_eq with (g (t - p) * (1 - 0)); [|ring]. apply (dlim_comp (fun t => t - p) F t (1 - 0) (g (t - p))); [|apply HF]. apply dlim_minus; [apply dlim_id|apply dlim_const].
  - assert (D : forall t, derivable_pt_lim (fun t => F (t + 2 * PI) - F t) t 0).
    { intros t. apply dlim_eq with (g (t + 2 * PI) * (1 + 0) - g t); [|rewrite Hg; ring]. apply (dlim_minus (fun t => F (t + 2 * PI)) F); [|apply HF].
      apply (dlim_comp (fun t => t + 2 * PI) F t (1 + 0) (g (t + 2 * PI))); [apply dlim_plus; [apply dlim_id|apply dlim_const]|apply HF]. }
    assert (C : forall a b, a < b -> F (a + 2 * PI) - F a = F (b + 2 * PI) - F b).
    { intros a b L. destruct (MVT_cor2 (fun t => F (t + 2 * PI) - F t) (fun _ => 0) a b L ltac:(intros; apply D)) as [c [H _]]. cbv beta in H. lra. }
    replace (2 * PI - p) with (0 - p + 2 * PI) by ring. replace (F (2 * PI)) with (F (0 + 2 * PI)) by (f_equal; ring).
    destruct (Rtotal_order 0 (0 - p)) as [L|[L|L]]; [apply C; exact L|rewrite <- L; reflexivity|symmetry; apply C; exact L].
Qed.

Lemma coefs_integral h f (A : vec) t : (forall c, (c < length (components h))%nat -> fourier_integral f (nth c (components h) (Cos O)) (A c)) ->
  period_integral (fun s => f s * kernel h (t - s)) (2 * PI * series h A t).
Proof.
  intros H. destruct (finite_choice _ 0 (length (components h)) H) as [I HI].
  apply (integral_ext (fun s => rsum (length (components h)) (fun c => weight (nth c (components h) (Cos O)) * basis h c t * (f s * comp_fun (nth c (components h) (Cos O)) s)))).
  { intros s. rewrite <- kernel_sum, <- rsum_scal_l. apply rsum_ext. intros c _. ring. }
  replace (2 * PI * series h A t) with (rsum (length (components h)) (fun c => weight (nth c (components h) (Cos O)) * basis h c t * I c)).
  - apply (integral_rsum _ (fun c s => weight (nth c (components h) (Cos O)) * basis h c t * (f s * comp_fun (nth c (components h) (Cos O)) s))).
    intros c Hc. apply integral_scal. apply HI. exact Hc.
  - unfold series. rewrite <- rsum_scal_l. apply rsum_ext. intros c Hc. destruct (HI c Hc) as [_ ->]. fold (weight (nth c (components h) (Cos O))). pose proof PI_RGT_0. field. lra.
Qed.

Lemma integral_delay N h Nt p w U V f psi : local_in_time N psi -> integrated_harmonics N h Nt f psi -> delayed N h p U V -> forces_delayed N h Nt p w U V (ElInstant f).
Proof.
  intros Hl Hf HUV. set (v := fun j => dseries h (dof_coefs N U j)). assert (Hv : phase_velocity N h U v) by apply velocity_exists.
  destruct (velocity_delay N h p U V HUV v Hv) as [Hv' Hz].
  destruct (Hf U w v Hv) as (F & dU & dw & E & HF). destruct (Hf V w _ Hv') as (G & dU' & dw' & E' & HG).
  exists (ElInstant f), F, (ElInstant f), G. cbn [element_aft]. rewrite E, E'. cbn [bind fst]. split; [reflexivity|]. split; [reflexivity|].
  intros i t Hi. pose proof PI_RGT_0 as P. apply (Rmult_eq_reg_l (2 * PI)); [|lra].
  set (g := fun s => psi (fun j => series h (dof_coefs N U j) s) (fun j => w * v j s) i).
  assert (Pg : forall s, g (s + 2 * PI) = g s).
  { intros s. unfold g. apply Hl. intros j Hj. split; [rewrite <- (series_period h _ s 1); f_equal; ring|]. rewrite <- (Hz j s 1%Z Hj). do 2 f_equal. ring. }
  apply (integral_unique (fun s => g (s - p) * kernel h (t - s))).
  - apply (coefs_integral h (fun s => g (s - p)) (dof_coefs N G i) t). intros c Hc. unfold dof_coefs. eapply fourier_ext; [|apply (HG c i Hc Hi)].
    intros s. unfold g. apply Hl. intros j Hj. split; [apply HUV; exact Hj|reflexivity].
  - apply (integral_ext (fun s => g (s - p) * kernel h (t - p - (s - p)))); [intros s; do 2 f_equal; ring|].
    apply (integral_shift (fun s => g s * kernel h (t - p - s))).
    + intros s. rewrite Pg. f_equal. rewrite <- (kernel_period h (t - p - (s + 2 * PI))). f_equal. ring.
    + apply (coefs_integral h g (dof_coefs N F i) (t - p)). intros c Hc. apply (HF c i Hc Hi).
Qed.

(** * Systems *)
Lemma delayed_take N h p X Y : delayed N h p X Y -> delayed N h p (take (length (components h) * N) X) (take (length (components h) * N) Y).
Proof.
  intros H d t Hd. transitivity (series h (dof_coefs N Y d) t); [|rewrite (H d t Hd)]; apply rsum_ext; intros c Hc; unfold dof_coefs; rewrite take_lt by nia; reflexivity.
Qed.

Lemma series_add N h (F G : vec) d t : series h (dof_coefs N (vadd F G) d) t = series h (dof_coefs N F d) t + series h (dof_coefs N G d) t.
Proof. unfold series. rewrite <- rsum_plus. apply rsum_ext. intros c _. unfold dof_coefs, vadd. ring. Qed.

Lemma sys_aft_delay N h Nt p w U V : forall els F0 G0, (forall e, In e els -> forces_delayed N h Nt p w U V e) -> delayed N h p F0 G0 ->
  exists l1 F l2 G, sys_aft N els U w h Nt (Some F0) = (l1, Ok (Some F)) /\ sys_aft N els V w h Nt (Some G0) = (l2, Ok (Some G)) /\ delayed N h p F G.
Proof.
  induction els as [|e els IH]; intros F0 G0 He HD; cbn [sys_aft]; [exists [], F0, [], G0; auto|].
  destruct (He e (or_introl eq_refl)) as (e1 & F & e2 & G & -> & -> & HFG). cbn [oadd].
  destruct (IH (vadd F0 F) (vadd G0 G)) as (l1 & F' & l2 & G' & -> & -> & H'); [intros x Hx; apply He; right; exact Hx| |].
  - intros d t Hd. rewrite !series_add, (HD d t Hd), (HFG d t Hd). reflexivity.
  - exists (e1 :: l1), F', (e2 :: l2), G'. auto.
Qed.

Lemma stiffness_delay N h p M C K w X Y : admissible h -> w <> 0 -> delayed N h p X Y -> exists E dE, harmonic_stiffness N M C K w h true false = Ok (E, dE) /\
  delayed N h p (matvec (length (components h) * N) E X) (matvec (length (components h) * N) E Y).
Proof.
  intros Ha Hw HXY. destruct (stiffness_eom N M C K w h true X Ha) as (E & dE & v & a & HE & Hv & Hacc & Heom).
  destruct (stiffness_eom N M C K w h true Y Ha) as (E' & dE' & v' & a' & HE' & Hv' & Hacc' & Heom'). rewrite HE in HE'. injection HE' as <- <-.
  exists E, dE. split; [exact HE|]. set (q := p / w). assert (Eq : w * q = p) by (unfold q; field; exact Hw).
  assert (Mo : forall j t, (j < N)%nat -> motion N h Y w j t = motion N h X w j (t - q)).
  { intros j t Hj. unfold motion. rewrite (HXY j (w * t) Hj). f_equal. rewrite <- Eq. ring. }
  assert (Sh : forall f f' : R -> R, (forall t, derivable_pt_lim f t (f' t)) -> forall t, derivable_pt_lim (fun t => f (t - q)) t (f' (t - q))).
  { intros f f' D t. apply dlim_eq with (f' (t - q) * (1 - 0)); [|ring]. apply (dlim_comp (fun t => t - q) f t (1 - 0) (f' (t - q))); [|apply D]. apply dlim_minus; [apply dlim_id|apply dlim_const]. }
  assert (Ve : forall j t, (j < N)%nat -> v' j t = v j (t - q)).
  { intros j t Hj. apply (uniqueness_limite (motion N h Y w j) t); [apply Hv'|]. apply dlim_ext with (fun t => motion N h X w j (t - q)); [intros s; symmetry; apply Mo; exact Hj|]. apply (Sh (motion N h X w j) (v j) (Hv j)). }
  assert (Ac : forall j t, (j < N)%nat -> a' j t = a j (t - q)).
  { intros j t Hj. apply (uniqueness_limite (v' j) t); [apply Hacc'|]. apply dlim_ext with (fun t => v j (t - q)); [intros s; symmetry; apply Ve; exact Hj|]. apply (Sh (v j) (a j) (Hacc j)). }
  intros d t Hd. pose proof (Heom' d (t / w) Hd) as P1. pose proof (Heom d (t / w - q) Hd) as P2. unfold motion at 1 in P1. unfold motion at 1 in P2.
  replace (w * (t / w)) with t in P1 by (field; exact Hw). replace (w * (t / w - q)) with (t - p) in P2 by (rewrite <- Eq; field; exact Hw).
  rewrite P1, P2. apply rsum_ext. intros j Hj. rewrite Ve, Ac, Mo by exact Hj. reflexivity.
Qed.

Lemma residual_delay N h Nt p M C K els X Y Fl Fl' : admissible h ->
  let n := (length (components h) * N)%nat in
  X n <> 0 -> Y n = X n -> delayed N h p X Y -> delayed N h p Fl Fl' ->
  (forall e, In e els -> forces_delayed N h Nt p (X n) (take n X) (take n Y) e) ->
  exists l1 R1 l2 R2, sys_hbm_res N M C K els X Fl h Nt = (l1, Ok (Some R1)) /\ sys_hbm_res N M C K els Y Fl' h Nt = (l2, Ok (Some R2)) /\ delayed N h p R1 R2.
Proof.
  intros Ha n Hw Ew HXY HFl He. destruct (stiffness_delay N h p M C K (X n) X Y Ha Hw HXY) as (E & dE & HE & HD).
  assert (Z : delayed N h p vzero vzero) by (intros d t Hd; unfold series, dof_coefs, vzero; rewrite !rsum_zero by (intros; ring); reflexivity).
  destruct (sys_aft_delay N h Nt p (X n) (take n X) (take n Y) els vzero vzero He Z) as (l1 & F & l2 & G & E1 & E2 & HFG).
  unfold sys_hbm_res. rewrite nhc_aft. fold n. rewrite Ew, HE, E1, E2. cbn [bind].
  eexists l1, _, l2, _. split; [reflexivity|]. split; [reflexivity|]. fold n in HD. intros d t Hd.
  assert (S3 : forall A B D : vec, forall s, series h (dof_coefs N (fun i => A i + B i - D i) d) s = series h (dof_coefs N A d) s + series h (dof_coefs N B d) s - series h (dof_coefs N D d) s).
  { intros A B D s. unfold series. rewrite <- rsum_plus, <- rsum_minus. apply rsum_ext. intros c _. unfold dof_coefs. ring. }
  rewrite !S3, (HD d t Hd), (HFG d t Hd), (HFl d t Hd). reflexivity.
Qed.

Lemma delayed_zero N h p F G : NoDup h -> delayed N h p F G -> (forall r, (r < length (components h) * N)%nat -> F r = 0) -> forall r, (r < length (components h) * N)%nat -> G r = 0.
Proof.
  intros Hd HD HF r Hr. destruct (block_form _ _ _ Hr) as (c & i & Hc & Hi & ->).
  pose proof (series_coef (2 * list_max h + 1) h (dof_coefs N G i) c Hd ltac:(lia) Hc) as S. unfold dof_coefs at 2 in S. rewrite <- S.
  unfold fourier_coef. rewrite rsum_zero; [ring|]. intros n _. rewrite (HD i _ Hi). unfold series. rewrite rsum_zero; [ring|]. intros c' Hc'. unfold dof_coefs. rewrite HF by nia. ring.
Qed.

Lemma delayed_back N h p F G : delayed N h p F G -> delayed N h (- p) G F.
Proof. intros H d t Hd. rewrite (H d _ Hd). f_equal. ring. Qed.

Lemma rotated N h U phase k : ~ In O (tl h) -> delayed N h (phase / INR k) U (rotate_subtract_phase U N h phase k).
Proof. intros Hz d t Hd. apply rotate_series; assumption. Qed.

(** the elements without memory *)
Lemma sampled_law N nnl Q T h Nt (law : local_law) f : admissible h -> (2 * list_max h + 1 < Nt)%nat -> Nat.even Nt = true ->
  (forall U w, nl_aft f U w h Nt = aft_instantaneous N nnl Q T law U w h Nt) ->
  exists psi, local_in_time N psi /\ sampled_harmonics N h Nt f psi.
Proof.
  intros Ha HN He Hf. exists (fun u v i => rsum nnl (fun d => T i d * law_f law d (rsum N (fun j => Q d j * u j)) (rsum N (fun j => Q d j * v j)))). split.
  - intros u u' v v' i H. apply rsum_ext. intros d _. f_equal. f_equal; apply rsum_ext; intros j Hj; destruct (H j Hj) as [E1 E2]; rewrite ?E1, ?E2; reflexivity.
  - intros U w v Hv. destruct (aft_generic N nnl Q T h Nt Ha HN He law) as (F & dU & dw & E & HF & _). exists (F U w), (dU U w), (dw U w).
    split; [rewrite Hf; apply E|]. intros c i Hc Hi. rewrite (HF U w (fun d tau => rsum N (fun j => Q d j * v j tau))) by (try assumption; intros; apply local_phase; exact Hv).
    apply fourier_coef_ext. intros n _. apply rsum_ext. intros d _. f_equal. f_equal. rewrite <- rsum_scal_l. apply rsum_ext. intros j _. ring.
Qed.

Lemma sampled_elements N nnl Q T h Nt : admissible h -> (2 * list_max h + 1 < Nt)%nat -> Nat.even Nt = true ->
  (forall k U, steady_evaluation N h Nt (ElInstant (cubic_nl N nnl Q T k)) U) /\
  (forall k U, steady_evaluation N h Nt (ElInstant (quintic_nl N nnl Q T k)) U) /\
  (forall c U, steady_evaluation N h Nt (ElInstant (damping_nl N nnl Q T c)) U) /\
  (forall k Np delta U, steady_evaluation N h Nt (ElInstant (unilateral_nl N nnl Q T k Np delta)) U) /\
  (forall kt Fs chi beta U, steady_evaluation N h Nt (ElInstant (iwan_nl N nnl Q T kt Fs chi beta)) U) /\
  (forall cnl E qq U, steady_evaluation N h Nt (ElInstant (poly_nl N nnl cnl Q T E qq)) U).
Proof.
  intros Ha HN He. repeat split; intros; cbn [steady_evaluation]; try (eapply (sampled_law N nnl Q T h Nt); try assumption; intros; reflexivity).
  exists (fun u v i => rsum nnl (fun d => T i d * rsum cnl (fun m => E d m * monomial nnl (qq m) (fun e => rsum N (fun j => Q e j * u j))))). split.
  - intros u u' v v' i H. apply rsum_ext. intros d _. f_equal. apply rsum_ext. intros m _. f_equal. f_equal. apply functional_extensionality. intros e.
    apply rsum_ext. intros j Hj. destruct (H j Hj) as [-> _]. reflexivity.
  - intros U' w v Hv. destruct (aft_poly N nnl Q T h Nt Ha HN He cnl E qq) as (F & dU & A & HF & _). exists (F U'), (dU U'), (fun _ => 0). split; [apply A|]. intros c i Hc Hi. apply HF; assumption.
Qed.

Lemma integrated_elements N nnl Q T h Nt : admissible h -> (2 * list_max h + 1 < Nt)%nat -> Nat.even Nt = true ->
  forall f, (exists k, f = cubic_nl N nnl Q T k /\ (4 * list_max h < Nt)%nat) \/ (exists k, f = quintic_nl N nnl Q T k /\ (6 * list_max h < Nt)%nat) \/
    (exists c, f = damping_nl N nnl Q T c /\ (4 * list_max h < Nt)%nat) \/
    (exists cnl E qq p, f = poly_nl N nnl cnl Q T E qq /\ (forall m, (m < cnl)%nat -> (fold_right Nat.add O (map (qq m) (seq 0 nnl)) <= p)%nat) /\ ((p + 1) * list_max h < Nt)%nat) ->
  exists psi, local_in_time N psi /\ integrated_harmonics N h Nt f psi.
Proof.
  intros Ha HN He f [(k & -> & H)|[(k & -> & H)|[(k & -> & H)|(cnl & E & qq & p & -> & H & H')]]].
  - exists (fun u v i => rsum nnl (fun d => T i d * (k d * rsum N (fun j => Q d j * u j) ^ 3))). split; [|exact (cubic_harmonics N nnl Q T h Nt Ha HN He k H)].
    intros u u' v v' i G. apply rsum_ext. intros d _. do 3 f_equal. apply rsum_ext. intros j Hj. destruct (G j Hj) as [-> _]. reflexivity.
  - exists (fun u v i => rsum nnl (fun d => T i d * (k d * rsum N (fun j => Q d j * u j) ^ 5))). split; [|exact (quintic_harmonics N nnl Q T h Nt Ha HN He k H)].
    intros u u' v v' i G. apply rsum_ext. intros d _. do 3 f_equal. apply rsum_ext. intros j Hj. destruct (G j Hj) as [-> _]. reflexivity.
  - exists (fun u v i => rsum nnl (fun d => T i d * (k d * rsum N (fun j => Q d j * v j) ^ 3))). split.
    + intros u u' v v' i G. apply rsum_ext. intros d _. do 3 f_equal. apply rsum_ext. intros j Hj. destruct (G j Hj) as [_ ->]. reflexivity.
    + intros U w v Hv. destruct (damping_harmonics N nnl Q T h Nt Ha HN He k H U w v Hv) as (F & dU & dw & E & HF). exists F, dU, dw. split; [exact E|].
      intros c i Hc Hi. eapply fourier_ext; [|apply (HF c i Hc Hi)]. intros t. cbv beta. apply rsum_ext. intros d _. unfold local_velocity. do 3 f_equal.
      rewrite <- rsum_scal_l. apply rsum_ext. intros j _. ring.
  - exists (fun u v i => rsum nnl (fun d => T i d * rsum cnl (fun m => E d m * monomial nnl (qq m) (fun e => rsum N (fun j => Q e j * u j))))). split.
    + intros u u' v v' i G. apply rsum_ext. intros d _. f_equal. apply rsum_ext. intros m _. f_equal. f_equal. apply functional_extensionality. intros e.
      apply rsum_ext. intros j Hj. destruct (G j Hj) as [-> _]. reflexivity.
    + exact (poly_harmonics N nnl Q T h Nt Ha HN He cnl E qq p H H').
Qed.

(** a rotated solution solves the rotated problem *)
Lemma rotated_solution N h Nt M C K els X Fl phase k : admissible h -> (2 * list_max h + 1 < Nt)%nat -> Nat.even Nt = true ->
  let n := (length (components h) * N)%nat in let p := phase / INR k in
  let Y := rotate_subtract_phase X N h phase k in let Fl' := rotate_subtract_phase Fl N h phase k in
  X n <> 0 ->
  (forall e, In e els -> (whole_samples Nt p /\ steady_evaluation N h Nt e (take n X) /\ steady_evaluation N h Nt e (take n Y)) \/
     exists f psi, e = ElInstant f /\ local_in_time N psi /\ integrated_harmonics N h Nt f psi) ->
  exists l1 R1 l2 R2, sys_hbm_res N M C K els X Fl h Nt = (l1, Ok (Some R1)) /\ sys_hbm_res N M C K els Y Fl' h Nt = (l2, Ok (Some R2)) /\
    delayed N h p R1 R2 /\ ((forall r, (r < n)%nat -> R1 r = 0) <-> (forall r, (r < n)%nat -> R2 r = 0)).
Proof.
  intros Ha HN He n p Y Fl' Hw Hel. pose proof Ha as (_ & Hd & Hz). assert (HXY : delayed N h p X Y) by (apply rotated; exact Hz). assert (HFl : delayed N h p Fl Fl') by (apply rotated; exact Hz).
  assert (Ew : Y n = X n) by (unfold Y; apply (rotate_extra N h Hz); unfold n; lia).
  destruct (residual_delay N h Nt p M C K els X Y Fl Fl' Ha Hw Ew HXY HFl) as (l1 & R1 & l2 & R2 & E1 & E2 & HD).
  - intros e Hin. destruct (Hel e Hin) as [(Hp & S1 & S2)|(f & psi & -> & Hl & Hf)].
    + apply element_delay; try assumption. apply delayed_take. exact HXY.
    + apply (integral_delay N h Nt p _ _ _ f psi Hl Hf). apply delayed_take. exact HXY.
  - exists l1, R1, l2, R2. split; [exact E1|]. split; [exact E2|]. split; [exact HD|]. split.
    + apply (delayed_zero N h p); assumption.
    + apply (delayed_zero N h (- p)); [exact Hd|apply delayed_back; exact HD].
Qed.
