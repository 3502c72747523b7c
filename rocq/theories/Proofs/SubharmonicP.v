(** Periodic motions written on a period k times as long. *)
From Coq Require Import Reals ZArith Lra Lia Arith List FunctionalExtensionality.
From Verif.Lib Require Import RSum Py Calc.
From Verif.Spec Require Import Calculus Harmonic Elements Slider System Galerkin Rotation Symmetry Subharmonic.
From Verif.Model Require Import Harmonic LocalForces Aft VibSys SysElements Jenkins Iwan JaxFriction SysHistory SysHarmonic.
From Verif.Proofs Require Import HystAftP IwanAftP EldryP JaxFrictionP ElementsP VibSysP HarmonicP FourierP HarmonicOpsP AftP SliderP SliderShiftP TrigPolyP GalerkinP RotationP SymmetryP.
Import ListNotations.
Open Scope R_scope.

(** * Coefficients of k equal periods *)
Lemma sum_periods Nt (g : nat -> R) : (forall n, g (Nt + n)%nat = g n) -> forall k, rsum (k * Nt) g = INR k * rsum Nt g.
Proof.
  intros Hg. induction k as [|k IH]; [cbn; ring|]. replace (S k * Nt)%nat with (Nt + k * Nt)%nat by lia. rewrite rsum_split, (rsum_ext (k * Nt) _ g) by (intros; apply Hg).
  rewrite IH, S_INR. ring.
Qed.

Lemma periodic_times Nt (g : nat -> R) : (forall n, g (Nt + n)%nat = g n) -> forall k n, g (k * Nt + n)%nat = g n.
Proof. intros Hg. induction k as [|k IH]; intros n; [reflexivity|]. replace (S k * Nt + n)%nat with (Nt + (k * Nt + n))%nat by lia. rewrite Hg. apply IH. Qed.

Lemma turn_not_one k m : (0 < k)%nat -> ~ Nat.divide k m -> cos (2 * PI * INR m / INR k) <> 1.
Proof.
  intros Hk Hm. assert (Rk : INR k <> 0) by (apply not_0_INR; lia). pose proof (Nat.div_mod m k ltac:(lia)) as D. pose proof (Nat.mod_upper_bound m k ltac:(lia)) as B.
  set (q := (m / k)%nat) in *. set (a := (m mod k)%nat) in *. assert (Pa : (0 < a)%nat). { destruct (Nat.eq_dec a 0) as [E|E]; [|lia]. exfalso. apply Hm. exists q. lia. }
  replace (2 * PI * INR m / INR k) with (2 * (INR a * PI / INR k) + 2 * PI * INR q) by (rewrite D, plus_INR, mult_INR; field; exact Rk).
  rewrite cos_period_nat, cos_2a_sin. pose proof (half_sin_pos k ltac:(lia) a ltac:(lia)) as S. nra.
Qed.

Lemma phase_long k Nt n : (0 < k)%nat -> (0 < Nt)%nat -> INR k * sample_phase (k * Nt) n = sample_phase Nt n.
Proof. intros H1 H2. unfold sample_phase. rewrite mult_INR. field. split; apply not_0_INR; lia. Qed.

Lemma coef_other k Nt (y : nat -> R) m : (0 < k)%nat -> (0 < Nt)%nat -> (forall n, y (Nt + n)%nat = y n) -> ~ Nat.divide k m ->
  fourier_coef (k * Nt) y (Cos m) = 0 /\ fourier_coef (k * Nt) y (Sin m) = 0.
Proof.
  intros Hk HN Hy Hm. pose proof (turn_not_one k m Hk Hm) as H1. set (th := 2 * PI * INR m / INR k) in *.
  set (C := rsum (k * Nt) (fun n => y n * comp_fun (Cos m) (sample_phase (k * Nt) n))). set (D := rsum (k * Nt) (fun n => y n * comp_fun (Sin m) (sample_phase (k * Nt) n))).
  assert (Ph : forall n, INR m * sample_phase (k * Nt) (Nt + n) = INR m * sample_phase (k * Nt) n + th).
  { intros n. rewrite sample_plus. unfold th. replace (sample_phase (k * Nt) Nt) with (2 * PI / INR k); [field; apply not_0_INR; lia|].
    unfold sample_phase. rewrite mult_INR. field. split; apply not_0_INR; lia. }
  assert (Pe : forall c n, comp_fun c (sample_phase (k * Nt) (k * Nt + n)) = comp_fun c (sample_phase (k * Nt) n)).
  { intros c n. rewrite sample_plus, (sample_all (k * Nt)) by nia. rewrite <- (comp_fun_period c (sample_phase (k * Nt) n) 1). f_equal. ring. }
  assert (EC : C = cos th * C - sin th * D).
  { unfold C at 1. rewrite <- (rsum_turn (k * Nt) (fun n => y n * comp_fun (Cos m) (sample_phase (k * Nt) n))) with (K := Nt).
    - unfold C, D. rewrite <- !rsum_scal_l, <- rsum_minus. apply rsum_ext. intros n _. cbn [comp_fun]. rewrite Ph, cos_plus, Hy. ring.
    - intros n. rewrite Pe, (periodic_times Nt y Hy). reflexivity. }
  assert (ED : D = sin th * C + cos th * D).
  { unfold D at 1. rewrite <- (rsum_turn (k * Nt) (fun n => y n * comp_fun (Sin m) (sample_phase (k * Nt) n))) with (K := Nt).
    - unfold C, D. rewrite <- !rsum_scal_l, <- rsum_plus. apply rsum_ext. intros n _. cbn [comp_fun]. rewrite Ph, sin_plus, Hy. ring.
    - intros n. rewrite Pe, (periodic_times Nt y Hy). reflexivity. }
  assert (Z : C = 0 /\ D = 0). { assert (P : 0 < (1 - cos th) * (1 - cos th) + sin th * sin th) by (assert (1 - cos th <> 0) by lra; nra).
    assert (A1 : (1 - cos th) * C = - sin th * D) by lra. assert (A2 : (1 - cos th) * D = sin th * C) by lra.
    split; apply (Rmult_eq_reg_l ((1 - cos th) * (1 - cos th) + sin th * sin th)); try lra.
    - replace (((1 - cos th) * (1 - cos th) + sin th * sin th) * C) with ((1 - cos th) * ((1 - cos th) * C) + sin th * (sin th * C)) by ring. rewrite A1, <- A2. ring.
    - replace (((1 - cos th) * (1 - cos th) + sin th * sin th) * D) with ((1 - cos th) * ((1 - cos th) * D) - sin th * (- sin th * D)) by ring. rewrite A2, <- A1. ring. }
  destruct Z as [ZC ZD]. unfold fourier_coef. fold C D. rewrite ZC, ZD. split; ring.
Qed.

Lemma coef_multiple k Nt (y : nat -> R) n : (0 < k)%nat -> (0 < Nt)%nat -> (forall n, y (Nt + n)%nat = y n) ->
  fourier_coef (k * Nt) y (Cos (k * n)) = fourier_coef Nt y (Cos n) /\ ((0 < n)%nat -> fourier_coef (k * Nt) y (Sin (k * n)) = fourier_coef Nt y (Sin n)).
Proof.
  intros Hk HN Hy. assert (Rk : INR k <> 0) by (apply not_0_INR; lia). assert (RN : INR Nt <> 0) by (apply not_0_INR; lia).
  assert (SC : forall c c', (forall t, comp_fun c t = comp_fun c' (INR k * t)) -> rsum (k * Nt) (fun i => y i * comp_fun c (sample_phase (k * Nt) i)) = INR k * rsum Nt (fun i => y i * comp_fun c' (sample_phase Nt i))).
  { intros c c' E. rewrite <- (sum_periods Nt (fun i => y i * comp_fun c' (sample_phase Nt i))).
    - apply rsum_ext. intros i _. rewrite E, phase_long by assumption. reflexivity.
    - intros i. rewrite Hy, sample_plus, (sample_all Nt) by lia. f_equal. rewrite <- (comp_fun_period c' (sample_phase Nt i) 1). f_equal. ring. }
  split; [|intros Hn]; unfold fourier_coef.
  - rewrite (SC (Cos (k * n)) (Cos n)) by (intros t; cbn [comp_fun]; rewrite mult_INR; f_equal; ring). rewrite mult_INR.
    replace (match (k * n)%nat with O => 1 | _ => 2 end) with (match n with O => 1 | _ => 2 end); [field; split; assumption|].
    destruct n; [rewrite Nat.mul_0_r; reflexivity|]. destruct (k * S n)%nat eqn:E; [nia|reflexivity].
  - rewrite (SC (Sin (k * n)) (Sin n)) by (intros t; cbn [comp_fun]; rewrite mult_INR; f_equal; ring). rewrite mult_INR. field; split; assumption.
Qed.

Section Pair.
  Variables (N k Nt : nat) (h1 h2 : list nat).
  Hypothesis Hk : (0 < k)%nat.
  Hypothesis Ha1 : admissible h1.
  Hypothesis Ha2 : admissible h2.
  Hypothesis Hsub : subharmonic_list k h1 h2.
  Hypothesis HN1 : (2 * list_max h1 + 1 < Nt)%nat.
  Hypothesis HN2 : (2 * list_max h2 + 1 < k * Nt)%nat.
  Hypothesis He : Nat.even Nt = true.

  Lemma even_long : Nat.even (k * Nt) = true.
  Proof. rewrite Nat.even_mul, He, Bool.orb_true_r. reflexivity. Qed.

  Lemma zero_lists : In O h1 <-> In O h2.
  Proof. destruct Hsub as [S1 S2]. split; intros H; [rewrite <- (Nat.mul_0_r k); apply S1; exact H|apply S2; rewrite Nat.mul_0_r; exact H]. Qed.

  Lemma repeats_from_parts F G (Phi Psi : nat -> comp -> R) :
    (forall c i, (c < length (components h1))%nat -> (i < N)%nat -> F (c * N + i)%nat = Phi i (nth c (components h1) (Cos O))) ->
    (forall c i, (c < length (components h2))%nat -> (i < N)%nat -> G (c * N + i)%nat = Psi i (nth c (components h2) (Cos O))) ->
    (forall i n, (i < N)%nat -> In n h1 -> Psi i (Cos (k * n)) = Phi i (Cos n) /\ ((0 < n)%nat -> Psi i (Sin (k * n)) = Phi i (Sin n))) ->
    (forall i m, (i < N)%nat -> In m h2 -> ~ Nat.divide k m -> Psi i (Cos m) = 0 /\ Psi i (Sin m) = 0) -> repeats N k h1 F h2 G.
  Proof.
    intros HF HG Hs Hz i t Hi. destruct Hsub as [S1 S2]. pose proof Ha1 as (_ & D1 & _). pose proof Ha2 as (_ & D2 & _).
    transitivity (series h2 (fun c => Psi i (nth c (components h2) (Cos O))) t); [apply rsum_ext; intros c Hc; unfold dof_coefs; rewrite HG by assumption; reflexivity|].
    transitivity (series h1 (fun c => Phi i (nth c (components h1) (Cos O))) (INR k * t)); [|apply rsum_ext; intros c Hc; unfold dof_coefs; rewrite HF by assumption; reflexivity].
    rewrite !series_parts. rewrite (lsum_part (part (Psi i) t) (map (Nat.mul k) h1) h2).
    - clear - Hs Hi Hk. induction h1 as [|n h IH]; [reflexivity|]. change (part (Psi i) t (k * n) + lsum (part (Psi i) t) (map (Nat.mul k) h) = part (Phi i) (INR k * t) n + lsum (part (Phi i) (INR k * t)) h). f_equal.
      + destruct (Hs i n Hi (or_introl eq_refl)) as [E1 E2]. destruct n as [|n]; [rewrite Nat.mul_0_r in *; cbn [part comp_fun]; rewrite E1; do 2 f_equal; cbn [INR]; ring|].
        specialize (E2 ltac:(lia)). assert (A : INR (k * S n) * t = INR (S n) * (INR k * t)) by (rewrite mult_INR; ring). destruct (k * S n)%nat as [|m] eqn:E; [nia|].
        cbn [part comp_fun]. rewrite E1, E2, A. reflexivity.
      + apply IH. intros j m Hj Hm. apply Hs; [exact Hj|right; exact Hm].
    - clear - D1 Hk. induction D1 as [|n h Hn D IH]; [constructor|]. cbn [map]. constructor; [|exact IH]. intros H. apply in_map_iff in H. destruct H as (m & E & Hm). assert (m = n) by nia. subst. contradiction.
    - exact D2.
    - intros m Hm. apply in_map_iff in Hm. destruct Hm as (n & <- & Hn). apply S1. exact Hn.
    - intros m Hm. destruct (Nat.eq_dec (m mod k) 0) as [E|E].
      + left. apply Nat.mod_divides in E; [|lia]. destruct E as (n & ->). apply in_map_iff. exists n. split; [reflexivity|]. apply S2. exact Hm.
      + right. destruct (Hz i m Hi Hm) as [E1 E2]; [intros Hd; apply E; apply Nat.mod_divide; [lia|exact Hd]|]. destruct m; cbn [part]; rewrite E1, ?E2; ring.
  Qed.

  Lemma repeats_samples (F G : vec) (x y : nat -> nat -> R) (a : nat -> R) :
    (forall c i, (c < length (components h1))%nat -> (i < N)%nat -> F (c * N + i)%nat = fourier_coef Nt (x i) (nth c (components h1) (Cos O))) ->
    (forall c i, (c < length (components h2))%nat -> (i < N)%nat -> G (c * N + i)%nat = fourier_coef (k * Nt) (y i) (nth c (components h2) (Cos O))) ->
    (forall i n, (i < N)%nat -> y i (Nt + n)%nat = y i n) -> (In O h1 -> forall i, (i < N)%nat -> a i = 0) ->
    (forall i n, (i < N)%nat -> (n < Nt)%nat -> x i n = y i n + a i) -> repeats N k h1 F h2 G.
  Proof.
    intros HF HG Hp Ha Hx. apply (repeats_from_parts F G (fun i => fourier_coef Nt (x i)) (fun i => fourier_coef (k * Nt) (y i)) HF HG).
    - intros i n Hi Hn. pose proof (in_max h1 n Hn). destruct (coef_multiple k Nt (y i) n Hk ltac:(lia) ltac:(intros; apply Hp; exact Hi)) as [E1 E2]. rewrite E1.
      assert (X : forall c, harm c = n -> (forall z, c = Sin z -> (0 < n)%nat) -> fourier_coef Nt (y i) c = fourier_coef Nt (x i) c).
      { intros c Ec Hc. rewrite (fourier_coef_ext Nt (x i) (fun n => y i n + a i)) by (intros j Hj; apply Hx; assumption). destruct (Nat.eq_dec n 0) as [->|Nz].
        - rewrite (Ha Hn i Hi). apply fourier_coef_ext. intros. ring.
        - symmetry. apply coef_shifted; lia. }
      split; [apply X; [reflexivity|discriminate]|]. intros Pn. rewrite (E2 Pn). apply X; [reflexivity|intros; exact Pn].
    - intros i m Hi Hm Hd. apply coef_other; try assumption; [lia|]. intros n. apply Hp. exact Hi.
  Qed.

  Variables (X Y : vec).
  Hypothesis HXY : repeats N k h1 X h2 Y.

  Lemma mean_repeats F G : repeats N k h1 F h2 G -> In O h1 -> forall j, (j < N)%nat -> G j = F j.
  Proof.
    intros HFG H0 j Hj. destruct (first_component h1 Ha1 H0) as [L1 E1]. destruct (first_component h2 Ha2 (proj1 zero_lists H0)) as [L2 E2].
    pose proof Ha1 as (_ & D1 & _). pose proof Ha2 as (_ & D2 & _).
    pose proof (series_coef Nt h1 (dof_coefs N F j) 0 D1 ltac:(lia) L1) as SX. pose proof (series_coef (k * Nt) h2 (dof_coefs N G j) 0 D2 ltac:(lia) L2) as SY.
    rewrite E1 in SX. rewrite E2 in SY. unfold dof_coefs at 2 in SX. unfold dof_coefs at 2 in SY. cbn [Nat.mul Nat.add] in SX, SY. rewrite <- SX, <- SY.
    rewrite (fourier_coef_ext (k * Nt) _ (fun n => series h1 (dof_coefs N F j) (sample_phase Nt n))) by (intros n _; rewrite (HFG j _ Hj), phase_long by lia; reflexivity).
    destruct (coef_multiple k Nt (fun n => series h1 (dof_coefs N F j) (sample_phase Nt n)) 0 Hk ltac:(lia) ltac:(intros n; apply series_samples; exact HN1)) as [E _].
    rewrite Nat.mul_0_r in E. exact E.
  Qed.

  Notation at1 Q := (at_samples N h1 Nt X Q).

  Lemma long_samples Q d n : local_motion N Q h2 Y d (sample_phase (k * Nt) n) = at1 Q d n.
  Proof. apply rsum_ext. intros j Hj. f_equal. rewrite (HXY j _ Hj), phase_long by lia. reflexivity. Qed.

  Lemma repeat_long Q d : repeat_samples (k * Nt) (fun n => local_motion N Q h2 Y d (sample_phase (k * Nt) n)) = at1 Q d.
  Proof.
    rewrite (repeat_U N h2 (k * Nt) HN2 Y Q d). apply functional_extensionality. intros n. apply long_samples.
  Qed.

  Lemma first_mean (Q : mat) d : In O h1 -> rsum N (fun j => Q d j * X j) = rsum N (fun j => Q d j * Y j).
  Proof. intros H0. apply rsum_ext. intros j Hj. f_equal. symmetry. apply mean_repeats; assumption. Qed.

  Lemma history_long (f : nat -> R) : (forall n, f (Nt + (Nt + n))%nat = f (Nt + n)%nat) -> forall n, f (k * Nt + n)%nat = f (Nt + n)%nat.
  Proof.
    intros Hf n. destruct k as [|k']; [lia|]. replace (S k' * Nt + n)%nat with (Nt + (k' * Nt + n))%nat by lia.
    apply (periodic_times Nt (fun n => f (Nt + n)%nat)). exact Hf.
  Qed.

  Lemma jenkins_long kt Fs Q d u0 u1 : 0 <= Fs -> exists a, (u1 = u0 -> a = 0) /\ (forall n, jenkins_law kt Fs (at1 Q d) u0 (Nt + n) = jenkins_law kt Fs (at1 Q d) u1 (Nt + n) + a) /\
    (forall n, jenkins_law kt Fs (at1 Q d) u1 (k * Nt + n) = jenkins_law kt Fs (at1 Q d) u1 (Nt + n)) /\ forall n, jenkins_law kt Fs (at1 Q d) u1 (Nt + (Nt + n)) = jenkins_law kt Fs (at1 Q d) u1 (Nt + n).
  Proof.
    intros HF. destruct (slider_starts kt Nt (fun _ => - Fs) (fun _ => Fs) (at1 Q d) ltac:(lia) ltac:(intros; lra) ltac:(intros n; reflexivity) ltac:(intros n; reflexivity) (at_samples_period N h1 Nt HN1 X Q d) u1 u0 O) as (a & Ea & A).
    assert (P : forall n, jenkins_law kt Fs (at1 Q d) u1 (Nt + (Nt + n)) = jenkins_law kt Fs (at1 Q d) u1 (Nt + n)) by (intros n; apply (jenkins_period N h1 Nt HN1 X); exact HF).
    exists a. split; [exact Ea|]. split; [|split; [apply history_long; exact P|exact P]]. intros n. specialize (A n). cbn [Nat.add] in A. exact A.
  Qed.

  Lemma jenkins_repeat Q T s w : steady_evaluation N h1 Nt (ElJenkins Q T s) X -> steady_evaluation N h2 (k * Nt) (ElJenkins Q T s) Y -> forces_repeat N k Nt w h1 X h2 Y (ElJenkins Q T s).
  Proof.
    intros [HF S1] [_ S2]. cbv zeta in S1, S2. destruct (jenkins_aft_exact s N Q T h1 Nt Ha1 HN1 He HF) as (st1 & F & dF & E1 & A1 & _).
    destruct (jenkins_aft_exact s N Q T h2 (k * Nt) Ha2 HN2 even_long HF) as (st2 & G & dG & E2 & A2 & _).
    exists (ElJenkins Q T (st1 X)), (F X), (ElJenkins Q T (st2 Y)), (G Y). cbn [element_aft]. rewrite E1, E2. cbn [bind fst]. split; [reflexivity|]. split; [reflexivity|].
    pose proof (A1 X S1) as B1. pose proof (A2 Y S2) as B2. clear A1 A2 S1 S2. rewrite (repeat_U N h1 Nt HN1 X Q 0) in B1. rewrite repeat_long in B2.
    destruct (jenkins_long (j_kt s) (j_Fs s) Q 0 (local_first_coef N Q X) (local_first_coef N Q Y) HF) as (a & Ea & L1 & L2 & L3).
    apply (repeats_samples (F X) (G Y) (fun i n => T i O * jenkins_law (j_kt s) (j_Fs s) (at1 Q O) (local_first_coef N Q X) (Nt + n))
      (fun i n => T i O * jenkins_law (j_kt s) (j_Fs s) (at1 Q O) (local_first_coef N Q Y) (Nt + n)) (fun i => T i O * a)).
    - intros c i Hc Hi. rewrite fourier_coef_scal. apply B1; assumption.
    - intros c i Hc Hi. rewrite fourier_coef_scal, (B2 c i Hc Hi). f_equal. apply fourier_coef_ext. intros n _. apply L2.
    - intros i n _. rewrite L3. reflexivity.
    - intros H0 i _. rewrite Ea; [ring|]. symmetry. apply first_mean. exact H0.
    - intros i n _ _. rewrite L1. ring.
  Qed.

  Lemma jax_jenkins_repeat Q T kt u0 Fs rf pf w : steady_evaluation N h1 Nt (ElJaxJenkins Q T kt u0 Fs rf pf) X -> steady_evaluation N h2 (k * Nt) (ElJaxJenkins Q T kt u0 Fs rf pf) Y ->
    forces_repeat N k Nt w h1 X h2 Y (ElJaxJenkins Q T kt u0 Fs rf pf).
  Proof.
    intros [HF S1] [_ S2]. destruct (jax_jenkins_exact N Q T kt Fs u0 h1 Nt Ha1 HN1 He S1 HF) as (F & dF & dw & E1 & A1 & _).
    destruct (jax_jenkins_exact N Q T kt Fs u0 h2 (k * Nt) Ha2 HN2 even_long S2 HF) as (G & dG & dw' & E2 & A2 & _).
    exists (ElJaxJenkins Q T kt u0 Fs rf pf), (F X w), (ElJaxJenkins Q T kt u0 Fs rf pf), (G Y (w / INR k)). cbn [element_aft]. rewrite E1, E2. cbn [bind fst]. split; [reflexivity|]. split; [reflexivity|].
    destruct (A1 X w) as [_ B1]. destruct (A2 Y (w / INR k)) as [_ B2]. clear A1 A2. cbv zeta in B1, B2. rewrite (repeat_U N h1 Nt HN1 X Q 0) in B1. rewrite repeat_long in B2.
    set (s0 := match u0 with None => local_first_coef N Q X | Some x => x end) in *. set (s1 := match u0 with None => local_first_coef N Q Y | Some x => x end) in *.
    destruct (jenkins_long kt Fs Q 0 s0 s1 HF) as (a & Ea & L1 & L2 & L3).
    apply (repeats_samples (F X w) (G Y (w / INR k)) (fun i n => T i O * jenkins_law kt Fs (at1 Q O) s0 (Nt + n)) (fun i n => T i O * jenkins_law kt Fs (at1 Q O) s1 (Nt + n)) (fun i => T i O * a)).
    - intros c i Hc Hi. rewrite fourier_coef_scal. apply B1; assumption.
    - intros c i Hc Hi. rewrite fourier_coef_scal, (B2 c i Hc Hi). f_equal. apply fourier_coef_ext. intros n _. apply L2.
    - intros i n _. rewrite L3. reflexivity.
    - intros H0 i _. rewrite Ea; [ring|]. unfold s0, s1. destruct u0; [reflexivity|]. symmetry. apply first_mean. exact H0.
    - intros i n _ _. rewrite L1. ring.
  Qed.

  Lemma iwan_repeat Q T s w : steady_evaluation N h1 Nt (ElIwan Q T s) X -> steady_evaluation N h2 (k * Nt) (ElIwan Q T s) Y -> forces_repeat N k Nt w h1 X h2 Y (ElIwan Q T s).
  Proof.
    intros [HF S1] [_ S2]. cbv zeta in S1, S2. destruct (iwan_aft_exact s N Q T h1 Nt Ha1 HN1 He HF) as (st1 & F & dF & E1 & A1 & _).
    destruct (iwan_aft_exact s N Q T h2 (k * Nt) Ha2 HN2 even_long HF) as (st2 & G & dG & E2 & A2 & _).
    exists (ElIwan Q T (st1 X)), (F X), (ElIwan Q T (st2 Y)), (G Y). cbn [element_aft]. rewrite E1, E2. cbn [bind fst]. split; [reflexivity|]. split; [reflexivity|].
    pose proof (A1 X S1) as B1. pose proof (A2 Y S2) as B2. clear A1 A2 S1 S2. rewrite (repeat_U N h1 Nt HN1 X Q 0) in B1. rewrite repeat_long in B2.
    destruct (finite_choice _ 0 (iw_n s) (fun i Hi => jenkins_long 1 (iw_phi s i) Q 0 (local_first_coef N Q X) (local_first_coef N Q Y) (HF i Hi))) as (a & Ca).
    apply (repeats_samples (F X) (G Y) (fun i n => T i O * bank_law (iw_n s) (iw_w s) (iw_phi s) (at1 Q O) (local_first_coef N Q X) (Nt + n))
      (fun i n => T i O * bank_law (iw_n s) (iw_w s) (iw_phi s) (at1 Q O) (local_first_coef N Q Y) (Nt + n))
      (fun i => T i O * rsum (iw_n s) (fun k => iw_w s k * a k))).
    - intros c i Hc Hi. rewrite fourier_coef_scal. apply B1; assumption.
    - intros c i Hc Hi. rewrite fourier_coef_scal, (B2 c i Hc Hi). f_equal. apply fourier_coef_ext. intros n _. apply rsum_ext. intros j Hj. destruct (Ca j Hj) as (_ & _ & L2 & _). rewrite L2. reflexivity.
    - intros i n _. f_equal. apply rsum_ext. intros j Hj. destruct (Ca j Hj) as (_ & _ & _ & L3). rewrite L3. reflexivity.
    - intros H0 i _. rewrite rsum_zero; [ring|]. intros j Hj. destruct (Ca j Hj) as (Ea & _). rewrite Ea; [ring|]. symmetry. apply first_mean. exact H0.
    - intros i n _ _. rewrite <- Rmult_plus_distr_l. f_equal. unfold bank_law. rewrite <- rsum_plus. apply rsum_ext. intros j Hj. destruct (Ca j Hj) as (_ & L1 & _). rewrite L1. ring.
  Qed.

  Lemma contact_long q kt kn mu gap Q d (s0 s1 : nat -> R) : 0 < kn -> 0 <= mu -> let ch s n := contact_history q kt kn mu gap (at1 Q) s d n in
    exists a, (s1 d = s0 d -> a = 0) /\ (forall n, ch s0 (Nt + n)%nat = ch s1 (Nt + n)%nat + a) /\ (forall n, ch s1 (k * Nt + n)%nat = ch s1 (Nt + n)%nat) /\ forall n, ch s1 (Nt + (Nt + n))%nat = ch s1 (Nt + n)%nat.
  Proof.
    intros Hkn Hm ch. destruct (contact_delay N h1 Nt 0 HN1 X q kt kn mu gap Q d s1 s0 Hkn Hm) as [(a & Ea & A) P]. cbn [Nat.add] in A.
    exists a. split; [exact Ea|]. split; [exact A|]. split; [apply history_long; exact P|exact P].
  Qed.

  Lemma eldry_repeat q ne Q T s w : steady_evaluation N h1 Nt (ElEldry q ne Q T s) X -> steady_evaluation N h2 (k * Nt) (ElEldry q ne Q T s) Y -> forces_repeat N k Nt w h1 X h2 Y (ElEldry q ne Q T s).
  Proof.
    intros (H1 & H2 & H3 & H4 & H5) (_ & _ & _ & _ & H6). set (P := ed_pars s) in *.
    destruct (eldry_aft_exact q ne N Q T P (ed_u0 s) h1 Nt H1 H2 Ha1 HN1 He H5 H3 H4) as (F & dU & dw & E & HA & _).
    destruct (eldry_aft_exact q ne N Q T P (ed_u0 s) h2 (k * Nt) H1 H2 Ha2 HN2 even_long H6 H3 H4) as (G & dU' & dw' & E' & HB & _).
    exists (ElEldry q ne Q T s), (F X w), (ElEldry q ne Q T s), (G Y (w / INR k)). cbn [element_aft]. fold P. rewrite E, E'. cbn [bind fst]. split; [reflexivity|]. split; [reflexivity|].
    pose proof (HA X w) as A1. pose proof (HB Y (w / INR k)) as A2. clear HA HB. cbv zeta in A1, A2.
    set (s0 := match ed_u0 s with None => fun d => rsum N (fun j => Q d j * X j) | Some x => x end) in *.
    set (s1 := match ed_u0 s with None => fun d => rsum N (fun j => Q d j * Y j) | Some x => x end) in *.
    assert (Es : In O h1 -> forall d, s1 d = s0 d) by (intros H0 d; unfold s0, s1; destruct (ed_u0 s); [reflexivity|symmetry; apply first_mean; exact H0]).
    destruct (finite_choice _ 0 (q * ne) (fun d _ => contact_long q (ep_kt P) (ep_kn P) (ep_mu P) (ep_gap P) Q d s0 s1 H3 H4)) as (a & Hl). cbv zeta in Hl.
    apply (repeats_samples _ _ (fun i n => rsum (q * ne) (fun d => T i d * contact_history q (ep_kt P) (ep_kn P) (ep_mu P) (ep_gap P) (at1 Q) s0 d (Nt + n)))
      (fun i n => rsum (q * ne) (fun d => T i d * contact_history q (ep_kt P) (ep_kn P) (ep_mu P) (ep_gap P) (at1 Q) s1 d (Nt + n)))
      (fun i => rsum (q * ne) (fun d => T i d * a d))).
    - intros c i Lc Li. rewrite (A1 c i Lc Li). rewrite (fourier_coef_rsum Nt (q * ne) (fun d n => T i d * contact_history q (ep_kt P) (ep_kn P) (ep_mu P) (ep_gap P) (at1 Q) s0 d (Nt + n))).
      apply rsum_ext. intros d Hd. rewrite fourier_coef_scal. do 2 f_equal. apply functional_extensionality. intros n. f_equal. apply functional_extensionality. intros e. apply (repeat_U N h1 Nt HN1).
    - intros c i Lc Li. rewrite (A2 c i Lc Li). rewrite (fourier_coef_rsum (k * Nt) (q * ne) (fun d n => T i d * contact_history q (ep_kt P) (ep_kn P) (ep_mu P) (ep_gap P) (at1 Q) s1 d (Nt + n))).
      apply rsum_ext. intros d Hd. rewrite fourier_coef_scal. f_equal. apply fourier_coef_ext. intros n _. destruct (Hl d Hd) as (_ & _ & L2 & _). rewrite <- L2. f_equal.
      apply functional_extensionality. intros e. apply repeat_long.
    - intros i n _. apply rsum_ext. intros d Hd. f_equal. destruct (Hl d Hd) as (_ & _ & _ & L3). apply L3.
    - intros H0 i _. apply rsum_zero. intros d Hd. destruct (Hl d Hd) as [Ea _]. rewrite Ea by (apply Es; exact H0). ring.
    - intros i n _ _. rewrite <- rsum_plus. apply rsum_ext. intros d Hd. destruct (Hl d Hd) as (_ & L1 & _). rewrite L1. ring.
  Qed.

  Lemma instant_repeat f w : sampled_element N (ElInstant f) -> forces_repeat N k Nt w h1 X h2 Y (ElInstant f).
  Proof.
    intros (psi & Hl & Hf). assert (Rk : INR k <> 0) by (apply not_0_INR; lia).
    set (v := fun j => dseries h1 (dof_coefs N X j)). assert (Hv : phase_velocity N h1 X v) by apply velocity_exists.
    assert (Hv2 : phase_velocity N h2 Y (fun j t => INR k * v j (INR k * t))).
    { intros j t Hj. apply dlim_ext with (fun t => series h1 (dof_coefs N X j) (INR k * t)); [intros s; symmetry; apply HXY; exact Hj|].
      apply dlim_eq with (v j (INR k * t) * (INR k * 1)); [|ring]. apply (dlim_comp (fun t => INR k * t) (series h1 (dof_coefs N X j)) t (INR k * 1) (v j (INR k * t))); [|apply Hv; exact Hj].
      apply dlim_scal. apply dlim_id. }
    assert (Vp : forall j t, (j < N)%nat -> v j (t + 2 * PI) = v j t).
    { intros j t Hj. apply (uniqueness_limite (series h1 (dof_coefs N X j)) t); [|apply Hv; exact Hj].
      apply dlim_ext with (fun t => series h1 (dof_coefs N X j) (t + 2 * PI)); [intros s; rewrite <- (series_period h1 _ s 1); f_equal; ring|].
      apply dlim_eq with (v j (t + 2 * PI) * (1 + 0)); [|ring]. apply (dlim_comp (fun t => t + 2 * PI) (series h1 (dof_coefs N X j)) t (1 + 0) (v j (t + 2 * PI))); [|apply Hv; exact Hj].
      apply dlim_plus; [apply dlim_id|apply dlim_const]. }
    destruct (Hf h1 Nt Ha1 HN1 He X w v Hv) as (F & dF & dw & E1 & A1). destruct (Hf h2 (k * Nt)%nat Ha2 HN2 even_long Y (w / INR k) _ Hv2) as (G & dG & dw' & E2 & A2).
    exists (ElInstant f), F, (ElInstant f), G. cbn [element_aft]. rewrite E1, E2. cbn [bind fst]. split; [reflexivity|]. split; [reflexivity|].
    set (x := fun i n => psi (fun j => series h1 (dof_coefs N X j) (sample_phase Nt n)) (fun j => w * v j (sample_phase Nt n)) i) in *.
    apply (repeats_samples F G x x (fun _ => 0)).
    - exact A1.
    - intros c i Hc Hi. rewrite (A2 c i Hc Hi). apply fourier_coef_ext. intros n _. apply Hl. intros j Hj. rewrite (HXY j _ Hj), phase_long by lia. split; [reflexivity|field; exact Rk].
    - intros i n _. apply Hl. intros j Hj. split; [apply series_samples; exact HN1|]. rewrite sample_plus, (sample_all Nt) by lia. rewrite (Rplus_comm (2 * PI)), Vp by exact Hj. reflexivity.
    - reflexivity.
    - intros. ring.
  Qed.

  Lemma element_repeat w e : sampled_element N e -> steady_evaluation N h1 Nt e X -> steady_evaluation N h2 (k * Nt) e Y -> forces_repeat N k Nt w h1 X h2 Y e.
  Proof.
    intros Hs S1 S2. destruct e; try contradiction; [apply instant_repeat; exact Hs|apply jenkins_repeat; assumption|apply iwan_repeat; assumption|apply eldry_repeat; assumption|apply jax_jenkins_repeat; assumption].
  Qed.
End Pair.

(** * Whole systems *)
Section System.
  Variables (N k Nt : nat) (h1 h2 : list nat).
  Hypothesis Hk : (0 < k)%nat.
  Hypothesis Ha1 : admissible h1.
  Hypothesis Ha2 : admissible h2.
  Hypothesis Hsub : subharmonic_list k h1 h2.
  Hypothesis HN1 : (2 * list_max h1 + 1 < Nt)%nat.
  Hypothesis HN2 : (2 * list_max h2 + 1 < k * Nt)%nat.
  Hypothesis He : Nat.even Nt = true.
  Let n1 := (length (components h1) * N)%nat.
  Let n2 := (length (components h2) * N)%nat.

  Lemma repeats_take X Y : repeats N k h1 X h2 Y -> repeats N k h1 (take n1 X) h2 (take n2 Y).
  Proof.
    intros H d t Hd. transitivity (series h2 (dof_coefs N Y d) t); [|rewrite (H d t Hd)]; apply rsum_ext; intros c Hc; unfold dof_coefs, n1, n2; rewrite take_lt by nia; reflexivity.
  Qed.

  Lemma repeats_aft w X Y : forall els F0 G0, (forall e, In e els -> forces_repeat N k Nt w h1 X h2 Y e) -> repeats N k h1 F0 h2 G0 ->
    exists l1 F l2 G, sys_aft N els X w h1 Nt (Some F0) = (l1, Ok (Some F)) /\ sys_aft N els Y (w / INR k) h2 (k * Nt) (Some G0) = (l2, Ok (Some G)) /\ repeats N k h1 F h2 G.
  Proof.
    induction els as [|e els IH]; intros F0 G0 Hf HD; cbn [sys_aft]; [exists [], F0, [], G0; auto|].
    destruct (Hf e (or_introl eq_refl)) as (e1 & F & e2 & G & -> & -> & HFG). cbn [oadd].
    destruct (IH (vadd F0 F) (vadd G0 G)) as (l1 & F' & l2 & G' & -> & -> & H'); [intros x Hx; apply Hf; right; exact Hx| |].
    - intros d t Hd. rewrite !series_add, (HD d t Hd), (HFG d t Hd). reflexivity.
    - exists (e1 :: l1), F', (e2 :: l2), G'. auto.
  Qed.

  Lemma repeats_stiffness M C K w X Y : w <> 0 -> repeats N k h1 X h2 Y -> exists E1 dE1 E2 dE2, harmonic_stiffness N M C K w h1 true false = Ok (E1, dE1) /\
    harmonic_stiffness N M C K (w / INR k) h2 true false = Ok (E2, dE2) /\ repeats N k h1 (matvec n1 E1 X) h2 (matvec n2 E2 Y).
  Proof.
    intros Hw HXY. assert (Rk : INR k <> 0) by (apply not_0_INR; lia). destruct (stiffness_eom N M C K w h1 true X Ha1) as (E & dE & v & a & HE & Hv & Hacc & Heom).
    destruct (stiffness_eom N M C K (w / INR k) h2 true Y Ha2) as (E' & dE' & v' & a' & HE' & Hv' & Hacc' & Heom').
    exists E, dE, E', dE'. split; [exact HE|]. split; [exact HE'|].
    assert (Mo : forall j t, (j < N)%nat -> motion N h1 X w j t = motion N h2 Y (w / INR k) j t) by (intros j t Hj; unfold motion; rewrite (HXY j _ Hj); f_equal; field; exact Rk).
    assert (Ve : forall j t, (j < N)%nat -> v' j t = v j t).
    { intros j t Hj. apply (uniqueness_limite (motion N h2 Y (w / INR k) j) t); [apply Hv'|]. apply dlim_ext with (motion N h1 X w j); [intros s; apply Mo; exact Hj|apply Hv]. }
    assert (Ac : forall j t, (j < N)%nat -> a' j t = a j t).
    { intros j t Hj. apply (uniqueness_limite (v' j) t); [apply Hacc'|]. apply dlim_ext with (v j); [intros s; symmetry; apply Ve; exact Hj|apply Hacc]. }
    intros d t Hd. pose proof (Heom' d (INR k * t / w) Hd) as P1. pose proof (Heom d (INR k * t / w) Hd) as P2. unfold motion at 1 in P1. unfold motion at 1 in P2.
    replace (w / INR k * (INR k * t / w)) with t in P1 by (field; split; assumption). replace (w * (INR k * t / w)) with (INR k * t) in P2 by (field; exact Hw). unfold n1, n2.
    rewrite P1, P2. apply rsum_ext. intros j Hj. rewrite Ve, Ac, Mo by exact Hj. reflexivity.
  Qed.

  Lemma zero_functions h (F : vec) : NoDup h -> (forall d t, (d < N)%nat -> series h (dof_coefs N F d) t = 0) -> forall r, (r < length (components h) * N)%nat -> F r = 0.
  Proof.
    intros Hd HF r Hr. destruct (block_form _ _ _ Hr) as (c & i & Hc & Hi & ->).
    pose proof (series_coef (2 * list_max h + 1) h (dof_coefs N F i) c Hd ltac:(lia) Hc) as S. unfold dof_coefs at 2 in S. rewrite <- S.
    unfold fourier_coef. rewrite rsum_zero; [ring|]. intros n _. rewrite HF by exact Hi. ring.
  Qed.

  Lemma zero_series h (F : vec) : (forall r, (r < length (components h) * N)%nat -> F r = 0) -> forall d t, (d < N)%nat -> series h (dof_coefs N F d) t = 0.
  Proof. intros HF d t Hd. apply rsum_zero. intros c Hc. unfold dof_coefs. rewrite HF by nia. ring. Qed.

  Lemma repeated_residual M C K els X Y Fl1 Fl2 : X n1 <> 0 -> Y n2 = X n1 / INR k -> repeats N k h1 X h2 Y -> repeats N k h1 Fl1 h2 Fl2 ->
    (forall e, In e els -> sampled_element N e /\ steady_evaluation N h1 Nt e (take n1 X) /\ steady_evaluation N h2 (k * Nt) e (take n2 Y)) ->
    exists l1 R1 l2 R2, sys_hbm_res N M C K els X Fl1 h1 Nt = (l1, Ok (Some R1)) /\ sys_hbm_res N M C K els Y Fl2 h2 (k * Nt) = (l2, Ok (Some R2)) /\
      repeats N k h1 R1 h2 R2 /\ ((forall r, (r < n1)%nat -> R1 r = 0) <-> (forall r, (r < n2)%nat -> R2 r = 0)).
  Proof.
    intros Hw Ew HXY HFl Hel. assert (Rk : INR k <> 0) by (apply not_0_INR; lia). destruct (repeats_stiffness M C K (X n1) X Y Hw HXY) as (E1 & dE1 & E2 & dE2 & HE1 & HE2 & HD).
    assert (Z : repeats N k h1 vzero h2 vzero) by (intros d t Hd; unfold series, dof_coefs, vzero; rewrite !rsum_zero by (intros; ring); reflexivity).
    destruct (repeats_aft (X n1) (take n1 X) (take n2 Y) els vzero vzero) as (l1 & F & l2 & G & A1 & A2 & HFG); [|exact Z|].
    { intros e Hin. destruct (Hel e Hin) as (Hs & S1 & S2). apply element_repeat; try assumption. apply repeats_take. exact HXY. }
    unfold sys_hbm_res. rewrite !nhc_aft. fold n1 n2. rewrite Ew, HE1, HE2, A1, A2. cbn [bind].
    assert (SR : repeats N k h1 (fun i => matvec n1 E1 X i + F i - Fl1 i) h2 (fun i => matvec n2 E2 Y i + G i - Fl2 i)).
    { intros d t Hd.
      assert (S3 : forall h (A B D : vec) s, series h (dof_coefs N (fun i => A i + B i - D i) d) s = series h (dof_coefs N A d) s + series h (dof_coefs N B d) s - series h (dof_coefs N D d) s).
      { intros h A B D s. unfold series. rewrite <- rsum_plus, <- rsum_minus. apply rsum_ext. intros c _. unfold dof_coefs. ring. }
      rewrite !S3, (HD d t Hd), (HFG d t Hd), (HFl d t Hd). reflexivity. }
    eexists l1, _, l2, _. split; [reflexivity|]. split; [reflexivity|]. split; [exact SR|]. pose proof Ha1 as (_ & D1 & _). pose proof Ha2 as (_ & D2 & _). split; intros HZ.
    - apply (zero_functions h2 _ D2). intros d t Hd. rewrite (SR d t Hd). apply zero_series; [exact HZ|exact Hd].
    - apply (zero_functions h1 _ D1). intros d t Hd. replace t with (INR k * (t / INR k)) by (field; exact Rk). rewrite <- (SR d _ Hd). apply zero_series; [exact HZ|exact Hd].
  Qed.

  (** every motion can be written on the longer period *)
  Lemma repeated_motion X w : exists Y, repeats N k h1 X h2 Y /\ Y n2 = w.
  Proof.
    set (x := fun i n => series h1 (dof_coefs N X i) (sample_phase Nt n)).
    set (Y0 := fun r => fourier_coef (k * Nt) (x (r mod N)) (nth (r / N) (components h2) (Cos O))).
    exists (fun r => if Nat.eqb r n2 then w else Y0 r). split; [|rewrite Nat.eqb_refl; reflexivity].
    pose proof Ha1 as (_ & D1 & _).
    apply (repeats_samples N k Nt h1 h2 Hk Ha1 Ha2 Hsub HN1 HN2 X (fun r => if Nat.eqb r n2 then w else Y0 r) x x (fun _ => 0)).
    - intros c i Hc Hi. symmetry. apply (series_coef Nt h1 (dof_coefs N X i) c D1 ltac:(lia) Hc).
    - intros c i Hc Hi. replace (Nat.eqb (c * N + i) n2) with false by (symmetry; apply Nat.eqb_neq; unfold n2; nia). unfold Y0. destruct (divmod_block N c i Hi) as [-> ->]. reflexivity.
    - intros i n _. apply series_samples. lia.
    - reflexivity.
    - intros. ring.
  Qed.
End System.
