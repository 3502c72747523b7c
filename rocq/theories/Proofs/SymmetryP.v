(** Symmetric systems: lists of odd harmonics are enough. *)
From Coq Require Import Reals ZArith Lra Lia Arith List Permutation FunctionalExtensionality.
From Verif.Lib Require Import RSum Py Calc.
From Verif.Spec Require Import Calculus Harmonic Elements Slider System Galerkin Rotation Symmetry.
From Verif.Model Require Import Harmonic LocalForces Aft VibSys SysElements Jenkins Iwan JaxFriction SysHistory SysHarmonic.
From Verif.Proofs Require Import HystAftP IwanAftP JaxFrictionP ElementsP VibSysP HarmonicP FourierP HarmonicOpsP AftP SliderP SliderShiftP TrigPolyP GalerkinP RotationP.
Import ListNotations.
Open Scope R_scope.

(** * Half a period *)
Lemma half_turn k t : cos (INR k * (t + PI)) = (if Nat.odd k then - cos (INR k * t) else cos (INR k * t)) /\ sin (INR k * (t + PI)) = (if Nat.odd k then - sin (INR k * t) else sin (INR k * t)).
Proof.
  induction k as [|k [IC IS]]; [cbn [INR Nat.odd Nat.even negb]; rewrite !Rmult_0_l; split; reflexivity|].
  rewrite S_INR. replace ((INR k + 1) * (t + PI)) with (INR k * (t + PI) + (t + PI)) by ring. replace ((INR k + 1) * t) with (INR k * t + t) by ring.
  rewrite (cos_plus (INR k * (t + PI))), (sin_plus (INR k * (t + PI))), IC, IS, neg_cos, neg_sin, (cos_plus (INR k * t)), (sin_plus (INR k * t)).
  rewrite Nat.odd_succ, <- Nat.negb_odd. destruct (Nat.odd k); cbn [negb]; split; ring.
Qed.

Definition even_harm (c : comp) : bool := negb (Nat.odd (harm c)).

Lemma comp_half c t : comp_fun c (t + PI) = if even_harm c then comp_fun c t else - comp_fun c t.
Proof. destruct c as [k|k]; unfold even_harm; cbn [comp_fun harm]; destruct (half_turn k t) as [E1 E2]; rewrite ?E1, ?E2; destruct (Nat.odd k); reflexivity. Qed.

Lemma odd_series h X t : (forall k, In k h -> Nat.odd k = true) -> series h X (t + PI) = - series h X t.
Proof.
  intros Ho. unfold series. rewrite <- rsum_opp. apply rsum_ext. intros c Hc. unfold basis. rewrite comp_half.
  destruct (in_components h _ (nth_In (components h) (Cos O) Hc)) as [Hi _]. unfold even_harm. rewrite (Ho _ Hi). cbn [negb]. ring.
Qed.

(** * The same functions on two lists *)
Definition part (Phi : comp -> R) (t : R) (k : nat) : R :=
  match k with O => Phi (Cos O) * comp_fun (Cos O) t | _ => Phi (Cos k) * comp_fun (Cos k) t + Phi (Sin k) * comp_fun (Sin k) t end.

Lemma series_parts h Phi t : series h (fun c => Phi (nth c (components h) (Cos O))) t = lsum (part Phi t) h.
Proof.
  unfold series, basis. rewrite (rsum_nth (fun c => Phi c * comp_fun c t)). induction h as [|k h IH]; [reflexivity|].
  cbn [components flat_map]. rewrite lsum_app. unfold components in IH. rewrite IH. cbn [lsum map fold_right]. destruct k; cbn [lsum map fold_right part]; unfold lsum; cbn; ring.
Qed.

Lemma lsum_part (f : nat -> R) h1 : forall h2, NoDup h1 -> NoDup h2 -> (forall k, In k h1 -> In k h2) -> (forall k, In k h2 -> In k h1 \/ f k = 0) -> lsum f h2 = lsum f h1.
Proof.
  induction h1 as [|k h1 IH]; intros h2 D1 D2 I1 I2.
  - assert (Z : forall k, In k h2 -> f k = 0) by (intros k Hk; destruct (I2 k Hk) as [[]|E]; exact E). clear -Z. induction h2 as [|k h2 IH]; [reflexivity|].
    change (f k + lsum f h2 = lsum f []). rewrite IH by (intros; apply Z; right; assumption). rewrite (Z k) by (left; reflexivity). cbn. ring.
  - destruct (in_split k h2 (I1 k (or_introl eq_refl))) as (a & b & ->). change (lsum f (a ++ [k] ++ b) = f k + lsum f h1). rewrite !lsum_app.
    apply NoDup_remove in D2. destruct D2 as [D2 Nk]. inversion D1 as [|? ? Nk1 D1']; subst.
    rewrite <- (IH (a ++ b) D1' D2).
    + rewrite lsum_app. unfold lsum at 2. cbn. ring.
    + intros j Hj. assert (G : In j (a ++ k :: b)) by (apply I1; right; exact Hj). apply in_app_or in G. apply in_or_app. destruct G as [G|[G|G]]; auto. subst. contradiction.
    + intros j Hj. destruct (I2 j) as [[E|E]|E]; auto. { apply in_app_or in Hj. apply in_or_app. destruct Hj; [left|right; right]; assumption. } subst. contradiction.
Qed.

Lemma same_from_parts N h1 F h2 G (Phi Psi : nat -> comp -> R) : NoDup h1 -> NoDup h2 -> odd_part h1 h2 ->
  (forall c i, (c < length (components h1))%nat -> (i < N)%nat -> F (c * N + i)%nat = Phi i (nth c (components h1) (Cos O))) ->
  (forall c i, (c < length (components h2))%nat -> (i < N)%nat -> G (c * N + i)%nat = Psi i (nth c (components h2) (Cos O))) ->
  (forall i k, (i < N)%nat -> In k h1 -> Phi i (Cos k) = Psi i (Cos k) /\ Phi i (Sin k) = Psi i (Sin k)) ->
  (forall i k, (i < N)%nat -> In k h2 -> Nat.odd k = false -> Psi i (Cos k) = 0 /\ Psi i (Sin k) = 0) -> same_motion N h1 F h2 G.
Proof.
  intros D1 D2 (O1 & O2 & O3) HF HG Hs Hz i t Hi.
  transitivity (series h1 (fun c => Phi i (nth c (components h1) (Cos O))) t); [apply rsum_ext; intros c Hc; unfold dof_coefs; rewrite HF by assumption; reflexivity|].
  transitivity (series h2 (fun c => Psi i (nth c (components h2) (Cos O))) t); [|apply rsum_ext; intros c Hc; unfold dof_coefs; rewrite HG by assumption; reflexivity].
  rewrite !series_parts. rewrite (lsum_part (part (Psi i) t) h1 h2 D1 D2 O3).
  - clear - Hs Hi. induction h1 as [|k h IH]; [reflexivity|]. change (part (Phi i) t k + lsum (part (Phi i) t) h = part (Psi i) t k + lsum (part (Psi i) t) h). f_equal.
    + destruct (Hs i k Hi (or_introl eq_refl)) as [E1 E2]. destruct k; cbn [part]; rewrite E1, ?E2; reflexivity.
    + apply IH. intros j k' Hj Hk. apply Hs; [exact Hj|right; exact Hk].
  - intros k Hk. destruct (Nat.odd k) eqn:E; [left; apply O2; assumption|right]. destruct (Hz i k Hi Hk E) as [E1 E2]. destruct k; cbn [part]; rewrite E1, ?E2; ring.
Qed.

(** * Forces with opposite halves *)
Lemma half_sample Nt : (0 < Nt)%nat -> Nat.even Nt = true -> sample_phase Nt (Nt / 2) = PI /\ (Nt / 2 + Nt / 2 = Nt)%nat.
Proof.
  intros HN He. apply Nat.even_spec in He. destruct He as [m ->]. rewrite (Nat.mul_comm 2 m), Nat.div_mul by lia. split; [|lia].
  unfold sample_phase. rewrite mult_INR. cbn [INR]. field. apply not_0_INR. lia.
Qed.

Lemma coef_shifted Nt x a c : (0 < harm c)%nat -> (harm c < Nt)%nat -> fourier_coef Nt (fun n => x n + a) c = fourier_coef Nt x c.
Proof.
  intros H1 H2. rewrite (fourier_coef_plus Nt x (fun _ => a)). assert (E : fourier_coef Nt (fun _ => a) c = 0); [|lra].
  unfold fourier_coef. rewrite rsum_scal_l. destruct c as [k|k]; cbn [harm comp_fun] in *; [rewrite sum_cos by lia|rewrite sum_sin by lia]; ring.
Qed.

Lemma coef_opposite Nt (x : nat -> R) b c : (0 < Nt)%nat -> Nat.even Nt = true -> (harm c < Nt)%nat -> even_harm c = true ->
  (forall n, x (Nt + n)%nat = x n) -> (forall n, x (Nt / 2 + n)%nat = - x n + b) -> (harm c = O -> b = 0) -> fourier_coef Nt x c = 0.
Proof.
  intros HN He Hc Ec Hp Hh H0. destruct (half_sample Nt HN He) as [EP EN].
  assert (S : rsum Nt (fun n => x n * comp_fun c (sample_phase Nt n)) = - rsum Nt (fun n => x n * comp_fun c (sample_phase Nt n)) + b * rsum Nt (fun n => comp_fun c (sample_phase Nt n))).
  { rewrite <- (rsum_turn Nt (fun n => x n * comp_fun c (sample_phase Nt n))) with (K := (Nt / 2)%nat) at 1.
    - rewrite <- rsum_scal_l, <- rsum_opp, <- rsum_plus. apply rsum_ext. intros n _. rewrite Hh, sample_plus, EP, (Rplus_comm PI), comp_half, Ec. ring.
    - intros n. rewrite Hp, sample_plus, (sample_all Nt) by lia. f_equal. rewrite <- (comp_fun_period c (sample_phase Nt n) 1). f_equal. ring. }
  assert (B : b * rsum Nt (fun n => comp_fun c (sample_phase Nt n)) = 0).
  { destruct (Nat.eq_dec (harm c) 0) as [E|E]; [rewrite (H0 E); ring|]. destruct c as [k|k]; cbn [harm comp_fun] in *; [rewrite sum_cos by lia|rewrite sum_sin by lia]; ring. }
  rewrite B in S. unfold fourier_coef. replace (rsum Nt _) with 0 by lra. ring.
Qed.

Section Pair.
  Variables (N Nt : nat) (h1 h2 : list nat) (X Y : vec).
  Hypothesis Ha1 : admissible h1.
  Hypothesis Ha2 : admissible h2.
  Hypothesis Hodd : odd_part h1 h2.
  Hypothesis HN : (2 * list_max h2 + 1 < Nt)%nat.
  Hypothesis He : Nat.even Nt = true.
  Hypothesis HXY : same_motion N h1 X h2 Y.

  Lemma in_max h k : In k h -> (k <= list_max h)%nat.
  Proof. intros H. pose proof (proj1 (list_max_le h (list_max h)) (le_n _)) as F. rewrite Forall_forall in F. apply F. exact H. Qed.

  Lemma max_le : (list_max h1 <= list_max h2)%nat.
  Proof. apply list_max_le. apply Forall_forall. intros k Hk. apply in_max. apply Hodd. exact Hk. Qed.

  Lemma same_samples (F G : vec) (x y : nat -> nat -> R) (a b : nat -> R) :
    (forall c i, (c < length (components h1))%nat -> (i < N)%nat -> F (c * N + i)%nat = fourier_coef Nt (x i) (nth c (components h1) (Cos O))) ->
    (forall c i, (c < length (components h2))%nat -> (i < N)%nat -> G (c * N + i)%nat = fourier_coef Nt (y i) (nth c (components h2) (Cos O))) ->
    (forall i n, (i < N)%nat -> y i (Nt + n)%nat = y i n) -> (forall i n, (i < N)%nat -> y i (Nt / 2 + n)%nat = - y i n + b i) ->
    (In O h2 -> forall i, (i < N)%nat -> b i = 0) -> (forall i n, (i < N)%nat -> (n < Nt)%nat -> x i n = y i n + a i) -> same_motion N h1 F h2 G.
  Proof.
    intros HF HG Hp Hh Hb Hx. pose proof Ha1 as (_ & D1 & _). pose proof Ha2 as (_ & D2 & _).
    apply (same_from_parts N h1 F h2 G (fun i => fourier_coef Nt (x i)) (fun i => fourier_coef Nt (y i)) D1 D2 Hodd HF HG).
    - intros i k Hi Hk. pose proof (in_max h1 k Hk). pose proof max_le. destruct Hodd as (O1 & _ & _). pose proof (O1 k Hk) as Ek. destruct k as [|k]; [discriminate|].
      split; rewrite (fourier_coef_ext Nt (x i) (fun n => y i n + a i)) by (intros n Hn; apply Hx; assumption); apply coef_shifted; cbn [harm]; lia.
    - intros i k Hi Hk Ek. pose proof (in_max h2 k Hk). split.
      + apply (coef_opposite Nt (y i) (b i) (Cos k)); [lia|exact He|cbn; lia|unfold even_harm; cbn [harm]; rewrite Ek; reflexivity|intros n; apply Hp; exact Hi|intros n; apply Hh; exact Hi|].
        cbn [harm]. intros E. apply Hb; [rewrite <- E; exact Hk|exact Hi].
      + apply (coef_opposite Nt (y i) (b i) (Sin k)); [lia|exact He|cbn; lia|unfold even_harm; cbn [harm]; rewrite Ek; reflexivity|intros n; apply Hp; exact Hi|intros n; apply Hh; exact Hi|].
        cbn [harm]. intros E. apply Hb; [rewrite <- E; exact Hk|exact Hi].
  Qed.

  Lemma opposite_half d t : (d < N)%nat -> series h2 (dof_coefs N Y d) (t + PI) = - series h2 (dof_coefs N Y d) t.
  Proof. intros Hd. rewrite <- !(HXY d) by exact Hd. apply odd_series. apply Hodd. Qed.

  Lemma local_same Q d t : local_motion N Q h1 X d t = local_motion N Q h2 Y d t.
  Proof. apply rsum_ext. intros j Hj. f_equal. apply HXY. exact Hj. Qed.

  Lemma mean_zero : In O h2 -> forall j, (j < N)%nat -> Y j = 0.
  Proof.
    intros H0 j Hj. destruct (first_component h2 Ha2 H0) as [L E]. pose proof Ha2 as (_ & Hd & _).
    pose proof (series_coef Nt h2 (dof_coefs N Y j) 0 Hd ltac:(lia) L) as SY. rewrite E in SY. unfold dof_coefs at 2 in SY. cbn [Nat.mul Nat.add] in SY. rewrite <- SY.
    apply (coef_opposite Nt _ 0); try assumption; try lia; try reflexivity; cbn [harm]; try lia.
    - intros n. apply series_samples. exact HN.
    - intros n. destruct (half_sample Nt ltac:(lia) He) as [EP _]. rewrite sample_plus, EP, (Rplus_comm PI), opposite_half by exact Hj. ring.
  Qed.

  Lemma slider_opposite kt Fs u u0 k : 0 <= Fs -> jenkins_law kt Fs (fun k => - u k) (- u0) k = - jenkins_law kt Fs u u0 k.
  Proof.
    intros HF. assert (C : forall x, Slider.clamp (- Fs) Fs (- x) = - Slider.clamp (- Fs) Fs x) by (intros x; unfold Slider.clamp; clamps).
    unfold jenkins_law. induction k as [|k IH]; cbn [slider]; [|rewrite IH]; rewrite <- C; f_equal; ring.
  Qed.

  Notation at2 Q := (at_samples N h2 Nt Y Q O).

  Lemma at_half Q k : at2 Q (Nt / 2 + k) = - at2 Q k.
  Proof.
    unfold at_samples, local_motion. rewrite <- rsum_opp. apply rsum_ext. intros j Hj. destruct (half_sample Nt ltac:(lia) He) as [EP _].
    rewrite sample_plus, EP, (Rplus_comm PI), opposite_half by exact Hj. ring.
  Qed.

  Lemma repeat_1 Q : repeat_samples Nt (fun n => local_motion N Q h1 X 0 (sample_phase Nt n)) = at2 Q.
  Proof. rewrite <- (repeat_U N h2 Nt HN Y Q 0). unfold repeat_samples. apply functional_extensionality. intros k. apply local_same. Qed.

  Lemma start_zero Q : In O h2 -> local_first_coef N Q Y = 0.
  Proof. intros H0. unfold local_first_coef. apply rsum_zero. intros j Hj. rewrite mean_zero by assumption. ring. Qed.

  Lemma jenkins_halves kt Fs Q u0 u1 : 0 <= Fs -> (In O h2 -> u1 = 0) ->
    exists a b, (In O h2 -> b = 0) /\ (forall k, jenkins_law kt Fs (at2 Q) u0 (Nt + k) = jenkins_law kt Fs (at2 Q) u1 (Nt + k) + a) /\
      (forall k, jenkins_law kt Fs (at2 Q) u1 (Nt + (Nt / 2 + k)) = - jenkins_law kt Fs (at2 Q) u1 (Nt + k) + b) /\
      forall k, jenkins_law kt Fs (at2 Q) u1 (Nt + (Nt + k)) = jenkins_law kt Fs (at2 Q) u1 (Nt + k).
  Proof.
    intros HF Hu1.
    pose proof (slider_starts kt Nt (fun _ => - Fs) (fun _ => Fs) (at2 Q) ltac:(lia) ltac:(intros; lra) ltac:(intros k; reflexivity) ltac:(intros k; reflexivity) (at_samples_period N h2 Nt HN Y Q 0)) as S.
    destruct (S u1 u0 O) as (a & _ & A). destruct (S u1 (- u1) (Nt / 2)%nat) as (b & Eb & B). exists a, (- b). split; [|split; [|split]].
    - intros H0. rewrite Eb; [ring|]. rewrite (Hu1 H0). ring.
    - intros k. specialize (A k). cbn [Nat.add] in A. exact A.
    - intros k. specialize (B k). replace (fun i => at2 Q (Nt / 2 + i)) with (fun i => - at2 Q i) in B by (apply functional_extensionality; intros i; symmetry; apply at_half).
      change (jenkins_law kt Fs (fun i => - at2 Q i) (- u1) (Nt + k) = jenkins_law kt Fs (at2 Q) u1 (Nt + (Nt / 2 + k)) + b) in B. rewrite slider_opposite in B by exact HF. lra.
    - intros k. apply (jenkins_period N h2 Nt HN Y). exact HF.
  Qed.

  Lemma HN1 : (2 * list_max h1 + 1 < Nt)%nat.
  Proof. pose proof max_le. lia. Qed.

  Lemma jenkins_symmetric Q T s w : steady_evaluation N h1 Nt (ElJenkins Q T s) X -> steady_evaluation N h2 Nt (ElJenkins Q T s) Y -> same_forces N Nt w h1 X h2 Y (ElJenkins Q T s).
  Proof.
    intros [HF S1] [_ S2]. cbv zeta in S1, S2. destruct (jenkins_aft_exact s N Q T h1 Nt Ha1 HN1 He HF) as (st1 & F & dF & E1 & A1 & _).
    destruct (jenkins_aft_exact s N Q T h2 Nt Ha2 HN He HF) as (st2 & G & dG & E2 & A2 & _).
    exists (ElJenkins Q T (st1 X)), (F X), (ElJenkins Q T (st2 Y)), (G Y). cbn [element_aft]. rewrite E1, E2. cbn [bind fst]. split; [reflexivity|]. split; [reflexivity|].
    pose proof (A1 X S1) as B1. pose proof (A2 Y S2) as B2. clear A1 A2 S1 S2. rewrite repeat_1 in B1. rewrite (repeat_U N h2 Nt HN Y Q 0) in B2.
    destruct (jenkins_halves (j_kt s) (j_Fs s) Q (local_first_coef N Q X) (local_first_coef N Q Y) HF (start_zero Q)) as (a & b & Eb & L1 & L2 & L3).
    apply (same_samples (F X) (G Y) (fun i n => T i O * jenkins_law (j_kt s) (j_Fs s) (at2 Q) (local_first_coef N Q X) (Nt + n))
      (fun i n => T i O * jenkins_law (j_kt s) (j_Fs s) (at2 Q) (local_first_coef N Q Y) (Nt + n)) (fun i => T i O * a) (fun i => T i O * b)).
    - intros c i Hc Hi. rewrite fourier_coef_scal. apply B1; assumption.
    - intros c i Hc Hi. rewrite fourier_coef_scal. apply B2; assumption.
    - intros i n _. rewrite L3. reflexivity.
    - intros i n _. rewrite L2. ring.
    - intros H0 i _. rewrite (Eb H0). ring.
    - intros i n _ _. rewrite L1. ring.
  Qed.

  Lemma jax_jenkins_symmetric Q T kt u0 Fs rf pf w : u0 = None \/ u0 = Some 0 -> steady_evaluation N h1 Nt (ElJaxJenkins Q T kt u0 Fs rf pf) X -> steady_evaluation N h2 Nt (ElJaxJenkins Q T kt u0 Fs rf pf) Y ->
    same_forces N Nt w h1 X h2 Y (ElJaxJenkins Q T kt u0 Fs rf pf).
  Proof.
    intros Hu [HF S1] [_ S2]. destruct (jax_jenkins_exact N Q T kt Fs u0 h1 Nt Ha1 HN1 He S1 HF) as (F & dF & dw & E1 & A1 & _).
    destruct (jax_jenkins_exact N Q T kt Fs u0 h2 Nt Ha2 HN He S2 HF) as (G & dG & dw' & E2 & A2 & _).
    exists (ElJaxJenkins Q T kt u0 Fs rf pf), (F X w), (ElJaxJenkins Q T kt u0 Fs rf pf), (G Y w). cbn [element_aft]. rewrite E1, E2. cbn [bind fst]. split; [reflexivity|]. split; [reflexivity|].
    destruct (A1 X w) as [_ B1]. destruct (A2 Y w) as [_ B2]. clear A1 A2. cbv zeta in B1, B2. rewrite repeat_1 in B1. rewrite (repeat_U N h2 Nt HN Y Q 0) in B2.
    set (s0 := match u0 with None => local_first_coef N Q X | Some x => x end) in *. set (s1 := match u0 with None => local_first_coef N Q Y | Some x => x end) in *.
    assert (Z1 : In O h2 -> s1 = 0) by (intros H0; unfold s1; destruct Hu as [->| ->]; [apply start_zero; exact H0|reflexivity]).
    destruct (jenkins_halves kt Fs Q s0 s1 HF Z1) as (a & b & Eb & L1 & L2 & L3).
    apply (same_samples (F X w) (G Y w) (fun i n => T i O * jenkins_law kt Fs (at2 Q) s0 (Nt + n)) (fun i n => T i O * jenkins_law kt Fs (at2 Q) s1 (Nt + n)) (fun i => T i O * a) (fun i => T i O * b)).
    - intros c i Hc Hi. rewrite fourier_coef_scal. apply B1; assumption.
    - intros c i Hc Hi. rewrite fourier_coef_scal. apply B2; assumption.
    - intros i n _. rewrite L3. reflexivity.
    - intros i n _. rewrite L2. ring.
    - intros H0 i _. rewrite (Eb H0). ring.
    - intros i n _ _. rewrite L1. ring.
  Qed.

  Lemma iwan_symmetric Q T s w : steady_evaluation N h1 Nt (ElIwan Q T s) X -> steady_evaluation N h2 Nt (ElIwan Q T s) Y -> same_forces N Nt w h1 X h2 Y (ElIwan Q T s).
  Proof.
    intros [HF S1] [_ S2]. cbv zeta in S1, S2. destruct (iwan_aft_exact s N Q T h1 Nt Ha1 HN1 He HF) as (st1 & F & dF & E1 & A1 & _).
    destruct (iwan_aft_exact s N Q T h2 Nt Ha2 HN He HF) as (st2 & G & dG & E2 & A2 & _).
    exists (ElIwan Q T (st1 X)), (F X), (ElIwan Q T (st2 Y)), (G Y). cbn [element_aft]. rewrite E1, E2. cbn [bind fst]. split; [reflexivity|]. split; [reflexivity|].
    pose proof (A1 X S1) as B1. pose proof (A2 Y S2) as B2. clear A1 A2 S1 S2. rewrite repeat_1 in B1. rewrite (repeat_U N h2 Nt HN Y Q 0) in B2.
    destruct (finite_choice _ 0 (iw_n s) (fun i Hi => jenkins_halves 1 (iw_phi s i) Q (local_first_coef N Q X) (local_first_coef N Q Y) (HF i Hi) (start_zero Q))) as (a & Ca).
    destruct (finite_choice _ 0 (iw_n s) Ca) as (b & Cb).
    apply (same_samples (F X) (G Y) (fun i n => T i O * bank_law (iw_n s) (iw_w s) (iw_phi s) (at2 Q) (local_first_coef N Q X) (Nt + n))
      (fun i n => T i O * bank_law (iw_n s) (iw_w s) (iw_phi s) (at2 Q) (local_first_coef N Q Y) (Nt + n))
      (fun i => T i O * rsum (iw_n s) (fun k => iw_w s k * a k)) (fun i => T i O * rsum (iw_n s) (fun k => iw_w s k * b k))).
    - intros c i Hc Hi. rewrite fourier_coef_scal. apply B1; assumption.
    - intros c i Hc Hi. rewrite fourier_coef_scal. apply B2; assumption.
    - intros i n _. f_equal. apply rsum_ext. intros k Hk. destruct (Cb k Hk) as (_ & _ & _ & L3). rewrite L3. reflexivity.
    - intros i n _. rewrite Ropp_mult_distr_r, <- Rmult_plus_distr_l. f_equal. unfold bank_law. rewrite <- rsum_opp, <- rsum_plus. apply rsum_ext. intros k Hk. destruct (Cb k Hk) as (_ & _ & L2 & _). rewrite L2. ring.
    - intros H0 i _. rewrite rsum_zero; [ring|]. intros k Hk. destruct (Cb k Hk) as (Eb & _). rewrite (Eb H0). ring.
    - intros i n _ _. rewrite <- Rmult_plus_distr_l. f_equal. unfold bank_law. rewrite <- rsum_plus. apply rsum_ext. intros k Hk. destruct (Cb k Hk) as (_ & L1 & _). rewrite L1. ring.
  Qed.

  Lemma instant_symmetric f w : symmetric_element N Nt (ElInstant f) -> same_forces N Nt w h1 X h2 Y (ElInstant f).
  Proof.
    intros (psi & Hl & Ho & Hf). set (v := fun j => dseries h2 (dof_coefs N Y j)). assert (Hv : phase_velocity N h2 Y v) by apply velocity_exists.
    assert (Hv1 : phase_velocity N h1 X v) by (intros j t Hj; apply dlim_ext with (series h2 (dof_coefs N Y j)); [intros s; symmetry; apply HXY; exact Hj|apply Hv; exact Hj]).
    assert (Vh : forall j t, (j < N)%nat -> v j (t + PI) = - v j t).
    { intros j t Hj. apply (uniqueness_limite (fun t => series h2 (dof_coefs N Y j) (t + PI)) t).
      - apply dlim_eq with (v j (t + PI) * (1 + 0)); [|ring]. apply (dlim_comp (fun t => t + PI) (series h2 (dof_coefs N Y j)) t (1 + 0) (v j (t + PI))); [|apply Hv; exact Hj]. apply dlim_plus; [apply dlim_id|apply dlim_const].
      - apply dlim_ext with (fun t => - series h2 (dof_coefs N Y j) t); [intros s; symmetry; apply opposite_half; exact Hj|]. apply dlim_opp. apply Hv. exact Hj. }
    assert (Vp : forall j t, (j < N)%nat -> v j (t + 2 * PI) = v j t) by (intros j t Hj; replace (t + 2 * PI) with (t + PI + PI) by ring; rewrite !Vh by exact Hj; ring).
    destruct (Hf h1 Ha1 HN1 He X w v Hv1) as (F & dF & dw & E1 & A1). destruct (Hf h2 Ha2 HN He Y w v Hv) as (G & dG & dw' & E2 & A2).
    exists (ElInstant f), F, (ElInstant f), G. cbn [element_aft]. rewrite E1, E2. cbn [bind fst]. split; [reflexivity|]. split; [reflexivity|].
    apply (same_samples F G _ _ (fun _ => 0) (fun _ => 0) A1 A2).
    - intros i n _. apply Hl. intros j Hj. split; [apply series_samples; exact HN|]. rewrite sample_plus, (sample_all Nt) by lia. rewrite (Rplus_comm (2 * PI)), Vp by exact Hj. reflexivity.
    - intros i n _. rewrite Rplus_0_r, <- Ho. destruct (half_sample Nt ltac:(lia) He) as [EP _]. apply Hl. intros j Hj. rewrite sample_plus, EP, (Rplus_comm PI).
      split; [apply opposite_half; exact Hj|rewrite Vh by exact Hj; ring].
    - reflexivity.
    - intros i n _ _. rewrite Rplus_0_r. apply Hl. intros j Hj. split; [apply HXY; exact Hj|reflexivity].
  Qed.

  Lemma element_symmetric w e : symmetric_element N Nt e -> steady_evaluation N h1 Nt e X -> steady_evaluation N h2 Nt e Y -> same_forces N Nt w h1 X h2 Y e.
  Proof.
    intros Hs S1 S2. destruct e; try contradiction; [apply instant_symmetric; exact Hs|apply jenkins_symmetric; assumption|apply iwan_symmetric; assumption|apply jax_jenkins_symmetric; assumption].
  Qed.
End Pair.

(** * Whole systems *)
Section System.
  Variables (N Nt : nat) (h1 h2 : list nat).
  Hypothesis Ha1 : admissible h1.
  Hypothesis Ha2 : admissible h2.
  Hypothesis Hodd : odd_part h1 h2.
  Hypothesis HN : (2 * list_max h2 + 1 < Nt)%nat.
  Hypothesis He : Nat.even Nt = true.
  Let n1 := (length (components h1) * N)%nat.
  Let n2 := (length (components h2) * N)%nat.

  Lemma same_take X Y : same_motion N h1 X h2 Y -> same_motion N h1 (take n1 X) h2 (take n2 Y).
  Proof.
    intros H d t Hd. transitivity (series h1 (dof_coefs N X d) t); [|rewrite (H d t Hd)]; apply rsum_ext; intros c Hc; unfold dof_coefs, n1, n2; rewrite take_lt by nia; reflexivity.
  Qed.

  Lemma same_aft w X Y : forall els F0 G0, (forall e, In e els -> same_forces N Nt w h1 X h2 Y e) -> same_motion N h1 F0 h2 G0 ->
    exists l1 F l2 G, sys_aft N els X w h1 Nt (Some F0) = (l1, Ok (Some F)) /\ sys_aft N els Y w h2 Nt (Some G0) = (l2, Ok (Some G)) /\ same_motion N h1 F h2 G.
  Proof.
    induction els as [|e els IH]; intros F0 G0 Hf HD; cbn [sys_aft]; [exists [], F0, [], G0; auto|].
    destruct (Hf e (or_introl eq_refl)) as (e1 & F & e2 & G & -> & -> & HFG). cbn [oadd].
    destruct (IH (vadd F0 F) (vadd G0 G)) as (l1 & F' & l2 & G' & -> & -> & H'); [intros x Hx; apply Hf; right; exact Hx| |].
    - intros d t Hd. rewrite !series_add, (HD d t Hd), (HFG d t Hd). reflexivity.
    - exists (e1 :: l1), F', (e2 :: l2), G'. auto.
  Qed.

  Lemma same_stiffness M C K w X Y : w <> 0 -> same_motion N h1 X h2 Y -> exists E1 dE1 E2 dE2, harmonic_stiffness N M C K w h1 true false = Ok (E1, dE1) /\
    harmonic_stiffness N M C K w h2 true false = Ok (E2, dE2) /\ same_motion N h1 (matvec n1 E1 X) h2 (matvec n2 E2 Y).
  Proof.
    intros Hw HXY. destruct (stiffness_eom N M C K w h1 true X Ha1) as (E & dE & v & a & HE & Hv & Hacc & Heom).
    destruct (stiffness_eom N M C K w h2 true Y Ha2) as (E' & dE' & v' & a' & HE' & Hv' & Hacc' & Heom').
    exists E, dE, E', dE'. split; [exact HE|]. split; [exact HE'|].
    assert (Mo : forall j t, (j < N)%nat -> motion N h1 X w j t = motion N h2 Y w j t) by (intros j t Hj; apply HXY; exact Hj).
    assert (Ve : forall j t, (j < N)%nat -> v' j t = v j t).
    { intros j t Hj. apply (uniqueness_limite (motion N h2 Y w j) t); [apply Hv'|]. apply dlim_ext with (motion N h1 X w j); [intros s; apply Mo; exact Hj|apply Hv]. }
    assert (Ac : forall j t, (j < N)%nat -> a' j t = a j t).
    { intros j t Hj. apply (uniqueness_limite (v' j) t); [apply Hacc'|]. apply dlim_ext with (v j); [intros s; symmetry; apply Ve; exact Hj|apply Hacc]. }
    intros d t Hd. pose proof (Heom' d (t / w) Hd) as P1. pose proof (Heom d (t / w) Hd) as P2. unfold motion at 1 in P1. unfold motion at 1 in P2.
    replace (w * (t / w)) with t in P1, P2 by (field; exact Hw). unfold n1, n2.
    rewrite P1, P2. apply rsum_ext. intros j Hj. rewrite Ve, Ac, Mo by exact Hj. reflexivity.
  Qed.

  Lemma same_zero h F h' G n n' : n = (length (components h) * N)%nat -> n' = (length (components h') * N)%nat -> NoDup h' -> same_motion N h F h' G -> (forall r, (r < n)%nat -> F r = 0) -> forall r, (r < n')%nat -> G r = 0.
  Proof.
    intros -> -> Hd HD HF r Hr. destruct (block_form _ _ _ Hr) as (c & i & Hc & Hi & ->).
    pose proof (series_coef (2 * list_max h' + 1) h' (dof_coefs N G i) c Hd ltac:(lia) Hc) as S. unfold dof_coefs at 2 in S. rewrite <- S.
    unfold fourier_coef. rewrite rsum_zero; [ring|]. intros n _. rewrite <- (HD i _ Hi). unfold series. rewrite rsum_zero; [ring|]. intros c' Hc'. unfold dof_coefs. rewrite HF by nia. ring.
  Qed.

  Lemma symmetric_residual M C K els X Y Fl1 Fl2 : X n1 <> 0 -> Y n2 = X n1 -> same_motion N h1 X h2 Y -> same_motion N h1 Fl1 h2 Fl2 ->
    (forall e, In e els -> symmetric_element N Nt e /\ steady_evaluation N h1 Nt e (take n1 X) /\ steady_evaluation N h2 Nt e (take n2 Y)) ->
    exists l1 R1 l2 R2, sys_hbm_res N M C K els X Fl1 h1 Nt = (l1, Ok (Some R1)) /\ sys_hbm_res N M C K els Y Fl2 h2 Nt = (l2, Ok (Some R2)) /\
      same_motion N h1 R1 h2 R2 /\ ((forall r, (r < n1)%nat -> R1 r = 0) <-> (forall r, (r < n2)%nat -> R2 r = 0)).
  Proof.
    intros Hw Ew HXY HFl Hel. destruct (same_stiffness M C K (X n1) X Y Hw HXY) as (E1 & dE1 & E2 & dE2 & HE1 & HE2 & HD).
    assert (Z : same_motion N h1 vzero h2 vzero) by (intros d t Hd; unfold series, dof_coefs, vzero; rewrite !rsum_zero by (intros; ring); reflexivity).
    destruct (same_aft (X n1) (take n1 X) (take n2 Y) els vzero vzero) as (l1 & F & l2 & G & A1 & A2 & HFG); [|exact Z|].
    { intros e Hin. destruct (Hel e Hin) as (Hs & S1 & S2). apply element_symmetric; try assumption. apply same_take. exact HXY. }
    unfold sys_hbm_res. rewrite !nhc_aft. fold n1 n2. rewrite Ew, HE1, HE2, A1, A2. cbn [bind].
    assert (SR : same_motion N h1 (fun i => matvec n1 E1 X i + F i - Fl1 i) h2 (fun i => matvec n2 E2 Y i + G i - Fl2 i)).
    { intros d t Hd.
      assert (S3 : forall h (A B D : vec) s, series h (dof_coefs N (fun i => A i + B i - D i) d) s = series h (dof_coefs N A d) s + series h (dof_coefs N B d) s - series h (dof_coefs N D d) s).
      { intros h A B D s. unfold series. rewrite <- rsum_plus, <- rsum_minus. apply rsum_ext. intros c _. unfold dof_coefs. ring. }
      rewrite !S3, (HD d t Hd), (HFG d t Hd), (HFl d t Hd). reflexivity. }
    eexists l1, _, l2, _. split; [reflexivity|]. split; [reflexivity|]. split; [exact SR|]. pose proof Ha1 as (_ & D1 & _). pose proof Ha2 as (_ & D2 & _). split.
    - apply (same_zero h1 _ h2 _ n1 n2); [reflexivity|reflexivity|exact D2|exact SR].
    - apply (same_zero h2 _ h1 _ n2 n1); [reflexivity|reflexivity|exact D1|]. intros d t Hd. symmetry. apply SR. exact Hd.
  Qed.

  (** every motion on the odd harmonics can be written on the larger list *)
  Lemma extended_motion X w : exists Y, same_motion N h1 X h2 Y /\ Y n2 = w.
  Proof.
    set (x := fun i n => series h1 (dof_coefs N X i) (sample_phase Nt n)).
    set (Y0 := fun r => fourier_coef Nt (x (r mod N)) (nth (r / N) (components h2) (Cos O))).
    exists (fun r => if Nat.eqb r n2 then w else Y0 r). split; [|rewrite Nat.eqb_refl; reflexivity].
    pose proof Ha1 as (_ & D1 & _). pose proof (max_le h1 h2 Hodd) as ML.
    apply (same_samples N Nt h1 h2 Ha1 Ha2 Hodd HN He X (fun r => if Nat.eqb r n2 then w else Y0 r) x x (fun _ => 0) (fun _ => 0)).
    - intros c i Hc Hi. symmetry. apply (series_coef Nt h1 (dof_coefs N X i) c D1 ltac:(lia) Hc).
    - intros c i Hc Hi. replace (Nat.eqb (c * N + i) n2) with false by (symmetry; apply Nat.eqb_neq; unfold n2; nia). unfold Y0. destruct (divmod_block N c i Hi) as [-> ->]. reflexivity.
    - intros i n _. apply series_samples. lia.
    - intros i n _. destruct (half_sample Nt ltac:(lia) He) as [EP _]. unfold x. rewrite sample_plus, EP, (Rplus_comm PI), odd_series by apply Hodd. ring.
    - reflexivity.
    - intros. ring.
  Qed.
End System.

(** * The elements without a preferred direction *)
Lemma sampled_odd N nnl Q T Nt (law : local_law) f : (forall d u v, law_f law d (- u) (- v) = - law_f law d u v) ->
  (forall U w h, nl_aft f U w h Nt = aft_instantaneous N nnl Q T law U w h Nt) -> symmetric_element N Nt (ElInstant f).
Proof.
  intros Ho Hf. exists (fun u v i => rsum nnl (fun d => T i d * law_f law d (rsum N (fun j => Q d j * u j)) (rsum N (fun j => Q d j * v j)))). split; [|split].
  - intros u u' v v' i H. apply rsum_ext. intros d _. f_equal. f_equal; apply rsum_ext; intros j Hj; destruct (H j Hj) as [E1 E2]; rewrite ?E1, ?E2; reflexivity.
  - intros u v i. rewrite <- rsum_opp. apply rsum_ext. intros d _.
    rewrite (rsum_ext N (fun j => Q d j * - u j) (fun j => - (Q d j * u j))), (rsum_ext N (fun j => Q d j * - v j) (fun j => - (Q d j * v j))) by (intros; ring). rewrite !rsum_opp, Ho. ring.
  - intros h Ha HN He U w v Hv. destruct (aft_generic N nnl Q T h Nt Ha HN He law) as (F & dU & dw & E & HF & _). exists (F U w), (dU U w), (dw U w).
    split; [rewrite Hf; apply E|]. intros c i Hc Hi. rewrite (HF U w (fun d tau => rsum N (fun j => Q d j * v j tau))) by (try assumption; intros; apply local_phase; exact Hv).
    apply fourier_coef_ext. intros n _. apply rsum_ext. intros d _. f_equal. f_equal. rewrite <- rsum_scal_l. apply rsum_ext. intros j _. ring.
Qed.

Lemma sign_opp u : Rsign (- u) = - Rsign u.
Proof. unfold Rsign. repeat destruct (Rlt_dec _ _); lra. Qed.

Lemma pow_opp x k : (- x) ^ k = (if Nat.odd k then - x ^ k else x ^ k).
Proof. induction k as [|k IH]; [reflexivity|]. cbn [pow]. rewrite IH, Nat.odd_succ, <- Nat.negb_odd. destruct (Nat.odd k); cbn [negb]; ring. Qed.

Lemma monomial_opp n e u : monomial n e (fun j => - u j) = if Nat.odd (fold_right Nat.add O (map e (seq 0 n))) then - monomial n e u else monomial n e u.
Proof.
  unfold monomial. generalize (seq 0 n). intros l. induction l as [|j l IH]; [reflexivity|]. cbn [map fold_right]. rewrite IH, pow_opp, Nat.odd_add.
  destruct (Nat.odd (e j)), (Nat.odd (fold_right Nat.add O (map e l))); cbn [xorb]; ring.
Qed.

Lemma symmetric_elements N nnl Q T Nt :
  (forall k, symmetric_element N Nt (ElInstant (cubic_nl N nnl Q T k))) /\
  (forall k, symmetric_element N Nt (ElInstant (quintic_nl N nnl Q T k))) /\
  (forall c, symmetric_element N Nt (ElInstant (damping_nl N nnl Q T c))) /\
  (forall kt Fs chi beta, symmetric_element N Nt (ElInstant (iwan_nl N nnl Q T kt Fs chi beta))) /\
  (forall cnl E qq, (forall m, (m < cnl)%nat -> Nat.odd (fold_right Nat.add O (map (qq m) (seq 0 nnl))) = true) -> symmetric_element N Nt (ElInstant (poly_nl N nnl cnl Q T E qq))).
Proof.
  split; [|split; [|split; [|split]]].
  - intros k. apply (sampled_odd N nnl Q T Nt (cubic_history k)); [|reflexivity]. intros d u v. unfold law_f. cbn. ring.
  - intros k. apply (sampled_odd N nnl Q T Nt (quintic_history k)); [|reflexivity]. intros d u v. unfold law_f. cbn. ring.
  - intros c. apply (sampled_odd N nnl Q T Nt (damping_history c)); [|reflexivity]. intros d u v. unfold law_f. cbn. ring.
  - intros kt Fs chi beta. apply (sampled_odd N nnl Q T Nt (iwan_history kt Fs chi beta)); [|reflexivity]. intros d u v. unfold law_f, iwan_history. cbn [fst snd].
    rewrite sign_opp. replace (- Rsign u * - u) with (Rsign u * u) by ring. ring.
  - intros cnl E qq Hq. exists (fun u v i => rsum nnl (fun d => T i d * rsum cnl (fun m => E d m * monomial nnl (qq m) (fun e => rsum N (fun j => Q e j * u j))))). split; [|split].
    + intros u u' v v' i H. apply rsum_ext. intros d _. f_equal. apply rsum_ext. intros m _. f_equal. f_equal. apply functional_extensionality. intros e.
      apply rsum_ext. intros j Hj. destruct (H j Hj) as [-> _]. reflexivity.
    + intros u v i. rewrite <- rsum_opp. apply rsum_ext. intros d _. rewrite Ropp_mult_distr_r, <- rsum_opp. f_equal. apply rsum_ext. intros m Hm.
      replace (fun e => rsum N (fun j => Q e j * - u j)) with (fun e => - rsum N (fun j => Q e j * u j)) by (apply functional_extensionality; intros e; rewrite <- rsum_opp; apply rsum_ext; intros; ring).
      rewrite monomial_opp, (Hq m Hm). ring.
    + intros h Ha HN He U w v Hv. destruct (aft_poly N nnl Q T h Nt Ha HN He cnl E qq) as (F & dU & A & HF & _). exists (F U), (dU U), (fun _ => 0). split; [apply A|]. intros c i Hc Hi. apply HF; assumption.
Qed.
