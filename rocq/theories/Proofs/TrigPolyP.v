(** Trigonometric polynomials: products, integrals over a period and sums over equally spaced samples. *)
From Coq Require Import Reals Lra Lia Arith List FunctionalExtensionality.
From Verif.Lib Require Import RSum Calc Py.
From Verif.Spec Require Import Harmonic Elements Galerkin.
From Verif.Proofs Require Import HarmonicP FourierP.
Import ListNotations.
Open Scope R_scope.

(** trigonometric polynomials of degree at most D *)
Inductive trig (D : nat) : (R -> R) -> Prop :=
| trig_zero : trig D (fun _ => 0)
| trig_add a c f : (harm c <= D)%nat -> trig D f -> trig D (fun t => a * comp_fun c t + f t).

Lemma trig_ext D f g : trig D f -> (forall t, f t = g t) -> trig D g.
Proof. intros H E. replace g with f; [exact H|]. extensionality t. apply E. Qed.

Lemma trig_mono D D' f : (D <= D')%nat -> trig D f -> trig D' f.
Proof. intros L H. induction H; constructor; auto; lia. Qed.

Lemma trig_comp D a c : (harm c <= D)%nat -> trig D (fun t => a * comp_fun c t).
Proof. intros H. apply trig_ext with (fun t => a * comp_fun c t + 0); [|intros; ring]. apply (trig_add D a c (fun _ => 0)); [exact H|constructor]. Qed.

Lemma trig_const D a : trig D (fun _ => a).
Proof. apply trig_ext with (fun t => a * comp_fun (Cos 0) t); [apply trig_comp; cbn; lia|]. intros t. cbn [comp_fun INR]. rewrite Rmult_0_l, cos_0. ring. Qed.

Lemma trig_plus D f g : trig D f -> trig D g -> trig D (fun t => f t + g t).
Proof.
  intros Hf Hg. induction Hf as [|a c f Hc Hf IH].
  - apply trig_ext with g; [exact Hg|]. intros; ring.
  - apply trig_ext with (fun t => a * comp_fun c t + (f t + g t)); [|intros; ring]. apply (trig_add D a c (fun t => f t + g t)); assumption.
Qed.

Lemma trig_scal D k f : trig D f -> trig D (fun t => k * f t).
Proof.
  intros Hf. induction Hf as [|a c f Hc Hf IH].
  - apply trig_ext with (fun _ => 0); [constructor|]. intros; ring.
  - apply trig_ext with (fun t => (k * a) * comp_fun c t + k * f t); [|intros; ring]. apply (trig_add D (k * a) c (fun t => k * f t)); assumption.
Qed.

Lemma trig_rsum D n (f : nat -> R -> R) : (forall i, (i < n)%nat -> trig D (f i)) -> trig D (fun t => rsum n (fun i => f i t)).
Proof.
  induction n as [|n IH]; intros H; [apply trig_ext with (fun _ => 0); [constructor|reflexivity]|].
  apply trig_ext with (fun t => rsum n (fun i => f i t) + f n t); [|intros; rewrite rsum_S; reflexivity].
  apply trig_plus; [apply IH; intros; apply H; lia|apply H; lia].
Qed.

Lemma trig_comp_comp j k c d : harm c = j -> harm d = k -> trig (j + k) (fun t => comp_fun c t * comp_fun d t).
Proof.
  intros <- <-. set (m := (Nat.max (harm c) (harm d) - Nat.min (harm c) (harm d))%nat).
  assert (Em : exists s, (s = 1 \/ s = Ropp 1) /\ forall t, INR (harm c) * t - INR (harm d) * t = s * (INR m * t)).
  { unfold m. destruct (Nat.le_ge_cases (harm c) (harm d)) as [L|L].
    - exists (Ropp 1). split; [right; reflexivity|]. intros t. rewrite Nat.max_r, Nat.min_l by exact L. rewrite minus_INR by exact L. ring.
    - exists 1. split; [left; reflexivity|]. intros t. rewrite Nat.max_l, Nat.min_r by exact L. rewrite minus_INR by exact L. ring. }
  destruct Em as [s [Hs Em]].
  assert (Hm : (m <= harm c + harm d)%nat) by (unfold m; lia).
  assert (Ec : forall t, cos (INR (harm c) * t - INR (harm d) * t) = cos (INR m * t)).
  { intros t. rewrite Em. destruct Hs as [->| ->]; [f_equal; ring|]. rewrite <- (cos_neg (INR m * t)). f_equal. ring. }
  assert (Es : forall t, sin (INR (harm c) * t - INR (harm d) * t) = s * sin (INR m * t)).
  { intros t. rewrite Em. destruct Hs as [->| ->]; [rewrite !Rmult_1_l; reflexivity|]. replace (-1 * (INR m * t)) with (- (INR m * t)) by ring.
    replace (- (1) * (INR m * t)) with (- (INR m * t)) by ring. rewrite sin_neg. ring. }
  assert (P : forall a b x y, (harm x <= harm c + harm d)%nat -> (harm y <= harm c + harm d)%nat -> trig (harm c + harm d) (fun t => a * comp_fun x t + b * comp_fun y t)).
  { intros a b x y Hx Hy. apply (trig_plus _ (fun t => a * comp_fun x t) (fun t => b * comp_fun y t)); apply trig_comp; assumption. }
  set (p := (harm c + harm d)%nat) in *.
  assert (Ep : forall t, INR p * t = INR (harm c) * t + INR (harm d) * t) by (intros t; unfold p; rewrite plus_INR; ring).
  destruct c as [j|j], d as [k|k]; cbn [harm comp_fun] in *.
  - apply trig_ext with (fun t => 1/2 * comp_fun (Cos m) t + 1/2 * comp_fun (Cos p) t); [apply P; cbn; lia|].
    intros t. cbn [comp_fun]. rewrite <- Ec, Ep, cos_minus, cos_plus. field.
  - apply trig_ext with (fun t => (- s / 2) * comp_fun (Sin m) t + 1/2 * comp_fun (Sin p) t); [apply P; cbn; lia|].
    intros t. cbn [comp_fun]. replace (- s / 2 * sin (INR m * t)) with (- (1/2) * (s * sin (INR m * t))) by field. rewrite <- Es, Ep, sin_minus, sin_plus. field.
  - apply trig_ext with (fun t => (s / 2) * comp_fun (Sin m) t + 1/2 * comp_fun (Sin p) t); [apply P; cbn; lia|].
    intros t. cbn [comp_fun]. replace (s / 2 * sin (INR m * t)) with (1/2 * (s * sin (INR m * t))) by field. rewrite <- Es, Ep, sin_minus, sin_plus. field.
  - apply trig_ext with (fun t => 1/2 * comp_fun (Cos m) t + (- (1/2)) * comp_fun (Cos p) t); [apply P; cbn; lia|].
    intros t. cbn [comp_fun]. rewrite <- Ec, Ep, cos_minus, cos_plus. field.
Qed.

Lemma trig_mult D E f g : trig D f -> trig E g -> trig (D + E) (fun t => f t * g t).
Proof.
  intros Hf Hg. induction Hf as [|a c f Hc Hf IH].
  - apply trig_ext with (fun _ => 0); [constructor|]. intros; ring.
  - apply trig_ext with (fun t => a * (comp_fun c t * g t) + f t * g t); [|intros; ring].
    apply trig_plus; [|exact IH]. apply trig_scal. clear IH Hf f a.
    induction Hg as [|b d g Hd Hg IH].
    + apply trig_ext with (fun _ => 0); [constructor|]. intros; ring.
    + apply trig_ext with (fun t => b * (comp_fun c t * comp_fun d t) + comp_fun c t * g t); [|intros; ring].
      apply trig_plus; [|exact IH]. apply trig_scal. apply trig_mono with (harm c + harm d)%nat; [lia|]. apply trig_comp_comp; reflexivity.
Qed.

Lemma trig_pow D f p : trig D f -> trig (p * D) (fun t => f t ^ p).
Proof.
  intros H. induction p as [|p IH]; [apply (trig_const 0 1)|]. cbn [pow]. apply (trig_mult D (p * D) f (fun t => f t ^ p)); assumption.
Qed.

Lemma trig_series h X : trig (list_max h) (series h X).
Proof.
  unfold series. apply trig_rsum. intros i Hi. unfold basis. apply trig_comp. apply harm_max. apply nth_In. exact Hi.
Qed.

(** derivative *)
Lemma trig_derivative D f : trig D f -> exists f', trig D f' /\ forall t, derivable_pt_lim f t (f' t).
Proof.
  intros H. induction H as [|a c f Hc Hf [f' [IH1 IH2]]].
  - exists (fun _ => 0). split; [constructor|]. intros t. apply dlim_const.
  - destruct c as [k|k]; cbn [harm] in Hc.
    + exists (fun t => (- (a * INR k)) * comp_fun (Sin k) t + f' t). split; [apply trig_add; assumption|]. intros t. cbn [comp_fun].
      apply (dlim_plus (fun t => a * cos (INR k * t)) f t (- (a * INR k) * sin (INR k * t)) (f' t)); [|apply IH2].
      apply dlim_eq with (a * (- sin (INR k * t) * (INR k * 1))); [|ring]. apply dlim_scal.
      apply (dlim_comp (fun t => INR k * t) cos t (INR k * 1) (- sin (INR k * t))); [apply dlim_scal, dlim_id|apply derivable_pt_lim_cos].
    + exists (fun t => (a * INR k) * comp_fun (Cos k) t + f' t). split; [apply trig_add; assumption|]. intros t. cbn [comp_fun].
      apply (dlim_plus (fun t => a * sin (INR k * t)) f t ((a * INR k) * cos (INR k * t)) (f' t)); [|apply IH2].
      apply dlim_eq with (a * (cos (INR k * t) * (INR k * 1))); [|ring]. apply dlim_scal.
      apply (dlim_comp (fun t => INR k * t) sin t (INR k * 1) (cos (INR k * t))); [apply dlim_scal, dlim_id|apply derivable_pt_lim_sin].
Qed.

Lemma trig_velocity D f f' : trig D f -> (forall t, derivable_pt_lim f t (f' t)) -> trig D f'.
Proof.
  intros H Hd. destruct (trig_derivative D f H) as [g [Hg Eg]]. apply trig_ext with g; [exact Hg|]. intros t. exact (uniqueness_limite f t _ _ (Eg t) (Hd t)).
Qed.

(** the mean over samples shifted by s is the mean over the period *)
Lemma trig_mean D f : trig D f -> exists m F, (forall t, derivable_pt_lim F t (f t)) /\ F (2 * PI) - F 0 = 2 * PI * m /\
  forall N s, (D < N)%nat -> rsum N (fun n => f (sample_phase N n + s)) = INR N * m.
Proof.
  intros H. induction H as [|a c f Hc Hf [m [F [IH1 [IH2 IH3]]]]].
  - exists 0, (fun _ => 0). split; [intros t; apply dlim_const|]. split; [ring|]. intros N s HN. rewrite rsum_const. ring.
  - assert (S2 : sin (2 * PI) = 0) by apply sin_2PI. assert (C2 : cos (2 * PI) = 1) by apply cos_2PI.
    assert (Sk : forall k : nat, sin (INR k * (2 * PI)) = 0).
    { intros k. replace (INR k * (2 * PI)) with (0 + 2 * PI * INR k) by ring. replace (0 + 2 * PI * INR k) with (0 + 2 * INR k * PI) by ring. rewrite sin_period. apply sin_0. }
    assert (Ck : forall k : nat, cos (INR k * (2 * PI)) = 1).
    { intros k. replace (INR k * (2 * PI)) with (0 + 2 * INR k * PI) by ring. rewrite cos_period. apply cos_0. }
    destruct c as [[|k]|[|k]]; cbn [harm comp_fun] in *.
    + exists (a + m), (fun t => a * t + F t). split; [|split].
      * intros t. cbn [INR]. rewrite Rmult_0_l, cos_0. apply dlim_plus; [|apply IH1]. apply dlim_scal, dlim_id.
      * replace (a * (2 * PI) + F (2 * PI) - (a * 0 + F 0)) with (2 * PI * a + (F (2 * PI) - F 0)) by ring. rewrite IH2. ring.
      * intros N s HN. rewrite rsum_plus, IH3 by exact HN. rewrite (rsum_ext N _ (fun _ => a)).
        -- rewrite rsum_const. ring.
        -- intros n _. cbn [INR]. rewrite Rmult_0_l, cos_0. ring.
    + set (K := S k) in *. assert (HK : INR K <> 0) by (apply not_0_INR; unfold K; lia).
      exists m, (fun t => a / INR K * sin (INR K * t) + F t). split; [|split].
      * intros t. apply dlim_plus; [|apply IH1]. apply dlim_eq with (a / INR K * (cos (INR K * t) * (INR K * 1))); [|field; exact HK]. apply dlim_scal.
        apply (dlim_comp (fun t => INR K * t) sin t (INR K * 1) (cos (INR K * t))); [apply dlim_scal, dlim_id|apply derivable_pt_lim_sin].
      * rewrite Sk, (Rmult_0_r (INR K)), sin_0. rewrite <- IH2. ring.
      * intros N s HN. rewrite rsum_plus, IH3 by exact HN. rewrite rsum_scal_l.
        rewrite (rsum_ext N _ (fun n => cos (INR K * s) * cos (INR K * sample_phase N n) - sin (INR K * s) * sin (INR K * sample_phase N n))).
        -- rewrite rsum_minus, !rsum_scal_l, sum_cos, sum_sin by lia. ring.
        -- intros n _. rewrite Rmult_plus_distr_l, cos_plus. ring.
    + exists m, F. split; [|split].
      * intros t. cbn [INR]. rewrite Rmult_0_l, sin_0, Rmult_0_r. apply dlim_eq with (f t); [apply IH1|ring].
      * exact IH2.
      * intros N s HN. rewrite rsum_plus, IH3 by exact HN. rewrite rsum_zero; [ring|]. intros n _. cbn [INR]. rewrite Rmult_0_l, sin_0. ring.
    + set (K := S k) in *. assert (HK : INR K <> 0) by (apply not_0_INR; unfold K; lia).
      exists m, (fun t => - a / INR K * cos (INR K * t) + F t). split; [|split].
      * intros t. apply dlim_plus; [|apply IH1]. apply dlim_eq with (- a / INR K * (- sin (INR K * t) * (INR K * 1))); [|field; exact HK]. apply dlim_scal.
        apply (dlim_comp (fun t => INR K * t) cos t (INR K * 1) (- sin (INR K * t))); [apply dlim_scal, dlim_id|apply derivable_pt_lim_cos].
      * rewrite Ck, (Rmult_0_r (INR K)), cos_0. rewrite <- IH2. ring.
      * intros N s HN. rewrite rsum_plus, IH3 by exact HN. rewrite rsum_scal_l.
        rewrite (rsum_ext N _ (fun n => cos (INR K * s) * sin (INR K * sample_phase N n) + sin (INR K * s) * cos (INR K * sample_phase N n))).
        -- rewrite rsum_plus, !rsum_scal_l, sum_cos, sum_sin by lia. ring.
        -- intros n _. rewrite Rmult_plus_distr_l, sin_plus. ring.
Qed.

(** discrete coefficients are the Fourier integrals *)
Lemma coef_exact D f c N : trig D f -> (D + harm c < N)%nat -> fourier_integral f c (fourier_coef N (fun n => f (sample_phase N n)) c).
Proof.
  intros Hf HN. assert (Hp : trig (D + harm c) (fun t => f t * comp_fun c t)).
  { apply trig_mult; [exact Hf|]. apply trig_ext with (fun t => 1 * comp_fun c t); [apply trig_comp; lia|intros; ring]. }
  destruct (trig_mean _ _ Hp) as [m [F [H1 [H2 H3]]]]. exists (2 * PI * m). split.
  - exists F. split; [exact H1|]. symmetry. exact H2.
  - unfold fourier_coef. rewrite (rsum_ext N _ (fun n => f (sample_phase N n + 0) * comp_fun c (sample_phase N n + 0))) by (intros; rewrite !Rplus_0_r; reflexivity).
    rewrite (H3 N 0 HN). pose proof PI_RGT_0. assert (INR N <> 0) by (apply not_0_INR; lia). field. split; [lra|assumption].
Qed.

Lemma integral_unique f I J : period_integral f I -> period_integral f J -> I = J.
Proof.
  intros [F [HF ->]] [G [HG ->]].
  assert (E : forall t, derivable_pt_lim (fun t => F t - G t) t 0).
  { intros t. apply dlim_eq with (f t - f t); [|ring]. apply dlim_minus; auto. }
  assert (K : (fun t => F t - G t) (2 * PI) = (fun t => F t - G t) 0).
  { pose proof PI_RGT_0 as P.
    assert (pr : forall c, 0 < c < 2 * PI -> derivable_pt (fun t => F t - G t) c) by (intros c _; exists 0; apply E).
    destruct (MVT_cor2 (fun t => F t - G t) (fun _ => 0) 0 (2 * PI) ltac:(lra) ltac:(intros; apply E)) as [c [H _]]. cbv beta in H |- *. lra. }
  cbv beta in K. lra.
Qed.

Lemma fourier_unique f c a b : fourier_integral f c a -> fourier_integral f c b -> a = b.
Proof. intros [I [HI ->]] [J [HJ ->]]. rewrite (integral_unique _ _ _ HI HJ). reflexivity. Qed.

Lemma integral_ext f g I : (forall t, f t = g t) -> period_integral f I -> period_integral g I.
Proof. intros E [F [H ->]]. exists F. split; [|reflexivity]. intros t. rewrite <- E. apply H. Qed.

Lemma fourier_ext f g c a : (forall t, f t = g t) -> fourier_integral f c a -> fourier_integral g c a.
Proof. intros E [I [H ->]]. exists I. split; [|reflexivity]. apply integral_ext with (2 := H). intros t. rewrite E. reflexivity. Qed.

Lemma fourier_plus f g c a b : fourier_integral f c a -> fourier_integral g c b -> fourier_integral (fun t => f t + g t) c (a + b).
Proof.
  intros [I [[F [HF ->]] ->]] [J [[G [HG ->]] ->]]. exists ((F (2 * PI) + G (2 * PI)) - (F 0 + G 0)). split; [|ring].
  exists (fun t => F t + G t). split; [|reflexivity]. intros t. apply dlim_eq with (f t * comp_fun c t + g t * comp_fun c t); [|ring]. apply dlim_plus; auto.
Qed.

Lemma fourier_scal k f c a : fourier_integral f c a -> fourier_integral (fun t => k * f t) c (k * a).
Proof.
  intros [I [[F [HF ->]] ->]]. exists (k * F (2 * PI) - k * F 0). split; [|ring].
  exists (fun t => k * F t). split; [|reflexivity]. intros t. apply dlim_eq with (k * (f t * comp_fun c t)); [|ring]. apply dlim_scal. auto.
Qed.

Lemma fourier_zero c : fourier_integral (fun _ => 0) c 0.
Proof. exists 0. split; [|ring]. exists (fun _ => 0). split; [|ring]. intros t. apply dlim_eq with 0; [apply dlim_const|ring]. Qed.

Lemma fourier_rsum n (f : nat -> R -> R) c (a : nat -> R) : (forall i, (i < n)%nat -> fourier_integral (f i) c (a i)) ->
  fourier_integral (fun t => rsum n (fun i => f i t)) c (rsum n a).
Proof.
  induction n as [|n IH]; intros H; [apply fourier_zero|].
  rewrite rsum_S. apply fourier_ext with (fun t => rsum n (fun i => f i t) + f n t); [intros; rewrite rsum_S; reflexivity|].
  apply fourier_plus; [apply IH; intros; apply H; lia|apply H; lia].
Qed.

(** coefficients of a harmonic series *)
Lemma series_integral h X c : NoDup h -> (c < length (components h))%nat -> fourier_integral (series h X) (nth c (components h) (Cos O)) (X c).
Proof.
  intros Hd Hc. rewrite <- (series_coef (2 * list_max h + 1) h X c Hd ltac:(lia) Hc).
  apply (coef_exact (list_max h)); [apply trig_series|]. pose proof (harm_max h _ (nth_In (components h) (Cos O) Hc)). lia.
Qed.
