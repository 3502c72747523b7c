(** A trigonometric polynomial of degree H has at most 2H zeros per period, so samples of one without equal neighbours have at most
    2H direction reversals. *)
From Coq Require Import Reals Lra Lia Arith List Bool FunctionalExtensionality.
From Verif.Lib Require Import RSum Py.
From Verif.Spec Require Import Harmonic Slider.
Import ListNotations.
Open Scope R_scope.

(** ---- polynomials and their roots ---- *)
Fixpoint peval (l : list R) (t : R) : R := match l with [] => 0 | c :: l' => c + t * peval l' t end.

Lemma peval_div a l : exists q r, length q = pred (length l) /\ forall t, peval l t = (t - a) * peval q t + r.
Proof.
  induction l as [|c l (q & r & L & E)].
  - exists [], 0. split; [reflexivity|]. intros; cbn; ring.
  - destruct l as [|d l].
    + exists [], c. split; [reflexivity|]. intros; cbn; ring.
    + exists (r :: q), (c + a * r). split; [cbn in *; rewrite L; reflexivity|]. intros t. change (peval (c :: d :: l) t) with (c + t * peval (d :: l) t). rewrite E. cbn. ring.
Qed.

Lemma roots_bound zs : forall l, NoDup zs -> (forall z, In z zs -> peval l z = 0) -> (length l <= length zs)%nat -> forall t, peval l t = 0.
Proof.
  induction zs as [|z zs IH]; intros l Hnd Hz Hlen t.
  - destruct l; [reflexivity|cbn in Hlen; lia].
  - inversion Hnd as [|? ? Hni Hnd']; subst. destruct (peval_div z l) as (q & r & L & E).
    assert (r = 0). { pose proof (E z) as E0. rewrite (Hz z (or_introl eq_refl)) in E0. lra. } subst r.
    rewrite E, (IH q Hnd'); [ring| |cbn in Hlen; lia].
    intros y Hy. pose proof (E y) as Ey. rewrite (Hz y (or_intror Hy)) in Ey.
    assert (y - z <> 0) by (intros C; apply Hni; replace z with y by lra; exact Hy).
    apply (Rmult_eq_reg_l (y - z)); [lra|assumption].
Qed.

(** f is a polynomial function of degree at most n *)
Definition ispoly (n : nat) (f : R -> R) : Prop := exists l, (length l <= S n)%nat /\ forall t, f t = peval l t.

Fixpoint padd (a b : list R) : list R :=
  match a, b with [], _ => b | _, [] => a | x :: a', y :: b' => x + y :: padd a' b' end.
Lemma padd_eval a : forall b t, peval (padd a b) t = peval a t + peval b t.
Proof. induction a as [|x a IH]; intros [|y b] t; cbn; try ring. rewrite IH. ring. Qed.
Lemma padd_length a : forall b, length (padd a b) = Nat.max (length a) (length b).
Proof. induction a as [|x a IH]; intros [|y b]; cbn; try reflexivity. rewrite IH. reflexivity. Qed.
Lemma pscal_eval c l t : peval (map (Rmult c) l) t = c * peval l t.
Proof. induction l as [|x l IH]; cbn; [ring|]. rewrite IH. ring. Qed.

Lemma ispoly_add n f g : ispoly n f -> ispoly n g -> ispoly n (fun t => f t + g t).
Proof.
  intros (a & La & Ea) (b & Lb & Eb). exists (padd a b). split; [rewrite padd_length; lia|]. intros t. rewrite padd_eval, Ea, Eb. reflexivity.
Qed.
Lemma ispoly_scal n c f : ispoly n f -> ispoly n (fun t => c * f t).
Proof. intros (a & La & Ea). exists (map (Rmult c) a). split; [rewrite map_length; exact La|]. intros t. rewrite pscal_eval, Ea. reflexivity. Qed.
Lemma ispoly_mono n m f : (n <= m)%nat -> ispoly n f -> ispoly m f.
Proof. intros H (a & La & Ea). exists a. split; [lia|exact Ea]. Qed.
Lemma ispoly_ext n f g : (forall t, f t = g t) -> ispoly n f -> ispoly n g.
Proof. intros H (a & La & Ea). exists a. split; [exact La|]. intros t. rewrite <- H. apply Ea. Qed.
Lemma ispoly_shift n f : ispoly n f -> ispoly (S n) (fun t => t * f t).
Proof. intros (a & La & Ea). exists (0 :: a). split; [cbn; lia|]. intros t. cbn. rewrite Ea. ring. Qed.
Lemma ispoly_const c : ispoly 0 (fun _ => c).
Proof. exists [c]. split; [cbn; lia|]. intros; cbn; ring. Qed.
Lemma ispoly_quad n f c : ispoly n f -> ispoly (S (S n)) (fun t => (t * t + c) * f t).
Proof.
  intros H. apply (ispoly_ext _ (fun t => t * (t * f t) + c * f t)); [intros; ring|].
  apply (ispoly_add (S (S n)) (fun t => t * (t * f t)) (fun t => c * f t)).
  - apply (ispoly_shift (S n) (fun t => t * f t)). apply ispoly_shift. exact H.
  - apply (ispoly_scal (S (S n)) c f). apply (ispoly_mono n); [lia|exact H].
Qed.
Lemma ispoly_quad_pow c j : forall n f, ispoly n f -> ispoly (n + 2 * j) (fun t => (t * t + c) ^ j * f t).
Proof.
  induction j as [|j IH]; intros n f H.
  - apply (ispoly_mono n); [lia|]. apply (ispoly_ext _ f); [intros; cbn; ring|exact H].
  - replace (n + 2 * S j)%nat with (S (S (n + 2 * j))) by lia. apply (ispoly_ext _ (fun t => (t * t + c) * ((t * t + c) ^ j * f t))); [intros; cbn; ring|].
    apply (ispoly_quad (n + 2 * j) (fun t => (t * t + c) ^ j * f t) c). apply IH. exact H.
Qed.
Lemma ispoly_rsum n k f : (forall i, (i < k)%nat -> ispoly n (f i)) -> ispoly n (fun t => rsum k (fun i => f i t)).
Proof.
  induction k as [|k IH]; intros H.
  - exists []. split; [cbn; lia|]. intros; reflexivity.
  - apply (ispoly_ext _ (fun t => rsum k (fun i => f i t) + f k t)); [intros; reflexivity|].
    apply (ispoly_add n (fun t => rsum k (fun i => f i t)) (f k)); [apply IH; intros; apply H; lia|apply H; lia].
Qed.

(** ---- the substitution t = cot (tau/2) ---- *)
Fixpoint cpoly (k : nat) (t : R) : R := match k with O => 1 | S j => (t * t + - 1) * cpoly j t - 2 * t * spoly j t end
with spoly (k : nat) (t : R) : R := match k with O => 0 | S j => (t * t + - 1) * spoly j t + 2 * t * cpoly j t end.

Lemma cs_poly k : ispoly (2 * k) (cpoly k) /\ ispoly (2 * k) (spoly k).
Proof.
  induction k as [|k [IC IS]].
  - split; [apply ispoly_const|apply (ispoly_const 0)].
  - replace (2 * S k)%nat with (S (S (2 * k))) by lia. split.
    + apply (ispoly_ext _ (fun t => (t * t + - 1) * cpoly k t + -2 * (t * spoly k t))); [intros; cbn; ring|].
      apply (ispoly_add _ (fun t => (t * t + - 1) * cpoly k t) (fun t => -2 * (t * spoly k t))); [apply ispoly_quad; exact IC|].
      apply (ispoly_scal _ (-2) (fun t => t * spoly k t)). apply (ispoly_mono (S (2 * k))); [lia|]. apply ispoly_shift. exact IS.
    + apply (ispoly_ext _ (fun t => (t * t + - 1) * spoly k t + 2 * (t * cpoly k t))); [intros; cbn; ring|].
      apply (ispoly_add _ (fun t => (t * t + - 1) * spoly k t) (fun t => 2 * (t * cpoly k t))); [apply ispoly_quad; exact IS|].
      apply (ispoly_scal _ 2 (fun t => t * cpoly k t)). apply (ispoly_mono (S (2 * k))); [lia|]. apply ispoly_shift. exact IC.
Qed.

Definition cot2 (tau : R) : R := cos (tau / 2) / sin (tau / 2).

Lemma half_sin_pos tau : 0 < tau < 2 * PI -> 0 < sin (tau / 2).
Proof. intros H. apply sin_gt_0; lra. Qed.

Lemma cs_value k tau : 0 < tau < 2 * PI ->
  cpoly k (cot2 tau) = cos (INR k * tau) * (cot2 tau * cot2 tau + 1) ^ k /\ spoly k (cot2 tau) = sin (INR k * tau) * (cot2 tau * cot2 tau + 1) ^ k.
Proof.
  intros H. pose proof (half_sin_pos tau H) as Hs. set (t := cot2 tau). set (q := t * t + 1).
  assert (Ec : t * t + - 1 = cos tau * q /\ 2 * t = sin tau * q).
  { unfold q, t, cot2. pose proof (sin2_cos2 (tau / 2)) as E. unfold Rsqr in E.
    assert (C : cos tau = cos (tau / 2) * cos (tau / 2) - sin (tau / 2) * sin (tau / 2)) by (rewrite <- cos_plus; f_equal; lra).
    assert (S : sin tau = 2 * sin (tau / 2) * cos (tau / 2)) by (replace tau with (2 * (tau / 2)) at 1 by lra; apply sin_2a).
    set (s := sin (tau / 2)) in *. set (c := cos (tau / 2)) in *.
    assert (Q : c / s * (c / s) + 1 = / (s * s)). { apply (Rmult_eq_reg_r (s * s)); [|nra]. rewrite Rinv_l by nra. transitivity (c * c + s * s); [field; lra|lra]. }
    split.
    - rewrite Q, C. field. lra.
    - rewrite Q, S. field. lra. }
  destruct Ec as [Ec Es].
  induction k as [|k [IC IS]].
  - cbn. rewrite Rmult_0_l, cos_0, sin_0. split; ring.
  - rewrite S_INR. replace ((INR k + 1) * tau) with (INR k * tau + tau) by ring. rewrite cos_plus, sin_plus.
    cbn [cpoly spoly pow]. rewrite IC, IS, Ec, Es. split; ring.
Qed.

(** trigonometric polynomials of degree at most H *)
Definition istrig (H : nat) (f : R -> R) : Prop := exists a b : nat -> R, forall tau, f tau = rsum (S H) (fun k => a k * cos (INR k * tau) + b k * sin (INR k * tau)).

Lemma trig_poly H f : istrig H f -> exists l, (length l <= S (2 * H))%nat /\
  forall tau, 0 < tau < 2 * PI -> f tau * (cot2 tau * cot2 tau + 1) ^ H = peval l (cot2 tau).
Proof.
  intros (a & b & E).
  assert (P : ispoly (2 * H) (fun t => rsum (S H) (fun k => (t * t + 1) ^ (H - k) * (a k * cpoly k t + b k * spoly k t)))).
  { apply (ispoly_rsum (2 * H) (S H) (fun k t => (t * t + 1) ^ (H - k) * (a k * cpoly k t + b k * spoly k t))). intros k Hk.
    replace (2 * H)%nat with (2 * k + 2 * (H - k))%nat by lia. destruct (cs_poly k) as [PC PS].
    apply (ispoly_quad_pow 1 (H - k) (2 * k) (fun t => a k * cpoly k t + b k * spoly k t)).
    apply (ispoly_add _ (fun t => a k * cpoly k t) (fun t => b k * spoly k t)); [apply (ispoly_scal _ (a k)); exact PC|apply (ispoly_scal _ (b k)); exact PS]. }
  destruct P as (l & L & El). exists l. split; [exact L|]. intros tau Ht. rewrite <- El, E, <- rsum_scal_r. apply rsum_ext. intros k Hk.
  destruct (cs_value k tau Ht) as [-> ->].
  assert (Q : (cot2 tau * cot2 tau + 1) ^ H = (cot2 tau * cot2 tau + 1) ^ (H - k) * (cot2 tau * cot2 tau + 1) ^ k) by (rewrite <- pow_add; f_equal; lia).
  rewrite Q. ring.
Qed.

Lemma cot2_inj x y : 0 < x < 2 * PI -> 0 < y < 2 * PI -> cot2 x = cot2 y -> x = y.
Proof.
  intros Hx Hy E. pose proof (half_sin_pos x Hx). pose proof (half_sin_pos y Hy). unfold cot2 in E.
  assert (Z : sin (y / 2 - x / 2) = 0).
  { rewrite sin_minus. assert (cos (x / 2) * sin (y / 2) = cos (y / 2) * sin (x / 2)); [|lra].
    apply (Rmult_eq_reg_r (/ sin (x / 2) * / sin (y / 2))); [|apply Rmult_integral_contrapositive; split; apply Rinv_neq_0_compat; lra].
    transitivity (cos (x / 2) / sin (x / 2)); [field; lra|]. rewrite E. field. lra. }
  destruct (Rtotal_order x y) as [L|[L|L]]; [|exact L|].
  - pose proof (sin_gt_0 (y / 2 - x / 2)). lra.
  - rewrite <- (Ropp_involutive (y / 2 - x / 2)), sin_neg in Z. pose proof (sin_gt_0 (- (y / 2 - x / 2))). lra.
Qed.

(** a trigonometric polynomial of degree H with more than 2H zeros inside (0, 2 pi) vanishes there *)
Lemma trig_zeros H f zs : istrig H f -> NoDup zs -> (forall z, In z zs -> 0 < z < 2 * PI /\ f z = 0) -> (2 * H < length zs)%nat ->
  forall tau, 0 < tau < 2 * PI -> f tau = 0.
Proof.
  intros Hf Hnd Hz Hlen tau Ht. destruct (trig_poly H f Hf) as (l & L & E).
  assert (P : peval l (cot2 tau) = 0).
  { apply (roots_bound (map cot2 zs)).
    - clear Hlen. induction zs as [|z zs IH]; [constructor|]. inversion Hnd; subst. cbn. constructor.
      + intros C. apply in_map_iff in C. destruct C as (y & Ey & Hy). apply H2. rewrite (cot2_inj z y); [exact Hy|apply Hz; left; reflexivity|apply Hz; right; exact Hy|symmetry; exact Ey].
      + apply IH; [assumption|]. intros y Hy. apply Hz. right. exact Hy.
    - intros y Hy. apply in_map_iff in Hy. destruct Hy as (z & <- & Hy). destruct (Hz z Hy) as [A B]. rewrite <- E, B by exact A. ring.
    - rewrite map_length. lia. }
  rewrite <- E in P by exact Ht. assert (0 < (cot2 tau * cot2 tau + 1) ^ H) by (apply pow_lt; nra).
  apply Rmult_integral in P. destruct P; [assumption|lra].
Qed.

(** ---- reversals of samples ---- *)
Lemma istrig_add H f g : istrig H f -> istrig H g -> istrig H (fun t => f t + g t).
Proof. intros (a & b & E) (a' & b' & E'). exists (fun k => a k + a' k), (fun k => b k + b' k). intros tau. rewrite E, E', <- rsum_plus. apply rsum_ext. intros; ring. Qed.
Lemma istrig_scal H c f : istrig H f -> istrig H (fun t => c * f t).
Proof. intros (a & b & E). exists (fun k => c * a k), (fun k => c * b k). intros tau. rewrite E, <- rsum_scal_l. apply rsum_ext. intros; ring. Qed.
Lemma istrig_ext H f g : (forall t, f t = g t) -> istrig H f -> istrig H g.
Proof. intros E (a & b & F). exists a, b. intros tau. rewrite <- E. apply F. Qed.
Lemma istrig_shift H f s : istrig H f -> istrig H (fun t => f (t + s)).
Proof.
  intros (a & b & E). exists (fun k => a k * cos (INR k * s) + b k * sin (INR k * s)), (fun k => b k * cos (INR k * s) - a k * sin (INR k * s)).
  intros tau. rewrite E. apply rsum_ext. intros k _. replace (INR k * (tau + s)) with (INR k * tau + INR k * s) by ring. rewrite cos_plus, sin_plus. ring.
Qed.
Lemma istrig_comp H c : (match c with Cos k => k | Sin k => k end <= H)%nat -> istrig H (comp_fun c).
Proof.
  intros Hk. destruct c as [k|k].
  - exists (fun j => if Nat.eqb j k then 1 else 0), (fun _ => 0). intros tau. rewrite (rsum_single (S H) k); [|lia|].
    + rewrite Nat.eqb_refl. cbn. ring.
    + intros j Hj Hne. destruct (Nat.eqb_spec j k); [contradiction|ring].
  - exists (fun _ => 0), (fun j => if Nat.eqb j k then 1 else 0). intros tau. rewrite (rsum_single (S H) k); [|lia|].
    + rewrite Nat.eqb_refl. cbn. ring.
    + intros j Hj Hne. destruct (Nat.eqb_spec j k); [contradiction|ring].
Qed.
Lemma istrig_rsum H n f : (forall i, (i < n)%nat -> istrig H (f i)) -> istrig H (fun t => rsum n (fun i => f i t)).
Proof.
  induction n as [|n IH]; intros Hf.
  - exists (fun _ => 0), (fun _ => 0). intros tau. symmetry. apply rsum_zero. intros; ring.
  - apply (istrig_ext H (fun t => rsum n (fun i => f i t) + f n t)); [intros; reflexivity|]. apply (istrig_add H (fun t => rsum n (fun i => f i t)) (f n)); [apply IH; intros; apply Hf; lia|apply Hf; lia].
Qed.
Lemma istrig_series h X : istrig (list_max h) (series h X).
Proof.
  unfold series. apply (istrig_rsum (list_max h) _ (fun c t => X c * basis h c t)). intros c Hc. apply (istrig_scal _ (X c) (basis h c)). unfold basis.
  apply (istrig_ext _ (comp_fun (nth c (components h) (Cos 0)))); [reflexivity|]. apply istrig_comp.
  pose proof (nth_In (components h) (Cos 0) Hc) as I. unfold components in I at 2. apply in_flat_map in I. destruct I as (k & Hk & I).
  assert (L : (k <= list_max h)%nat) by (pose proof (proj1 (list_max_le h (list_max h)) (le_n _)) as F; rewrite Forall_forall in F; apply F; exact Hk).
  destruct k; cbn in I; [destruct I as [<-|[]]; lia|destruct I as [<-|[<-|[]]]; lia].
Qed.

Lemma sign_change_zero f a b : continuity f -> a < b -> f a * f b < 0 -> exists z, a < z < b /\ f z = 0.
Proof.
  intros C Hab Hs. destruct (IVT_cor f a b C ltac:(lra) ltac:(lra)) as (z & [Hz1 Hz2] & Ez). exists z. split; [|exact Ez].
  split; [destruct Hz1 as [|Hz1]; [assumption|subst z; rewrite Ez in Hs; lra]|destruct Hz2 as [|Hz2]; [assumption|subst z; rewrite Ez in Hs; lra]].
Qed.

Lemma istrig_continuous H f : istrig H f -> continuity f.
Proof.
  intros (a & b & E).
  assert (C : forall n, continuity (fun tau => rsum n (fun k => a k * cos (INR k * tau) + b k * sin (INR k * tau)))).
  { induction n as [|n IH]; cbn [rsum]; [apply continuity_const; intros x y; reflexivity|].
    apply (continuity_plus _ _ IH). apply (continuity_plus (fun tau => a n * cos (INR n * tau)) (fun tau => b n * sin (INR n * tau))).
    - apply (continuity_scal (fun tau => cos (INR n * tau))). apply (continuity_comp (fun tau => INR n * tau) cos); [|apply continuity_cos].
      apply (continuity_scal (fun tau => tau)). apply derivable_continuous. apply derivable_id.
    - apply (continuity_scal (fun tau => sin (INR n * tau))). apply (continuity_comp (fun tau => INR n * tau) sin); [|apply continuity_sin].
      apply (continuity_scal (fun tau => tau)). apply derivable_continuous. apply derivable_id. }
  assert (EF : f = (fun tau => rsum (S H) (fun k => a k * cos (INR k * tau) + b k * sin (INR k * tau)))) by (extensionality t; apply E).
  rewrite EF. apply C.
Qed.

(** The reversals at samples 1, ..., Nt-1. *)
Section Reversals.
  Variables (H Nt : nat) (f : R -> R).
  Hypothesis Hf : istrig H f.
  Hypothesis HNt : (1 < Nt)%nat.
  Let d (k : nat) : R := f (sample_phase Nt k + 2 * PI / INR Nt) - f (sample_phase Nt k).
  Hypothesis Hd : forall k, (k < Nt)%nat -> d k <> 0.

  Let HNR : 0 < INR Nt. Proof. apply lt_0_INR. lia. Qed.

  Lemma phase_S k : sample_phase Nt (S k) = sample_phase Nt k + 2 * PI / INR Nt.
  Proof. unfold sample_phase. rewrite S_INR. field. lra. Qed.
  Lemma phase_lt j k : (j < k)%nat -> sample_phase Nt j < sample_phase Nt k.
  Proof.
    intros L. unfold sample_phase. apply Rmult_lt_compat_r; [apply Rinv_0_lt_compat; exact HNR|]. apply Rmult_lt_compat_l; [pose proof PI_RGT_0; lra|]. apply lt_INR. exact L.
  Qed.
  Lemma phase_le j k : (j <= k)%nat -> sample_phase Nt j <= sample_phase Nt k.
  Proof. intros L. destruct (Nat.eq_dec j k) as [->|]; [lra|]. left. apply phase_lt. lia. Qed.
  Lemma phase_Nt : sample_phase Nt Nt = 2 * PI.
  Proof. unfold sample_phase. field. lra. Qed.
  Lemma phase_0 : sample_phase Nt 0 = 0.
  Proof. unfold sample_phase. cbn. field. lra. Qed.

  Lemma reversal_count ks : NoDup ks -> (forall k, In k ks -> (1 <= k < Nt)%nat /\ d (k - 1) * d k < 0) -> (length ks <= 2 * H)%nat.
  Proof.
    intros Hnd Hk. destruct (Nat.le_gt_cases (length ks) (2 * H)) as [|Hlen]; [assumption|exfalso].
    set (g := fun t => f (t + 2 * PI / INR Nt) + -1 * f t).
    assert (Hg : istrig H g). { apply (istrig_add H (fun t => f (t + 2 * PI / INR Nt)) (fun t => -1 * f t)); [apply (istrig_shift H f); exact Hf|apply (istrig_scal H (-1) f); exact Hf]. }
    assert (Eg : forall k, d k = g (sample_phase Nt k)) by (intros k; unfold d, g; ring).
    assert (Z : exists zs, length zs = length ks /\ NoDup zs /\ (forall z, In z zs -> 0 < z < 2 * PI /\ g z = 0) /\
                 forall z, In z zs -> exists k, In k ks /\ sample_phase Nt (k - 1) < z < sample_phase Nt k).
    { clear Hlen. induction ks as [|k ks IH].
      - exists []. split; [reflexivity|]. split; [constructor|]. split; intros z [].
      - inversion Hnd as [|? ? Hni Hnd']; subst. destruct (IH Hnd') as (zs & L & N & A & B); [intros; apply Hk; right; assumption|].
        destruct (Hk k (or_introl eq_refl)) as [Rk Sk]. rewrite !Eg in Sk.
        destruct (sign_change_zero g (sample_phase Nt (k - 1)) (sample_phase Nt k)) as (z & Hz & Ez); [apply (istrig_continuous H); exact Hg|apply phase_lt; lia|exact Sk|].
        exists (z :: zs). split; [cbn; rewrite L; reflexivity|]. split; [|split].
        + constructor; [|exact N]. intros C. destruct (B z C) as (j & Hj & Jz). assert (j <> k) by (intros ->; contradiction).
          destruct (Hk j (or_intror Hj)) as [Rj _].
          destruct (Nat.lt_ge_cases j k); [pose proof (phase_le j (k - 1) ltac:(lia)); lra|pose proof (phase_le k (j - 1) ltac:(lia)); lra].
        + intros y [<-|Hy]; [|apply A; exact Hy]. split; [|exact Ez]. pose proof (phase_le 0 (k - 1) ltac:(lia)). pose proof (phase_le k Nt ltac:(lia)). rewrite phase_0 in *. rewrite phase_Nt in *. lra.
        + intros y [<-|Hy]; [exists k; split; [left; reflexivity|exact Hz]|]. destruct (B y Hy) as (j & Hj & Jz). exists j. split; [right; exact Hj|exact Jz]. }
    destruct Z as (zs & L & N & A & _). apply (Hd 1%nat ltac:(lia)). rewrite Eg. apply (trig_zeros H g zs Hg N A); [lia|].
    pose proof (phase_lt 0 1 ltac:(lia)). pose proof (phase_lt 1 Nt ltac:(lia)). rewrite phase_0 in *. rewrite phase_Nt in *. lra.
  Qed.
End Reversals.
