(** Solutions of differential equations with Lipschitz continuous right hand sides are unique, and solutions that close extend periodically. *)
From Coq Require Import Reals List Arith Bool ZArith Lia Lra Psatz FunctionalExtensionality.
From Verif.Lib Require Import RSum Calc.
Import ListNotations.
Open Scope R_scope.

(** continuous functions on [0, T] are bounded, n at a time *)
Lemma bounded_paths n (y dy : nat -> R -> R) T : 0 <= T -> (forall i t, (i < n)%nat -> 0 <= t <= T -> derivable_pt_lim (y i) t (dy i t)) ->
  exists B, forall i t, (i < n)%nat -> 0 <= t <= T -> Rabs (y i t) <= B.
Proof.
  intros HT. induction n as [|n IH]; intros H.
  - exists 0. intros i t Hi. lia.
  - destruct IH as [B HB]; [intros i t Hi; apply H; lia|].
    assert (Hc : forall t, 0 <= t <= T -> continuity_pt (fun t => Rabs (y n t)) t).
    { intros t Ht. apply (continuity_pt_comp (y n) Rabs); [|apply Rcontinuity_abs].
      apply derivable_continuous_pt. exists (dy n t). apply H; [lia|exact Ht]. }
    destruct (continuity_ab_maj (fun t => Rabs (y n t)) 0 T HT Hc) as [m [Hm _]].
    exists (Rmax B (Rabs (y n m))). intros i t Hi Ht. destruct (Nat.eq_dec i n) as [->|Hne].
    + apply Rle_trans with (2 := Rmax_r _ _). apply Hm. exact Ht.
    + apply Rle_trans with (2 := Rmax_l _ _). apply HB; [lia|exact Ht].
Qed.

Lemma sum_squared n (x : vec) : rsum n (fun i => Rabs (x i)) ^ 2 <= INR n * rsum n (fun i => x i ^ 2).
Proof.
  pose proof (cauchy_schwarz n (fun _ => 1) (fun i => Rabs (x i))) as H. unfold dot in H.
  rewrite (rsum_ext n (fun i => 1 * Rabs (x i)) (fun i => Rabs (x i))) in H by (intros; ring).
  rewrite (rsum_ext n (fun i => 1 * 1) (fun i => 1)) in H by (intros; ring). rewrite rsum_const in H.
  rewrite (rsum_ext n (fun i => Rabs (x i) * Rabs (x i)) (fun i => x i ^ 2)) in H.
  2: { intros i _. rewrite <- Rabs_mult, Rabs_right by nra. ring. }
  replace (rsum n (fun i => Rabs (x i)) ^ 2) with (rsum n (fun i => Rabs (x i)) * rsum n (fun i => Rabs (x i))) by ring. lra.
Qed.

(** differences that start at zero and grow at most in proportion to themselves stay zero *)
Lemma gronwall n (d dd : nat -> R -> R) L T :
  (forall i, (i < n)%nat -> d i 0 = 0) ->
  (forall i t, (i < n)%nat -> 0 <= t <= T -> derivable_pt_lim (d i) t (dd i t)) ->
  (forall i t, (i < n)%nat -> 0 <= t <= T -> Rabs (dd i t) <= L * rsum n (fun j => Rabs (d j t))) ->
  forall i t, (i < n)%nat -> 0 <= t <= T -> d i t = 0.
Proof.
  intros H0 Hd HL i t Hi Ht.
  set (e := fun t => rsum n (fun i => d i t ^ 2)). set (k := 2 * Rabs L * INR n).
  set (de := fun t => rsum n (fun i => 2 * d i t * dd i t)).
  assert (De : forall s, 0 <= s <= T -> derivable_pt_lim e s (de s)).
  { intros s Hs. apply (dlim_rsum n (fun i t => d i t ^ 2) s (fun i => 2 * d i s * dd i s)). intros j Hj.
    eapply dlim_eq; [apply dlim_pow; apply (Hd j s Hj Hs)|]. simpl. ring. }
  assert (Hde : forall s, 0 <= s <= T -> de s <= k * e s).
  { intros s Hs. set (S1 := rsum n (fun j => Rabs (d j s))). assert (HS : 0 <= S1) by (apply rsum_nonneg; intros; apply Rabs_pos).
    apply Rle_trans with (2 * Rabs L * S1 ^ 2).
    - replace (2 * Rabs L * S1 ^ 2) with (2 * Rabs L * S1 * S1) by ring. unfold S1 at 2. rewrite <- rsum_scal_l. apply rsum_le. intros j Hj.
      pose proof (HL j s Hj Hs) as B. fold S1 in B.
      apply Rle_trans with (2 * (Rabs (d j s) * Rabs (dd j s))).
      + rewrite <- Rabs_mult. pose proof (Rle_abs (d j s * dd j s)). lra.
      + pose proof (Rabs_pos (d j s)) as P1. pose proof (Rle_abs L) as P2.
        assert (Rabs (dd j s) <= Rabs L * S1) by nra. nra.
    - unfold k. replace (2 * Rabs L * INR n * e s) with (2 * Rabs L * (INR n * e s)) by ring.
      apply Rmult_le_compat_l; [pose proof (Rabs_pos L); lra|]. apply (sum_squared n (fun i => d i s)). }
  assert (E0 : e 0 = 0) by (apply rsum_zero; intros j Hj; rewrite H0 by exact Hj; ring).
  assert (En : forall s, 0 <= e s) by (intros s; apply rsum_nonneg; intros; apply pow2_ge_0).
  assert (Et : e t = 0).
  { destruct (Req_dec t 0) as [->|Ht0]; [exact E0|].
    destruct (MVT_cor2 (fun s => e s * exp (- k * s)) (fun s => de s * exp (- k * s) + e s * (exp (- k * s) * - k)) 0 t) as [c [E Hc]]; [lra| |].
    - intros s Hs. apply (dlim_mult e (fun s => exp (- k * s)) s (de s) (exp (- k * s) * - k)); [apply De; lra|].
      apply (dlim_comp (fun s => - k * s) exp s (- k) (exp (- k * s))); [|apply derivable_pt_lim_exp].
      eapply dlim_eq; [apply dlim_scal, dlim_id|ring].
    - rewrite E0 in E. pose proof (Hde c ltac:(lra)) as P. pose proof (exp_pos (- k * c)) as P1. pose proof (exp_pos (- k * t)) as P2.
      pose proof (En t) as P3. assert ((de c - k * e c) * exp (- k * c) * t <= 0) by (assert ((de c - k * e c) * exp (- k * c) <= 0) by nra; nra). nra. }
  assert (Hz : d i t ^ 2 = 0).
  { apply (rsum_eq_zero_nonneg n (fun i => d i t ^ 2)); [intros; apply pow2_ge_0|exact Et|exact Hi]. }
  nra.
Qed.

(** ---- periodic extension ---- *)
(** a function that is g to the left and k to the right of t, with the same value and derivative there *)
Lemma dlim_glue (f g k : R -> R) t l dl : 0 < dl -> (forall s, t - dl < s <= t -> f s = g s) -> (forall s, t <= s < t + dl -> f s = k s) ->
  derivable_pt_lim g t l -> derivable_pt_lim k t l -> derivable_pt_lim f t l.
Proof.
  intros Hdl Hg Hk Dg Dk eps He. destruct (Dg eps He) as [d1 H1]. destruct (Dk eps He) as [d2 H2].
  assert (Hm : 0 < Rmin dl (Rmin d1 d2)).
  { pose proof (cond_pos d1). pose proof (cond_pos d2). unfold Rmin; repeat destruct Rle_dec; lra. }
  exists (mkposreal _ Hm). intros x Hx Hlt. cbn [pos] in Hlt.
  assert (Hx1 : Rabs x < dl) by (apply Rlt_le_trans with (1 := Hlt); apply Rmin_l).
  assert (Hx2 : Rabs x < d1) by (apply Rlt_le_trans with (1 := Hlt); apply Rle_trans with (1 := Rmin_r _ _); apply Rmin_l).
  assert (Hx3 : Rabs x < d2) by (apply Rlt_le_trans with (1 := Hlt); apply Rle_trans with (1 := Rmin_r _ _); apply Rmin_r).
  apply Rabs_def2 in Hx1.
  destruct (Rle_dec 0 x) as [P|P].
  - rewrite (Hk (t + x)), (Hk t) by lra. apply H2; assumption.
  - rewrite (Hg (t + x)), (Hg t) by lra. apply H1; assumption.
Qed.

(** number of whole periods before t, and the time since the last one began *)
Definition cycle (T t : R) : Z := Int_part (t / T).
Definition in_cycle (T t : R) : R := t - T * IZR (cycle T t).
Lemma in_cycle_range T t : 0 < T -> 0 <= in_cycle T t < T.
Proof.
  intros HT. unfold in_cycle, cycle. destruct (base_Int_part (t / T)) as [A B].
  assert (E : t = T * (t / T)) by (field; lra). split.
  - assert (T * IZR (Int_part (t / T)) <= T * (t / T)) by (apply Rmult_le_compat_l; lra). lra.
  - assert (T * (t / T - IZR (Int_part (t / T))) < T * 1) by (apply Rmult_lt_compat_l; lra). lra.
Qed.
Lemma cycle_unique T t k : 0 < T -> T * IZR k <= t < T * (IZR k + 1) -> cycle T t = k.
Proof.
  intros HT [A B]. unfold cycle, Int_part. assert (E : t = T * (t / T)) by (field; lra).
  assert (IZR k <= t / T) by (apply (Rmult_le_reg_l T); [exact HT|lra]).
  assert (t / T < IZR k + 1) by (apply (Rmult_lt_reg_l T); [exact HT|lra]).
  assert (P : (k + 1)%Z = up (t / T)) by (apply tech_up; rewrite plus_IZR; lra). lia.
Qed.
Lemma in_cycle_shift T t : 0 < T -> in_cycle T (t + T) = in_cycle T t.
Proof.
  intros HT. pose proof (in_cycle_range T t HT) as P. unfold in_cycle in *.
  rewrite (cycle_unique T (t + T) (cycle T t + 1)%Z HT); rewrite plus_IZR; [ring|]. lra.
Qed.

(** the extension of y from [0, T] to all times is differentiable when value and derivative at T are those at 0 *)
Lemma extension_derivative (y dy : R -> R) T : 0 < T -> (forall t, 0 <= t <= T -> derivable_pt_lim y t (dy t)) -> y T = y 0 -> dy T = dy 0 ->
  forall t, derivable_pt_lim (fun t => y (in_cycle T t)) t (dy (in_cycle T t)).
Proof.
  intros HT H Ey Edy t. pose proof (in_cycle_range T t HT) as P. set (k := cycle T t).
  assert (Hin : forall s, T * IZR k <= s < T * (IZR k + 1) -> in_cycle T s = s - T * IZR k) by (intros s Hs; unfold in_cycle; rewrite (cycle_unique T s k HT Hs); reflexivity).
  assert (Et : in_cycle T t = t - T * IZR k) by reflexivity.
  assert (Shift : forall (m : R) l, derivable_pt_lim y (t - m) l -> derivable_pt_lim (fun s => y (s - m)) t l).
  { intros m l D. eapply dlim_eq; [apply (dlim_comp (fun s => s - m) y t 1 l); [|exact D]|ring].
    eapply dlim_eq; [apply dlim_minus; [apply dlim_id|apply dlim_const]|ring]. }
  destruct (Req_dec (in_cycle T t) 0) as [Z|Z].
  - assert (Tt : t = T * IZR k) by lra.
    apply (dlim_glue _ (fun s => y (s - (T * IZR k - T))) (fun s => y (s - T * IZR k)) t _ T HT).
    + intros s Hs. destruct (Req_dec s t) as [->|Hne].
      * rewrite Z. replace (t - (T * IZR k - T)) with T by lra. symmetry. exact Ey.
      * f_equal. unfold in_cycle. rewrite (cycle_unique T s (k - 1)%Z HT); rewrite minus_IZR; lra.
    + intros s Hs. f_equal. apply Hin. lra.
    + apply Shift. replace (t - (T * IZR k - T)) with T by lra. rewrite Z, <- Edy. apply H. lra.
    + apply Shift. rewrite <- Et. apply H. lra.
  - apply dlim_ext_loc with (fun s => y (s - T * IZR k)).
    + exists (Rmin (in_cycle T t) (T - in_cycle T t)). split; [unfold Rmin; destruct Rle_dec; lra|]. intros s Hs.
      assert (A : Rabs (s - t) < in_cycle T t) by (apply Rlt_le_trans with (1 := Hs); apply Rmin_l).
      assert (B : Rabs (s - t) < T - in_cycle T t) by (apply Rlt_le_trans with (1 := Hs); apply Rmin_r).
      apply Rabs_def2 in A. apply Rabs_def2 in B. f_equal. symmetry. apply Hin. lra.
    + apply Shift. rewrite <- Et. apply H. lra.
Qed.
