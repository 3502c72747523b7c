(** Sampling of trigonometric polynomials and recovery of their coefficients. *)
From Coq Require Import Reals Lra Lia Arith List Bool FunctionalExtensionality.
From Verif.Lib Require Import RSum Calc Py.
From Verif.Spec Require Import Harmonic.
From Verif.Model Require Import Harmonic.
From Verif.Proofs Require Import HarmonicP.
Import ListNotations.
Open Scope R_scope.

Lemma fsum_pad n m v tau : (m <= n)%nat -> (forall i, (2 * m < i)%nat -> v i = 0) ->
  fsum n v tau = fsum m v tau.
Proof.
  intros Hm H. unfold fsum. f_equal. replace n with (m + (n - m))%nat by lia.
  rewrite rsum_split. rewrite (rsum_zero (n - m)); [ring|].
  intros j Hj. rewrite !H by lia. ring.
Qed.

Lemma count_zero_in h : count_zero h = O <-> ~ In O h.
Proof.
  unfold count_zero. induction h as [|k h IH]; [simpl; tauto|]. cbn [filter In].
  destruct (Nat.eqb_spec k 0) as [->|Hk]; cbn [length].
  - split; [discriminate|]. intros H. exfalso. apply H. left. reflexivity.
  - rewrite IH. split; [intros H [E|E]; [congruence|auto]|auto].
Qed.

(** the first assertion of both transforms: harmonic 0 is absent or first *)
Lemma zero_check h :
  (Nat.eqb (count_zero h) 0 || Nat.eqb (hd 1%nat h) 0)%bool = true <->
  (In O h -> hd 1%nat h = O).
Proof.
  rewrite orb_true_iff, !Nat.eqb_eq, count_zero_in.
  split; [intros [A|A] B; [contradiction|exact A]|].
  intros H. destruct (in_dec Nat.eq_dec O h); [right; auto|left; auto].
Qed.

Lemma zero_check_tl h : ~ In O (tl h) -> In O h -> hd 1%nat h = O.
Proof. destruct h as [|k h]; cbn; [tauto|]. intros H [E|E]; [exact E|contradiction]. Qed.

Lemma supported_x0full h X0 : NoDup h -> ~ In O (tl h) -> supported h (x0full h X0).
Proof. intros Hd Hz k Hk Hn. apply x0full_outside; assumption. Qed.

Lemma dcoef_n_high h v m i : supported h v -> (2 * list_max h < i)%nat -> dcoef_n m v i = 0.
Proof.
  intros Hs Hi. pose proof (dcoef_n_supported h v m Hs) as S.
  assert (Hn : forall k, (list_max h < k)%nat -> ~ In k h).
  { intros k Hk Hin. pose proof (proj1 (list_max_le h (list_max h)) (le_n _)) as F.
    rewrite Forall_forall in F. specialize (F k Hin). lia. }
  destruct (Nat.even i) eqn:Ev.
  - apply Nat.even_spec in Ev. destruct Ev as [k ->]. apply (S k); [lia|apply Hn; lia].
  - assert (Od : Nat.odd i = true) by (rewrite <- Nat.negb_even, Ev; reflexivity).
    apply Nat.odd_spec in Od. destruct Od as [k0 ->].
    replace (2 * k0 + 1)%nat with (2 * (k0 + 1) - 1)%nat by lia.
    apply (S (k0 + 1)%nat); [lia|apply Hn; lia].
Qed.

Lemma time_series_spec Nt h X0 order :
  admissible h -> (2 * list_max h + 1 < Nt)%nat ->
  exists x g,
    time_series_deriv Nt h X0 order = Ok ((2 * (Nt / 2))%nat, x) /\
    nth_derivative order (series h X0) g /\
    forall n, x n = g (sample_phase (2 * (Nt / 2)) n).
Proof.
  intros [Hne [Hd Hz]] HNt. unfold time_series_deriv.
  rewrite (proj2 (zero_check h) (zero_check_tl h Hz)). cbn [negb].
  destruct h as [|k0 h0] eqn:Eh; [congruence|]. rewrite <- Eh in *. clear Hne Eh.
  destruct (Nat.ltb_spec (2 * list_max h + 1) Nt) as [_|C]; [|lia]. cbn [negb].
  set (n := list_max h) in *.
  set (X1 := if Nat.ltb 0 order then matvec (2 * n + 1) (matrix_power (2 * n + 1) (D1 h) order) (x0full h X0)
             else x0full h X0).
  pose proof (supported_x0full h X0 Hd Hz) as Hs.
  assert (E1 : forall i, (i < 2 * n + 1)%nat -> X1 i = dcoef_n order (x0full h X0) i).
  { intros i Hi. unfold X1. destruct (Nat.ltb_spec 0 order) as [L|L].
    - apply matrix_power_dcoef; auto.
    - assert (order = O) as -> by lia. reflexivity. }
  assert (HN : (n <= Nt / 2 - 1)%nat).
  { pose proof (Nat.div_le_mono (2 * n + 2) Nt 2 ltac:(lia) ltac:(lia)) as D.
    replace (2 * n + 2)%nat with ((n + 1) * 2)%nat in D by lia. rewrite Nat.div_mul in D by lia. lia. }
  assert (E2 : (2 * (Nt / 2 - 1) + 2 = 2 * (Nt / 2))%nat).
  { assert (1 <= Nt / 2)%nat by (apply Nat.div_le_lower_bound; lia). lia. }
  exists (real_ifft (2 * (Nt / 2 - 1) + 2) (spectrum (Nt / 2 - 1) (fun i => if Nat.ltb i (2 * n + 1) then X1 i else 0))).
  exists (fsum n (dcoef_n order (x0full h X0))).
  split; [|split].
  - rewrite E2 at 1. reflexivity.
  - apply (nth_derivative_ext order (fsum n (x0full h X0)) _ (fsum n (dcoef_n order (x0full h X0))) _).
    + intros t. apply x0full_series; auto.
    + reflexivity.
    + apply nth_derivative_fsum.
  - intros j. rewrite ifft_fsum, E2. rewrite (fsum_pad (Nt / 2 - 1) n).
    + apply fsum_ext. intros i Hi. destruct (Nat.ltb_spec i (2 * n + 1)); [|lia]. apply E1. lia.
    + exact HN.
    + intros i Hi. destruct (Nat.ltb_spec i (2 * n + 1)); [lia|reflexivity].
Qed.

Lemma time_series_errors Nt h X0 order :
  ((In O h /\ hd 1%nat h <> O) \/ (h <> [] /\ (Nt <= 2 * list_max h + 1)%nat)) ->
  time_series_deriv Nt h X0 order = Err AssertionError.
Proof.
  intros H. unfold time_series_deriv.
  destruct ((Nat.eqb (count_zero h) 0 || Nat.eqb (hd 1%nat h) 0)%bool) eqn:E; cbn [negb]; [|reflexivity].
  pose proof (proj1 (zero_check h) E) as A. destruct H as [[B C]|[B C]]; [exfalso; auto|].
  destruct h as [|k h]; [congruence|]. destruct (Nat.ltb_spec (2 * list_max (k :: h) + 1) Nt); [lia|reflexivity].
Qed.

(** ---- orthogonality ---- *)
Section DFT.
  Variable N : nat.
  Hypothesis HN : (0 < N)%nat.
  Let ph := sample_phase N.

  Lemma INRN : 0 < INR N. Proof. apply lt_0_INR. exact HN. Qed.

  Lemma telescope n f : rsum n (fun i => f (S i) - f i) = f n - f O.
  Proof. induction n as [|n IH]; cbn [rsum]; [ring|]. rewrite IH. ring. Qed.

  Lemma half_sin_pos a : (0 < a < N)%nat -> 0 < sin (INR a * PI / INR N).
  Proof.
    intros Ha. pose proof INRN as P. pose proof PI_RGT_0 as Q.
    assert (0 < INR a) by (apply lt_0_INR; lia). assert (INR a < INR N) by (apply lt_INR; lia).
    apply sin_gt_0.
    - apply Rmult_lt_0_compat; [nra|]. apply Rinv_0_lt_compat. exact P.
    - apply (Rmult_lt_reg_r (INR N)); [exact P|]. unfold Rdiv. rewrite Rmult_assoc, Rinv_l by lra. nra.
  Qed.

  Lemma sum_cos a : (0 < a < N)%nat -> rsum N (fun n => cos (INR a * ph n)) = 0.
  Proof.
    intros Ha. pose proof (half_sin_pos a Ha) as Hs. pose proof INRN as P.
    set (q := INR a * PI / INR N) in *.
    assert (E : 2 * sin q * rsum N (fun n => cos (INR a * ph n)) = 0).
    { rewrite <- rsum_scal_l.
      rewrite (rsum_ext N _ (fun n => sin (2 * INR (S n) * q - q) - sin (2 * INR n * q - q))).
      - rewrite (telescope N (fun n => sin (2 * INR n * q - q))). cbn [INR].
        replace (2 * INR N * q - q) with (- q + 2 * PI * INR a) by (unfold q; field; lra).
        rewrite sin_period_nat. replace (2 * 0 * q - q) with (- q) by ring. ring.
      - intros n Hn. rewrite S_INR.
        replace (INR a * ph n) with (2 * INR n * q) by (unfold ph, sample_phase, q; field; lra).
        replace (2 * (INR n + 1) * q - q) with (2 * INR n * q + q) by ring.
        rewrite sin_plus, sin_minus. ring. }
    nra.
  Qed.

  Lemma sum_sin a : (a < N)%nat -> rsum N (fun n => sin (INR a * ph n)) = 0.
  Proof.
    intros Ha. destruct (Nat.eq_dec a 0) as [->|Hne].
    { apply rsum_zero. intros n Hn. cbn [INR]. rewrite Rmult_0_l. apply sin_0. }
    pose proof (half_sin_pos a ltac:(lia)) as Hs. pose proof INRN as P.
    set (q := INR a * PI / INR N) in *.
    assert (E : 2 * sin q * rsum N (fun n => sin (INR a * ph n)) = 0).
    { rewrite <- rsum_scal_l.
      rewrite (rsum_ext N _ (fun n => - cos (2 * INR (S n) * q - q) - - cos (2 * INR n * q - q))).
      - rewrite (telescope N (fun n => - cos (2 * INR n * q - q))). cbn [INR].
        replace (2 * INR N * q - q) with (- q + 2 * PI * INR a) by (unfold q; field; lra).
        rewrite cos_period_nat. replace (2 * 0 * q - q) with (- q) by ring. ring.
      - intros n Hn. rewrite S_INR.
        replace (INR a * ph n) with (2 * INR n * q) by (unfold ph, sample_phase, q; field; lra).
        replace (2 * (INR n + 1) * q - q) with (2 * INR n * q + q) by ring.
        rewrite cos_plus, cos_minus. ring. }
    nra.
  Qed.

  Lemma sum_cos_0 : rsum N (fun n => cos (INR 0 * ph n)) = INR N.
  Proof.
    rewrite (rsum_ext N _ (fun _ => 1)); [rewrite rsum_const; ring|].
    intros n Hn. cbn [INR]. rewrite Rmult_0_l. apply cos_0.
  Qed.

  (** integer differences, written with the larger harmonic first *)
  Definition delta (b : bool) : R := if b then 1 else 0.

  Lemma sum_cc j k : (j + k < N)%nat ->
    rsum N (fun n => cos (INR j * ph n) * cos (INR k * ph n)) =
    INR N / 2 * (delta (Nat.eqb j k) + delta (Nat.eqb (j + k) 0)).
  Proof.
    intros H. set (d := (Nat.max j k - Nat.min j k)%nat).
    assert (Ed : forall n, cos (INR d * ph n) = cos (INR j * ph n - INR k * ph n)).
    { intros n. unfold d. destruct (Nat.le_ge_cases j k) as [L|L].
      - rewrite Nat.max_r, Nat.min_l by exact L. rewrite minus_INR by exact L.
        rewrite <- cos_neg. f_equal. ring.
      - rewrite Nat.max_l, Nat.min_r by exact L. rewrite minus_INR by exact L. f_equal. ring. }
    rewrite (rsum_ext N _ (fun n => 1 / 2 * cos (INR d * ph n) + 1 / 2 * cos (INR (j + k) * ph n))).
    - rewrite rsum_plus, !rsum_scal_l.
      destruct (Nat.eqb_spec j k) as [E|E], (Nat.eqb_spec (j + k) 0) as [F|F]; unfold delta.
      + replace d with O by (unfold d; lia). rewrite F, sum_cos_0. field.
      + replace d with O by (unfold d; lia). rewrite sum_cos_0, sum_cos by lia. field.
      + lia.
      + rewrite !sum_cos by (unfold d; lia). field.
    - intros n Hn. rewrite Ed, plus_INR, Rmult_plus_distr_r, cos_minus, cos_plus. field.
  Qed.

  Lemma sum_ss j k : (j + k < N)%nat ->
    rsum N (fun n => sin (INR j * ph n) * sin (INR k * ph n)) =
    INR N / 2 * (delta (Nat.eqb j k) - delta (Nat.eqb (j + k) 0)).
  Proof.
    intros H. set (d := (Nat.max j k - Nat.min j k)%nat).
    assert (Ed : forall n, cos (INR d * ph n) = cos (INR j * ph n - INR k * ph n)).
    { intros n. unfold d. destruct (Nat.le_ge_cases j k) as [L|L].
      - rewrite Nat.max_r, Nat.min_l by exact L. rewrite minus_INR by exact L.
        rewrite <- cos_neg. f_equal. ring.
      - rewrite Nat.max_l, Nat.min_r by exact L. rewrite minus_INR by exact L. f_equal. ring. }
    rewrite (rsum_ext N _ (fun n => 1 / 2 * cos (INR d * ph n) - 1 / 2 * cos (INR (j + k) * ph n))).
    - rewrite rsum_minus, !rsum_scal_l.
      destruct (Nat.eqb_spec j k) as [E|E], (Nat.eqb_spec (j + k) 0) as [F|F]; unfold delta.
      + replace d with O by (unfold d; lia). rewrite F, sum_cos_0. field.
      + replace d with O by (unfold d; lia). rewrite sum_cos_0, sum_cos by lia. field.
      + lia.
      + rewrite !sum_cos by (unfold d; lia). field.
    - intros n Hn. rewrite Ed, plus_INR, Rmult_plus_distr_r, cos_minus, cos_plus. field.
  Qed.

  Lemma sum_sc j k : (j + k < N)%nat ->
    rsum N (fun n => sin (INR j * ph n) * cos (INR k * ph n)) = 0.
  Proof.
    intros H. set (d := (Nat.max j k - Nat.min j k)%nat).
    assert (Ed : exists s, forall n, sin (INR j * ph n - INR k * ph n) = s * sin (INR d * ph n)).
    { unfold d. destruct (Nat.le_ge_cases j k) as [L|L].
      - exists (-1). intros n. rewrite Nat.max_r, Nat.min_l by exact L. rewrite minus_INR by exact L.
        replace (INR j * ph n - INR k * ph n) with (- ((INR k - INR j) * ph n)) by ring.
        rewrite sin_neg. ring.
      - exists 1. intros n. rewrite Nat.max_l, Nat.min_r by exact L. rewrite minus_INR by exact L.
        rewrite Rmult_1_l. f_equal. ring. }
    destruct Ed as [s Ed].
    rewrite (rsum_ext N _ (fun n => s / 2 * sin (INR d * ph n) + 1 / 2 * sin (INR (j + k) * ph n))).
    - rewrite rsum_plus, !rsum_scal_l, !sum_sin by (unfold d; lia). ring.
    - intros n Hn. replace (s / 2 * sin (INR d * ph n)) with (1 / 2 * (s * sin (INR d * ph n))) by field.
      rewrite <- Ed, plus_INR, Rmult_plus_distr_r, sin_minus, sin_plus. field.
  Qed.

  Definition harm (c : comp) : nat := match c with Cos k => k | Sin k => k end.
  Definition comp_ok (c : comp) : Prop := match c with Cos _ => True | Sin k => k <> O end.
  Definition comp_eq_dec : forall a b : comp, {a = b} + {a <> b}.
  Proof. decide equality; apply Nat.eq_dec. Defined.

  Lemma orthogonal c d : comp_ok c -> comp_ok d -> (harm c + harm d < N)%nat ->
    fourier_coef N (fun n => comp_fun d (ph n)) c = if comp_eq_dec d c then 1 else 0.
  Proof.
    intros Hc Hd H. pose proof INRN as P. unfold fourier_coef. fold ph.
    destruct c as [k|k], d as [j|j]; cbn [comp_fun harm comp_ok] in *.
    - rewrite sum_cc by lia. destruct (comp_eq_dec (Cos j) (Cos k)) as [E|E].
      + injection E as ->. rewrite Nat.eqb_refl. destruct k as [|k]; unfold delta; cbn [Nat.add Nat.eqb]; field; lra.
      + destruct (Nat.eqb_spec j k) as [->|F]; [congruence|].
        destruct (Nat.eqb_spec (j + k) 0); [lia|]. unfold delta. ring.
    - rewrite sum_sc by lia. destruct (comp_eq_dec (Sin j) (Cos k)); [discriminate|ring].
    - rewrite (rsum_ext N _ (fun n => sin (INR k * ph n) * cos (INR j * ph n))) by (intros; ring).
      rewrite sum_sc by lia. destruct (comp_eq_dec (Cos j) (Sin k)); [discriminate|]. destruct k; ring.
    - rewrite sum_ss by lia. destruct (Nat.eqb_spec (j + k) 0) as [|_]; [lia|].
      destruct (comp_eq_dec (Sin j) (Sin k)) as [E|E].
      + injection E as ->. rewrite Nat.eqb_refl. unfold delta. destruct k; [lia|]. field. lra.
      + destruct (Nat.eqb_spec j k) as [->|F]; [congruence|]. unfold delta. ring.
  Qed.
End DFT.

Lemma fourier_coef_ext N x y c : (forall n, (n < N)%nat -> x n = y n) -> fourier_coef N x c = fourier_coef N y c.
Proof. intros H. unfold fourier_coef. f_equal. apply rsum_ext. intros n Hn. rewrite H by exact Hn. reflexivity. Qed.

Lemma fourier_coef_rsum N m (f : nat -> vec) c :
  fourier_coef N (fun n => rsum m (fun i => f i n)) c = rsum m (fun i => fourier_coef N (f i) c).
Proof.
  unfold fourier_coef. rewrite rsum_scal_l. f_equal.
  rewrite (rsum_ext N _ (fun n => rsum m (fun i => f i n * comp_fun c (sample_phase N n))))
    by (intros n Hn; rewrite rsum_scal_r; reflexivity).
  apply rsum_swap.
Qed.
Lemma fourier_coef_scal N a x c : fourier_coef N (fun n => a * x n) c = a * fourier_coef N x c.
Proof.
  unfold fourier_coef. rewrite (rsum_ext N _ (fun n => a * (x n * comp_fun c (sample_phase N n)))) by (intros; ring).
  rewrite rsum_scal_l. ring.
Qed.
Lemma fourier_coef_plus N x y c : fourier_coef N (fun n => x n + y n) c = fourier_coef N x c + fourier_coef N y c.
Proof.
  unfold fourier_coef. rewrite (rsum_ext N _ (fun n => x n * comp_fun c (sample_phase N n) + y n * comp_fun c (sample_phase N n))) by (intros; ring).
  rewrite rsum_plus. ring.
Qed.

(** ---- components of a list are well formed and distinct ---- *)
Lemma in_components h c : In c (components h) -> In (harm c) h /\ comp_ok c.
Proof.
  unfold components. rewrite in_flat_map. intros [k [Hk Hc]]. destruct k as [|k]; simpl in Hc.
  - destruct Hc as [<-|[]]. simpl. auto.
  - destruct Hc as [<-|[<-|[]]]; simpl; auto.
Qed.

Lemma NoDup_components h : NoDup h -> NoDup (components h).
Proof.
  induction 1 as [|k h Hn Hd IH]; [constructor|]. unfold components in *. cbn [flat_map].
  destruct k as [|k]; cbn [app].
  - constructor; [|exact IH]. intros X. apply (in_components h) in X. cbn in X. tauto.
  - constructor; [|constructor; [|exact IH]].
    + intros [E|X]; [discriminate|]. apply (in_components h) in X. cbn in X. tauto.
    + intros X. apply (in_components h) in X. cbn in X. tauto.
Qed.

Lemma harm_max h c : In c (components h) -> (harm c <= list_max h)%nat.
Proof.
  intros H. apply in_components in H. destruct H as [H _].
  pose proof (proj1 (list_max_le h (list_max h)) (le_n _)) as F. rewrite Forall_forall in F. auto.
Qed.

Lemma series_coef N h X c : NoDup h -> (2 * list_max h < N)%nat -> (c < length (components h))%nat ->
  fourier_coef N (fun n => series h X (sample_phase N n)) (nth c (components h) (Cos O)) = X c.
Proof.
  intros Hd HN Hc. unfold series. rewrite (fourier_coef_rsum N _ (fun i n => X i * basis h i (sample_phase N n))).
  rewrite (rsum_single _ c).
  - rewrite fourier_coef_scal. unfold basis. rewrite orthogonal; try lia.
    + destruct (comp_eq_dec _ _); [ring|congruence].
    + apply in_components with (h := h). apply nth_In. exact Hc.
    + apply in_components with (h := h). apply nth_In. exact Hc.
    + pose proof (harm_max h _ (nth_In _ (Cos O) Hc)). lia.
  - exact Hc.
  - intros i Hi Hne. rewrite fourier_coef_scal. unfold basis. rewrite orthogonal; try lia.
    + destruct (comp_eq_dec _ _) as [E|E]; [|ring]. exfalso. apply Hne.
      apply (proj1 (NoDup_nth (components h) (Cos O)) (NoDup_components h Hd)); assumption.
    + apply in_components with (h := h). apply nth_In. exact Hc.
    + apply in_components with (h := h). apply nth_In. exact Hi.
    + pose proof (harm_max h _ (nth_In _ (Cos O) Hc)). pose proof (harm_max h _ (nth_In _ (Cos O) Hi)). lia.
Qed.

(** ---- get_fourier_coeff ---- *)
Lemma fft_cos Nt x k : fst (fft Nt x k) = rsum Nt (fun n => x n * cos (INR k * sample_phase Nt n)).
Proof.
  unfold fft. cbn [fst]. apply rsum_ext. intros n Hn. f_equal. f_equal. unfold sample_phase. unfold Rdiv. ring.
Qed.
Lemma fft_sin Nt x k : - snd (fft Nt x k) = rsum Nt (fun n => x n * sin (INR k * sample_phase Nt n)).
Proof.
  unfold fft. cbn [snd]. rewrite Ropp_involutive. apply rsum_ext. intros n Hn. f_equal. f_equal.
  unfold sample_phase. unfold Rdiv. ring.
Qed.

Section GFC.
  Variables (h : list nat) (Nt : nat) (x : vec).
  Hypothesis Hz : ~ In O (tl h).
  Hypothesis HN : (0 < Nt)%nat.
  Let step (v : vec) (i : nat) : vec := let hi := nth (i + zi h) h O in
       vset (vset v (2 * i + zi h) (fst (fft Nt x hi) / (INR Nt / 2)))
            (2 * i + 1 + zi h) (- snd (fft Nt x hi) / (INR Nt / 2)).
  Let v0 : vec := if Nat.eqb (zi h) 1 then vset vzero 0 (fst (fft Nt x 0) / INR Nt) else vzero.

  Lemma gfc_inv m : 
    let v := fold_left step (seq 0 m) v0 in
    (forall p, (p < m)%nat -> v (2 * p + zi h)%nat = fst (fft Nt x (nth (p + zi h) h O)) / (INR Nt / 2) /\
                              v (2 * p + 1 + zi h)%nat = - snd (fft Nt x (nth (p + zi h) h O)) / (INR Nt / 2)) /\
    (zi h = 1%nat -> v O = fst (fft Nt x 0) / INR Nt).
  Proof.
    induction m as [|m IH].
    - cbn [seq fold_left]. split; [intros; lia|]. intros E. unfold v0. rewrite E. cbn [Nat.eqb].
      apply vset_same.
    - rewrite seq_S, fold_left_app. cbn [fold_left Nat.add]. destruct IH as [A B]. split.
      + intros p Hp. unfold step at 1 3. destruct (Nat.eq_dec p m) as [->|Hne].
        * rewrite vset_same, (vset_other _ (2 * m + 1 + zi h)) by lia. rewrite vset_same. auto.
        * rewrite !vset_other by lia. apply A. lia.
      + intros E. unfold step at 1. rewrite !vset_other by lia. apply B. exact E.
  Qed.

  Lemma gfc_spec_aux c : (c < length (components h))%nat ->
    fold_left step (seq 0 (length h - zi h)) v0 c = fourier_coef Nt x (nth c (components h) (Cos O)).
  Proof.
    intros Hc. destruct (gfc_inv (length h - zi h)) as [A B].
    assert (P : INR Nt <> 0) by (apply not_0_INR; lia).
    rewrite nhc_zi, hs_length in Hc by exact Hz. pose proof (zi_le h) as Z.
    rewrite components_zi by exact Hz.
    assert (Main : forall p, (p < length h - zi h)%nat ->
      fold_left step (seq 0 (length h - zi h)) v0 (2 * p + zi h)%nat = fourier_coef Nt x (Cos (nth p (hs h) O)) /\
      fold_left step (seq 0 (length h - zi h)) v0 (2 * p + 1 + zi h)%nat = fourier_coef Nt x (Sin (nth p (hs h) O))).
    { intros p Hp. destruct (A p Hp) as [-> ->]. rewrite hs_nth.
      pose proof (hk_pos h Hz p Hp) as Hk. rewrite fft_cos, fft_sin. unfold fourier_coef. cbn [comp_fun].
      destruct (nth (p + zi h) h O); [lia|]. split; field; exact P. }
    assert (Hl : forall p, (p < length h - zi h)%nat -> (p < length (hs h))%nat) by (intros; rewrite hs_length; lia).
    destruct (Nat.eqb_spec (zi h) 1) as [E|E].
    - destruct c as [|c].
      + rewrite B by exact E. cbn [app nth]. rewrite fft_cos. unfold fourier_coef. cbn [comp_fun]. field. exact P.
      + cbn [app nth]. rewrite E in Hc.
        destruct (Nat.even c) eqn:Ev.
        * apply Nat.even_spec in Ev. destruct Ev as [p ->]. assert (Hp : (p < length h - zi h)%nat) by lia.
          destruct (nth_components_pos (hs h) p (Cos O) (hs_nonzero h Hz) (Hl p Hp)) as [-> _].
          rewrite <- (proj1 (Main p Hp)). f_equal. lia.
        * assert (Od : Nat.odd c = true) by (rewrite <- Nat.negb_even, Ev; reflexivity).
          apply Nat.odd_spec in Od. destruct Od as [p ->]. assert (Hp : (p < length h - zi h)%nat) by lia.
          destruct (nth_components_pos (hs h) p (Cos O) (hs_nonzero h Hz) (Hl p Hp)) as [_ ->].
          rewrite <- (proj2 (Main p Hp)). f_equal. lia.
    - cbn [app]. assert (E0 : zi h = O) by lia. rewrite E0 in Hc.
      destruct (Nat.even c) eqn:Ev.
      + apply Nat.even_spec in Ev. destruct Ev as [p ->]. assert (Hp : (p < length h - zi h)%nat) by lia.
        destruct (nth_components_pos (hs h) p (Cos O) (hs_nonzero h Hz) (Hl p Hp)) as [-> _].
        rewrite <- (proj1 (Main p Hp)). f_equal. lia.
      + assert (Od : Nat.odd c = true) by (rewrite <- Nat.negb_even, Ev; reflexivity).
        apply Nat.odd_spec in Od. destruct Od as [p ->]. assert (Hp : (p < length h - zi h)%nat) by lia.
        destruct (nth_components_pos (hs h) p (Cos O) (hs_nonzero h Hz) (Hl p Hp)) as [_ ->].
        rewrite <- (proj2 (Main p Hp)). f_equal. lia.
  Qed.
End GFC.

(** get_fourier_coeff computes the discrete Fourier coefficients on the components of h *)
Lemma get_fourier_coeff_spec h Nt x : h <> [] -> ~ In O (tl h) -> (list_max h < Nt)%nat ->
  exists v, get_fourier_coeff h Nt x = Ok v /\
    forall c, (c < length (components h))%nat -> v c = fourier_coef Nt x (nth c (components h) (Cos O)).
Proof.
  intros Hne Hz HN. unfold get_fourier_coeff. destruct h as [|k0 h0] eqn:Eh; [congruence|]. rewrite <- Eh in *.
  rewrite (proj2 (zero_check h) (zero_check_tl h Hz)). cbn [negb].
  destruct (existsb (fun k => Nat.leb Nt k) h) eqn:Ex.
  - apply existsb_exists in Ex. destruct Ex as [k [Hk L]]. apply Nat.leb_le in L.
    pose proof (proj1 (list_max_le h (list_max h)) (le_n _)) as F. rewrite Forall_forall in F. specialize (F k Hk). lia.
  - eexists. split; [reflexivity|]. intros c Hc. apply gfc_spec_aux; auto. lia.
Qed.

Lemma round_trip Nt h X : admissible h -> (2 * list_max h + 1 < Nt)%nat ->
  exists n x v, time_series_deriv Nt h X 0 = Ok (n, x) /\ get_fourier_coeff h n x = Ok v /\
    forall c, (c < length (components h))%nat -> v c = X c.
Proof.
  intros Ha HN. destruct (time_series_spec Nt h X 0 Ha HN) as [x [g [E [Hg Hx]]]].
  destruct Ha as [Hne [Hd Hz]].
  assert (L : (2 * list_max h < 2 * (Nt / 2))%nat).
  { pose proof (Nat.div_le_mono (2 * list_max h + 2) Nt 2 ltac:(lia) ltac:(lia)) as D.
    replace (2 * list_max h + 2)%nat with ((list_max h + 1) * 2)%nat in D by lia. rewrite Nat.div_mul in D by lia. lia. }
  destruct (get_fourier_coeff_spec h (2 * (Nt / 2)) x Hne Hz ltac:(lia)) as [v [Ev Hv]].
  exists (2 * (Nt / 2))%nat, x, v. split; [exact E|]. split; [exact Ev|].
  intros c Hc. rewrite Hv by exact Hc.
  rewrite <- (series_coef (2 * (Nt / 2)) h X c Hd L Hc). apply fourier_coef_ext. intros n Hn.
  rewrite Hx. symmetry. apply Hg.
Qed.
