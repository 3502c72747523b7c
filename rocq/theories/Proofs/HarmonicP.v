(** Proofs about the harmonic utilities: component lists, sampling, Fourier round trip. *)
From Coq Require Import Reals Lra Lia Arith List Bool FunctionalExtensionality.
From Verif.Lib Require Import RSum Calc Py.
From Verif.Spec Require Import Harmonic.
From Verif.Model Require Import Harmonic.
Import ListNotations.
Open Scope R_scope.

(** ---- lists of harmonics ---- *)
Lemma length_components h : length (components h) = (2 * count_nonzero h + count_zero h)%nat.
Proof.
  unfold count_nonzero, count_zero. induction h as [|k h IH]; [reflexivity|].
  unfold components in *. cbn [flat_map]. rewrite app_length, IH.
  destruct k; cbn [filter Nat.eqb negb length]; lia.
Qed.

Lemma nodup_length_le (h : list nat) : (length (nodup Nat.eq_dec h) <= length h)%nat.
Proof.
  induction h as [|k h IH]; simpl; [lia|]. destruct (in_dec Nat.eq_dec k h); simpl; lia.
Qed.

Lemma nodup_length (h : list nat) :
  length (nodup Nat.eq_dec h) = length h <-> NoDup h.
Proof.
  split.
  - induction h as [|k h IH]; intros H; [constructor|].
    simpl in H. pose proof (nodup_length_le h) as L.
    destruct (in_dec Nat.eq_dec k h) as [i|n].
    + lia.
    + simpl in H. constructor; [exact n|]. apply IH. lia.
  - intros H. rewrite nodup_fixed_point by exact H. reflexivity.
Qed.

Lemma Nhc_spec h :
  (NoDup h -> Nhc h = Ok (length (components h))) /\ (~ NoDup h -> Nhc h = Err AssertionError).
Proof.
  unfold Nhc. rewrite length_components.
  destruct (Nat.eqb_spec (length (nodup Nat.eq_dec h)) (length h)) as [E|E].
  - split; [reflexivity|]. intros H. exfalso. apply H. apply nodup_length. exact E.
  - split; [|reflexivity]. intros H. exfalso. apply E. apply nodup_length. exact H.
Qed.

Lemma zi_le h : (zi h <= 1)%nat.
Proof. unfold zi. destruct (Nat.eqb _ _); lia. Qed.

Lemma zi_length h : h <> [] -> (zi h <= length h)%nat.
Proof. intros H. destruct h; [congruence|]. pose proof (zi_le (n :: h)). simpl length. lia. Qed.

(** the nonzero part of an admissible list *)
Definition hs (h : list nat) : list nat := skipn (zi h) h.

Lemma hs_nonzero h : ~ In O (tl h) -> ~ In O (hs h).
Proof.
  unfold hs, zi. destruct h as [|k h]; [simpl; auto|]. cbn [hd tl].
  destruct (Nat.eqb_spec k 0) as [->|Hk]; cbn [skipn]; [auto|].
  intros H [E|E]; [congruence|auto].
Qed.

Lemma hs_length h : length (hs h) = (length h - zi h)%nat.
Proof. unfold hs. apply skipn_length. Qed.

Lemma hs_nodup h : NoDup h -> NoDup (hs h).
Proof.
  unfold hs, zi. destruct h as [|k h]; [auto|]. destruct (Nat.eqb _ _); cbn [skipn]; auto.
  intros H. inversion H; auto.
Qed.

Lemma hs_nth h p : nth p (hs h) O = nth (p + zi h) h O.
Proof.
  unfold hs. rewrite Nat.add_comm. generalize (zi h). intros z. revert h.
  induction z as [|z IH]; intros h; [reflexivity|]. destruct h as [|k h]; cbn [skipn].
  - destruct p; destruct z; reflexivity.
  - rewrite IH. reflexivity.
Qed.

Lemma components_pos l : ~ In O l ->
  components l = flat_map (fun k => [Cos k; Sin k]) l.
Proof.
  induction l as [|k l IH]; intros H; [reflexivity|]. unfold components in *. cbn [flat_map].
  rewrite IH by (intros X; apply H; right; exact X).
  destruct k; [exfalso; apply H; left; reflexivity|reflexivity].
Qed.

Lemma components_zi h : ~ In O (tl h) ->
  components h = (if Nat.eqb (zi h) 1 then [Cos O] else []) ++ components (hs h).
Proof.
  unfold hs, zi. destruct h as [|k h]; [reflexivity|]. cbn [hd tl].
  destruct (Nat.eqb_spec k 0) as [->|Hk]; cbn [Nat.eqb skipn app]; reflexivity.
Qed.

Lemma length_components_pos l : ~ In O l -> length (components l) = (2 * length l)%nat.
Proof.
  intros H. rewrite components_pos by exact H. clear H.
  induction l as [|k l IH]; [reflexivity|]. cbn [flat_map app length] in *. lia.
Qed.

Lemma nhc_zi h : ~ In O (tl h) -> length (components h) = (2 * length (hs h) + zi h)%nat.
Proof.
  intros H. rewrite components_zi by exact H. rewrite app_length.
  rewrite length_components_pos by (apply hs_nonzero; exact H).
  pose proof (zi_le h). destruct (Nat.eqb_spec (zi h) 1) as [E|E]; cbn [length]; lia.
Qed.

Lemma nth_components_pos l p d : ~ In O l -> (p < length l)%nat ->
  nth (2 * p) (components l) d = Cos (nth p l O) /\
  nth (2 * p + 1) (components l) d = Sin (nth p l O).
Proof.
  intros H. rewrite components_pos by exact H. clear H. revert p.
  induction l as [|k l IH]; intros p Hp; [simpl in Hp; lia|].
  destruct p as [|p]; [split; reflexivity|].
  cbn [flat_map app]. simpl in Hp. destruct (IH p ltac:(lia)) as [A B].
  replace (2 * S p)%nat with (S (S (2 * p))) by lia.
  replace (S (S (2 * p)) + 1)%nat with (S (S (2 * p + 1))) by lia.
  cbn [nth]. auto.
Qed.

(** the components with a Python-style index: 2p+zi and 2p+1+zi belong to h[p+zi] *)
Lemma basis_index h p tau : ~ In O (tl h) -> (p < length h - zi h)%nat ->
  basis h (2 * p + zi h) tau = cos (INR (nth (p + zi h) h O) * tau) /\
  basis h (2 * p + 1 + zi h) tau = sin (INR (nth (p + zi h) h O) * tau).
Proof.
  intros H Hp. unfold basis. rewrite components_zi by exact H.
  rewrite <- hs_nth. rewrite <- hs_length in Hp.
  destruct (nth_components_pos (hs h) p (Cos O) (hs_nonzero h H) Hp) as [A B].
  pose proof (zi_le h) as Z. destruct (Nat.eqb_spec (zi h) 1) as [E|E].
  - rewrite E. replace (2 * p + 1 + 1)%nat with (S (2 * p + 1)) by lia.
    replace (2 * p + 1)%nat with (S (2 * p)) at 1 by lia.
    cbn [app nth]. rewrite A, B. split; reflexivity.
  - assert (zi h = 0)%nat as -> by lia. rewrite !Nat.add_0_r. cbn [app].
    rewrite A, B. split; reflexivity.
Qed.

Lemma basis_zero h tau : zi h = 1%nat -> basis h 0 tau = 1.
Proof.
  unfold zi, basis, components. destruct h as [|k h]; cbn [hd]; [discriminate|].
  destruct (Nat.eqb_spec k 0) as [->|Hk]; [|discriminate]. intros _. cbn.
  rewrite Rmult_0_l. apply cos_0.
Qed.

Lemma rsum_pairs n f : rsum (2 * n) f = rsum n (fun p => f (2 * p)%nat + f (2 * p + 1)%nat).
Proof.
  induction n as [|n IH]; [reflexivity|].
  replace (2 * S n)%nat with (S (S (2 * n))) by lia.
  rewrite !rsum_S, IH. replace (2 * n + 1)%nat with (S (2 * n)) by lia. ring.
Qed.

(** sums over components, in Python indexing *)
Lemma rsum_components h (g : nat -> R) : ~ In O (tl h) ->
  rsum (length (components h)) g =
  (if Nat.eqb (zi h) 1 then g O else 0) +
  rsum (length h - zi h) (fun p => g (2 * p + zi h)%nat + g (2 * p + 1 + zi h)%nat).
Proof.
  intros H. rewrite nhc_zi by exact H. rewrite hs_length. set (n := (length h - zi h)%nat).
  pose proof (zi_le h). destruct (Nat.eqb_spec (zi h) 1) as [E|E].
  - rewrite E. replace (2 * n + 1)%nat with (S (2 * n)) by lia. rewrite rsum_S_l, rsum_pairs.
    f_equal. apply rsum_ext. intros p Hp.
    replace (2 * p + 1 + 1)%nat with (S (2 * p + 1)) by lia.
    replace (2 * p + 1)%nat with (S (2 * p)) at 2 by lia. reflexivity.
  - assert (zi h = 0)%nat as -> by lia. rewrite Nat.add_0_r, Rplus_0_l, rsum_pairs.
    apply rsum_ext. intros p Hp. rewrite !Nat.add_0_r. reflexivity.
Qed.

Lemma series_index h X tau : ~ In O (tl h) ->
  series h X tau = (if Nat.eqb (zi h) 1 then X O else 0) +
  rsum (length h - zi h) (fun p => X (2 * p + zi h)%nat * cos (INR (nth (p + zi h) h O) * tau)
                                + X (2 * p + 1 + zi h)%nat * sin (INR (nth (p + zi h) h O) * tau)).
Proof.
  intros H. unfold series. rewrite rsum_components by exact H. f_equal.
  - destruct (Nat.eqb_spec (zi h) 1) as [E|E]; [|reflexivity]. rewrite basis_zero by exact E. ring.
  - apply rsum_ext. intros p Hp. destruct (basis_index h p tau H Hp) as [-> ->]. reflexivity.
Qed.

(** ---- the full coefficient vector ---- *)
(** sum over all harmonics 1..n of a full coefficient vector *)
Definition fsum (n : nat) (v : vec) (tau : R) : R :=
  v O + rsum n (fun j => v (2 * S j - 1)%nat * cos (INR (S j) * tau) + v (2 * S j)%nat * sin (INR (S j) * tau)).

Lemma vset_same v i x : vset v i x i = x.
Proof. unfold vset. rewrite Nat.eqb_refl. reflexivity. Qed.
Lemma vset_other v i x j : j <> i -> vset v i x j = v j.
Proof. intros H. unfold vset. destruct (Nat.eqb_spec j i); [contradiction|reflexivity]. Qed.

Lemma fsum_set n v k a b tau :
  (0 < k <= n)%nat -> v (2 * k - 1)%nat = 0 -> v (2 * k)%nat = 0 ->
  fsum n (vset (vset v (2 * k - 1) a) (2 * k) b) tau
  = fsum n v tau + (a * cos (INR k * tau) + b * sin (INR k * tau)).
Proof.
  intros Hk Ha Hb. unfold fsum. rewrite !vset_other by lia.
  rewrite Rplus_assoc. f_equal.
  rewrite <- (Rplus_0_l (a * _ + _)).
  rewrite (rsum_ext n (fun j => _ + _)
    (fun j => (v (2 * S j - 1)%nat * cos (INR (S j) * tau) + v (2 * S j)%nat * sin (INR (S j) * tau))
             + (if Nat.eqb (S j) k then a * cos (INR k * tau) + b * sin (INR k * tau) else 0))).
  - rewrite rsum_plus. rewrite Rplus_0_l. f_equal.
    rewrite (rsum_single n (k - 1)%nat).
    + replace (S (k - 1)) with k by lia. rewrite Nat.eqb_refl. reflexivity.
    + lia.
    + intros i Hi Hne. destruct (Nat.eqb_spec (S i) k); [lia|reflexivity].
  - intros j Hj. destruct (Nat.eqb_spec (S j) k) as [E|E].
    + rewrite E, vset_same, (vset_other _ (2 * k)) by lia. rewrite vset_same, Ha, Hb. ring.
    + rewrite !vset_other by lia. ring.
Qed.

Definition fill_step (h : list nat) (X0 : vec) (acc : vec) (p : nat) : vec :=
  let k := nth (p + zi h) h O in
  vset (vset acc (2 * k - 1) (X0 (2 * p + zi h)%nat)) (2 * k) (X0 (2 * p + 1 + zi h)%nat).

Definition fill0 (h : list nat) (X0 : vec) : vec :=
  if Nat.eqb (zi h) 1 then vset vzero 0 (X0 O) else vzero.

Lemma x0full_fold h X0 :
  x0full h X0 = fold_left (fill_step h X0) (seq 0 (length h - zi h)) (fill0 h X0).
Proof. reflexivity. Qed.

Section Full.
  Variable h : list nat.
  Hypothesis Hz : ~ In O (tl h).
  Hypothesis Hd : NoDup h.

  Lemma hk_pos p : (p < length h - zi h)%nat -> (0 < nth (p + zi h) h O)%nat.
  Proof.
    intros Hp. rewrite <- hs_nth. destruct (nth p (hs h) O) eqn:E; [|lia].
    exfalso. apply (hs_nonzero h Hz). rewrite <- E. apply nth_In. rewrite hs_length. exact Hp.
  Qed.

  Lemma hk_inj p q : (p < length h - zi h)%nat -> (q < length h - zi h)%nat ->
    nth (p + zi h) h O = nth (q + zi h) h O -> p = q.
  Proof.
    intros Hp Hq. rewrite <- !hs_nth. intros E.
    apply (proj1 (NoDup_nth (hs h) O)); auto using hs_nodup; rewrite hs_length; assumption.
  Qed.

  Lemma hk_le_max p : (p < length h - zi h)%nat -> (nth (p + zi h) h O <= list_max h)%nat.
  Proof.
    intros Hp. pose proof (proj1 (list_max_le h (list_max h)) (le_n _)) as F.
    rewrite Forall_forall in F. apply F. apply nth_In. lia.
  Qed.

  (** the state of the filling loop after m steps *)
  Lemma fill_inv X0 m : (m <= length h - zi h)%nat ->
    let acc := fold_left (fill_step h X0) (seq 0 m) (fill0 h X0) in
    (forall p, (p < m)%nat -> acc (2 * nth (p + zi h) h O - 1)%nat = X0 (2 * p + zi h)%nat /\
                              acc (2 * nth (p + zi h) h O)%nat = X0 (2 * p + 1 + zi h)%nat) /\
    (forall k, (0 < k)%nat -> (forall p, (p < m)%nat -> nth (p + zi h) h O <> k) ->
               acc (2 * k - 1)%nat = 0 /\ acc (2 * k)%nat = 0) /\
    acc O = (if Nat.eqb (zi h) 1 then X0 O else 0) /\
    (forall n tau, (list_max h <= n)%nat -> fsum n acc tau =
       (if Nat.eqb (zi h) 1 then X0 O else 0) +
       rsum m (fun p => X0 (2 * p + zi h)%nat * cos (INR (nth (p + zi h) h O) * tau)
                      + X0 (2 * p + 1 + zi h)%nat * sin (INR (nth (p + zi h) h O) * tau))).
  Proof.
    induction m as [|m IH]; intros Hm acc.
    - unfold acc. cbn [seq fold_left]. unfold fill0.
      split; [intros; lia|]. split; [|split].
      + intros k Hk _. destruct (Nat.eqb (zi h) 1); rewrite ?vset_other by lia; split; reflexivity.
      + destruct (Nat.eqb (zi h) 1); [apply vset_same|reflexivity].
      + intros n tau _. unfold fsum. cbn [rsum]. f_equal.
        * destruct (Nat.eqb (zi h) 1); [apply vset_same|reflexivity].
        * apply rsum_zero. intros j Hj.
          destruct (Nat.eqb (zi h) 1); rewrite ?vset_other by lia; unfold vzero; ring.
    - destruct (IH ltac:(lia)) as [A [B [C D]]]. clear IH.
      set (acc0 := fold_left (fill_step h X0) (seq 0 m) (fill0 h X0)) in *.
      assert (E : acc = fill_step h X0 acc0 m).
      { unfold acc, acc0. rewrite seq_S, fold_left_app. reflexivity. }
      set (k := nth (m + zi h) h O) in *.
      assert (Hk : (0 < k)%nat) by (apply hk_pos; lia).
      assert (Fresh : acc0 (2 * k - 1)%nat = 0 /\ acc0 (2 * k)%nat = 0).
      { apply B; [exact Hk|]. intros p Hp E'. apply hk_inj in E'; lia. }
      rewrite E. unfold fill_step. fold k.
      split; [|split; [|split]].
      + intros p Hp. destruct (Nat.eq_dec p m) as [->|Hne].
        * fold k. rewrite vset_same, (vset_other _ (2 * k)) by lia. rewrite vset_same. auto.
        * assert (Hkp : nth (p + zi h) h O <> k) by (intros E'; apply hk_inj in E'; lia).
          assert (0 < nth (p + zi h) h O)%nat by (apply hk_pos; lia).
          rewrite !vset_other by lia. apply A. lia.
      + intros k' Hk' Hn. assert (k' <> k) by (intros ->; apply (Hn m); auto; lia).
        rewrite !vset_other by lia. apply B; [exact Hk'|]. intros p Hp. apply Hn. lia.
      + rewrite !vset_other by lia. exact C.
      + intros n tau Hn. rewrite fsum_set.
        * rewrite D by exact Hn. rewrite rsum_S. fold k. ring.
        * split; [exact Hk|]. pose proof (hk_le_max m ltac:(lia)). fold k in H. lia.
        * apply Fresh.
        * apply Fresh.
  Qed.

  Lemma x0full_series X0 n tau : (list_max h <= n)%nat -> fsum n (x0full h X0) tau = series h X0 tau.
  Proof.
    intros Hn. rewrite series_index by exact Hz. rewrite x0full_fold.
    destruct (fill_inv X0 (length h - zi h) (le_n _)) as [_ [_ [_ D]]]. apply D. exact Hn.
  Qed.

  Lemma x0full_outside X0 k : (0 < k)%nat -> ~ In k h ->
    x0full h X0 (2 * k - 1)%nat = 0 /\ x0full h X0 (2 * k)%nat = 0.
  Proof.
    intros Hk Hn. rewrite x0full_fold.
    destruct (fill_inv X0 (length h - zi h) (le_n _)) as [_ [B _]]. apply B; [exact Hk|].
    intros p Hp E. apply Hn. rewrite <- E. apply nth_In. lia.
  Qed.
End Full.

(** ---- differentiation ---- *)
(** exact derivative of the coefficients *)
Definition dcoef (v : vec) : vec := fun i =>
  match i with
  | O => 0
  | _ => if Nat.even i then - (INR (i / 2) * v (i - 1)%nat) else INR ((i + 1) / 2) * v (i + 1)%nat
  end.

Lemma dcoef_cos v k : (0 < k)%nat -> dcoef v (2 * k - 1)%nat = INR k * v (2 * k)%nat.
Proof.
  intros Hk. destruct k as [|k]; [lia|]. replace (2 * S k - 1)%nat with (S (2 * k)) by lia.
  unfold dcoef. rewrite Nat.even_succ. rewrite <- Nat.negb_even.
  replace (Nat.even (2 * k)) with true by (symmetry; apply Nat.even_spec; exists k; reflexivity).
  cbn [negb]. replace (S (2 * k) + 1)%nat with (S k * 2)%nat by lia. rewrite Nat.div_mul by lia.
  f_equal. f_equal. lia.
Qed.

Lemma dcoef_sin v k : (0 < k)%nat -> dcoef v (2 * k)%nat = - (INR k * v (2 * k - 1)%nat).
Proof.
  intros Hk. destruct k as [|k]; [lia|]. replace (2 * S k)%nat with (S (2 * k + 1)) by lia.
  unfold dcoef. replace (S (2 * k + 1)) with (2 * S k)%nat by lia.
  replace (Nat.even (2 * S k)) with true by (symmetry; apply Nat.even_spec; exists (S k); reflexivity).
  replace (2 * S k / 2)%nat with (S k).
  - f_equal.
  - rewrite (Nat.mul_comm 2). rewrite Nat.div_mul by lia. reflexivity.
Qed.

Lemma dlim_cos_lin a x : derivable_pt_lim (fun t => cos (a * t)) x (- (a * sin (a * x))).
Proof.
  eapply dlim_eq; [apply (dlim_comp (fun t => a * t) cos x a (- sin (a * x)))|ring].
  - eapply dlim_eq; [apply dlim_scal; apply dlim_id|ring].
  - apply derivable_pt_lim_cos.
Qed.
Lemma dlim_sin_lin a x : derivable_pt_lim (fun t => sin (a * t)) x (a * cos (a * x)).
Proof.
  eapply dlim_eq; [apply (dlim_comp (fun t => a * t) sin x a (cos (a * x)))|ring].
  - eapply dlim_eq; [apply dlim_scal; apply dlim_id|ring].
  - apply derivable_pt_lim_sin.
Qed.

Lemma fsum_deriv n v t : derivable_pt_lim (fsum n v) t (fsum n (dcoef v) t).
Proof.
  unfold fsum. eapply dlim_eq.
  - apply (dlim_plus (fun _ => v O)
      (fun tau => rsum n (fun j => v (2 * S j - 1)%nat * cos (INR (S j) * tau) + v (2 * S j)%nat * sin (INR (S j) * tau)))).
    + apply dlim_const.
    + apply (dlim_rsum n (fun j tau => v (2 * S j - 1)%nat * cos (INR (S j) * tau) + v (2 * S j)%nat * sin (INR (S j) * tau)) t
       (fun j => v (2 * S j - 1)%nat * - (INR (S j) * sin (INR (S j) * t)) + v (2 * S j)%nat * (INR (S j) * cos (INR (S j) * t)))).
      intros j Hj. apply dlim_plus; apply dlim_scal; [apply dlim_cos_lin|apply dlim_sin_lin].
  - change (dcoef v O) with 0. rewrite Rplus_0_l, Rplus_0_l. apply rsum_ext. intros j Hj.
    rewrite dcoef_cos, dcoef_sin by lia. ring.
Qed.

Lemma fsum_ext n v v' tau : (forall i, (i <= 2 * n)%nat -> v i = v' i) -> fsum n v tau = fsum n v' tau.
Proof.
  intros H. unfold fsum. rewrite (H O) by lia. f_equal. apply rsum_ext. intros j Hj.
  rewrite !H by lia. reflexivity.
Qed.

(** D1 acts as dcoef on vectors supported by the harmonics of h *)
Definition supported (h : list nat) (v : vec) : Prop :=
  forall k, (0 < k)%nat -> ~ In k h -> v (2 * k - 1)%nat = 0 /\ v (2 * k)%nat = 0.

Definition d1_entry (h : list nat) (r c : nat) : R :=
  if existsb (fun k => negb (Nat.eqb k 0) && (Nat.eqb r (2 * k - 1) && Nat.eqb c (2 * k)))%bool h
  then INR (c / 2)
  else if existsb (fun k => negb (Nat.eqb k 0) && (Nat.eqb r (2 * k) && Nat.eqb c (2 * k - 1)))%bool h
  then - INR (r / 2) else 0.

Definition d1_step (D : mat) (k : nat) : mat :=
  let cosrow := ((k - 1) * 2 + 1)%nat in
  let sinrow := ((k - 1) * 2 + 2)%nat in
  mset (mset D cosrow sinrow (INR k)) sinrow cosrow (-1 * INR k).

Lemma mset_same A i j x : mset A i j x i j = x.
Proof. unfold mset. rewrite !Nat.eqb_refl. reflexivity. Qed.
Lemma mset_other A i j x r c : r <> i \/ c <> j -> mset A i j x r c = A r c.
Proof.
  unfold mset. destruct (Nat.eqb_spec r i), (Nat.eqb_spec c j); cbn [andb]; try reflexivity.
  intros [H|H]; contradiction.
Qed.

Lemma D1_inv l : forall D, ~ In O l ->
  let D' := fold_left d1_step l D in
  (forall k, In k l -> D' (2 * k - 1)%nat (2 * k)%nat = INR k /\ D' (2 * k)%nat (2 * k - 1)%nat = - INR k) /\
  (forall r c, (forall k, In k l -> ~ (r = (2 * k - 1)%nat /\ c = (2 * k)%nat) /\
                                    ~ (r = (2 * k)%nat /\ c = (2 * k - 1)%nat)) -> D' r c = D r c).
Proof.
  induction l as [|k l IH]; intros D H0; cbn [fold_left]; [split; [intros k []|auto]|].
  assert (Hk : (0 < k)%nat) by (destruct k; [exfalso; apply H0; left; reflexivity|lia]).
  destruct (IH (d1_step D k)) as [A B]; [intros X; apply H0; right; exact X|].
  assert (E1 : d1_step D k (2 * k - 1)%nat (2 * k)%nat = INR k).
  { unfold d1_step. replace ((k - 1) * 2 + 1)%nat with (2 * k - 1)%nat by lia.
    replace ((k - 1) * 2 + 2)%nat with (2 * k)%nat by lia.
    rewrite mset_other by lia. apply mset_same. }
  assert (E2 : d1_step D k (2 * k)%nat (2 * k - 1)%nat = - INR k).
  { unfold d1_step. replace ((k - 1) * 2 + 1)%nat with (2 * k - 1)%nat by lia.
    replace ((k - 1) * 2 + 2)%nat with (2 * k)%nat by lia.
    rewrite mset_same. ring. }
  split.
  - intros k' Hin. destruct (in_dec Nat.eq_dec k' l) as [i|n]; [apply A; exact i|].
    destruct Hin as [<-|Hin]; [|contradiction].
    rewrite !B.
    + auto.
    + intros k' Hk'. assert (0 < k')%nat by (destruct k'; [exfalso; apply H0; right; exact Hk'|lia]).
      split; intros [X Y]; apply n; replace k with k' by lia; exact Hk'.
    + intros k' Hk'. assert (0 < k')%nat by (destruct k'; [exfalso; apply H0; right; exact Hk'|lia]).
      split; intros [X Y]; apply n; replace k with k' by lia; exact Hk'.
  - intros r c Hn. rewrite B by (intros k' Hk'; apply Hn; right; exact Hk').
    destruct (Hn k (or_introl eq_refl)) as [N1 N2]. unfold d1_step.
    rewrite !mset_other; [reflexivity| |]; lia.
Qed.

Lemma D1_spec h :
  (forall k, (0 < k)%nat -> In k h -> D1 h (2 * k - 1)%nat (2 * k)%nat = INR k /\
                                       D1 h (2 * k)%nat (2 * k - 1)%nat = - INR k) /\
  (forall r c, (forall k, (0 < k)%nat -> In k h ->
        ~ (r = (2 * k - 1)%nat /\ c = (2 * k)%nat) /\ ~ (r = (2 * k)%nat /\ c = (2 * k - 1)%nat)) ->
        D1 h r c = 0).
Proof.
  destruct (D1_inv (filter (fun k => negb (Nat.eqb k 0)) h) mzero) as [A B].
  { intros H. apply filter_In in H. destruct H as [_ H]. discriminate. }
  split.
  - intros k Hk Hin. apply A. apply filter_In. split; [exact Hin|]. destruct k; [lia|reflexivity].
  - intros r c Hn. change (D1 h r c = mzero r c). apply B. intros k Hin. apply filter_In in Hin. destruct Hin as [Hin Hk].
    apply Hn; [|exact Hin]. destruct k; [discriminate|lia].
Qed.

Lemma D1_matvec h v n i :
  (list_max h <= n)%nat -> supported h v -> (i < 2 * n + 1)%nat ->
  matvec (2 * n + 1) (D1 h) v i = dcoef v i.
Proof.
  intros Hmax Hs Hi. destruct (D1_spec h) as [A B].
  assert (Hle : forall k, In k h -> (k <= n)%nat).
  { intros k Hk. pose proof (proj1 (list_max_le h (list_max h)) (le_n _)) as F.
    rewrite Forall_forall in F. specialize (F k Hk). lia. }
  unfold matvec.
  destruct i as [|i'].
  - apply rsum_zero. intros c Hc. rewrite B; [ring|]. intros k Hk _. lia.
  - set (i := S i') in *.
    destruct (Nat.even i) eqn:Ev.
    + apply Nat.even_spec in Ev. destruct Ev as [k Ek].
      assert (Hk : (0 < k)%nat) by lia. rewrite Ek, dcoef_sin by exact Hk.
      destruct (in_dec Nat.eq_dec k h) as [Hin|Hin].
      * rewrite (rsum_single _ (2 * k - 1)%nat); [|pose proof (Hle k Hin); lia|].
        -- destruct (A k Hk Hin) as [_ ->]. ring.
        -- intros c Hc Hne. rewrite B; [ring|]. intros k' Hk' _. lia.
      * rewrite (proj1 (Hs k Hk Hin)). rewrite rsum_zero; [ring|].
        intros c Hc. rewrite B; [ring|]. intros k' Hk' Hin'. split; [lia|].
        intros [X _]. apply Hin. replace k with k' by lia. exact Hin'.
    + assert (Od : Nat.odd i = true) by (rewrite <- Nat.negb_even, Ev; reflexivity).
      apply Nat.odd_spec in Od. destruct Od as [k0 Ek].
      set (k := S k0). assert (Ek' : i = (2 * k - 1)%nat) by lia.
      assert (Hk : (0 < k)%nat) by lia. rewrite Ek', dcoef_cos by exact Hk.
      destruct (in_dec Nat.eq_dec k h) as [Hin|Hin].
      * rewrite (rsum_single _ (2 * k)%nat); [|pose proof (Hle k Hin); lia|].
        -- destruct (A k Hk Hin) as [-> _]. ring.
        -- intros c Hc Hne. rewrite B; [ring|]. intros k' Hk' _. lia.
      * rewrite (proj2 (Hs k Hk Hin)). rewrite rsum_zero; [ring|].
        intros c Hc. rewrite B; [ring|]. intros k' Hk' Hin'. split; [|lia].
        intros [X _]. apply Hin. replace k with k' by lia. exact Hin'.
Qed.

Fixpoint dcoef_n (m : nat) (v : vec) : vec := match m with O => v | S m' => dcoef (dcoef_n m' v) end.

Lemma dcoef_supported h v : supported h v -> supported h (dcoef v).
Proof.
  intros H k Hk Hn. destruct (H k Hk Hn) as [A B]. rewrite dcoef_cos, dcoef_sin by exact Hk.
  rewrite A, B. split; ring.
Qed.
Lemma dcoef_n_supported h v m : supported h v -> supported h (dcoef_n m v).
Proof. intros H. induction m; simpl; auto using dcoef_supported. Qed.

Lemma matvec_ext_v n A x y i : (forall j, (j < n)%nat -> x j = y j) -> matvec n A x i = matvec n A y i.
Proof. intros H. unfold matvec. apply rsum_ext. intros j Hj. rewrite H by exact Hj. reflexivity. Qed.

Lemma matrix_power_dcoef h v n m i :
  (list_max h <= n)%nat -> supported h v -> (i < 2 * n + 1)%nat ->
  matvec (2 * n + 1) (matrix_power (2 * n + 1) (D1 h) m) v i = dcoef_n m v i.
Proof.
  intros Hmax Hs. revert i. induction m as [|m IH]; intros i Hi; cbn [matrix_power dcoef_n].
  - apply matvec_mid. exact Hi.
  - rewrite matvec_matmul.
    rewrite (matvec_ext_v _ _ _ (dcoef_n m v)) by (intros j Hj; apply IH; exact Hj).
    apply D1_matvec; auto using dcoef_n_supported.
Qed.

Lemma nth_derivative_fsum n m : forall v, nth_derivative m (fsum n v) (fsum n (dcoef_n m v)).
Proof.
  assert (C : forall m v, dcoef_n m (dcoef v) = dcoef (dcoef_n m v)).
  { clear m. induction m as [|m IH]; intros v; simpl; [reflexivity|]. rewrite IH. reflexivity. }
  induction m as [|m IH]; intros v; cbn [nth_derivative dcoef_n]; [reflexivity|].
  exists (fsum n (dcoef v)). split; [intros t; apply fsum_deriv|]. rewrite <- C. apply IH.
Qed.

Lemma nth_derivative_ext m : forall f f' g g',
  (forall t, f t = f' t) -> (forall t, g t = g' t) -> nth_derivative m f g -> nth_derivative m f' g'.
Proof.
  intros f f' g g' Hf Hg H.
  replace f' with f by (apply functional_extensionality; exact Hf).
  replace g' with g by (apply functional_extensionality; exact Hg). exact H.
Qed.

(** ---- the inverse transform ---- *)
Lemma cos_period_nat x k : cos (x + 2 * PI * INR k) = cos x.
Proof. replace (2 * PI * INR k) with (2 * INR k * PI) by ring. apply cos_period. Qed.
Lemma sin_period_nat x k : sin (x + 2 * PI * INR k) = sin x.
Proof. replace (2 * PI * INR k) with (2 * INR k * PI) by ring. apply sin_period. Qed.

Lemma cos_mirror Nt f n : (f <= Nt)%nat -> (0 < Nt)%nat ->
  cos (2 * PI * INR (Nt - f) * INR n / INR Nt) = cos (2 * PI * INR f * INR n / INR Nt).
Proof.
  intros Hf HN. rewrite minus_INR by exact Hf.
  assert (INR Nt <> 0) by (apply not_0_INR; lia).
  replace (2 * PI * (INR Nt - INR f) * INR n / INR Nt)
    with (- (2 * PI * INR f * INR n / INR Nt) + 2 * PI * INR n) by (field; assumption).
  rewrite cos_period_nat. apply cos_neg.
Qed.
Lemma sin_mirror Nt f n : (f <= Nt)%nat -> (0 < Nt)%nat ->
  sin (2 * PI * INR (Nt - f) * INR n / INR Nt) = - sin (2 * PI * INR f * INR n / INR Nt).
Proof.
  intros Hf HN. rewrite minus_INR by exact Hf.
  assert (INR Nt <> 0) by (apply not_0_INR; lia).
  replace (2 * PI * (INR Nt - INR f) * INR n / INR Nt)
    with (- (2 * PI * INR f * INR n / INR Nt) + 2 * PI * INR n) by (field; assumption).
  rewrite sin_period_nat. apply sin_neg.
Qed.

Lemma ifft_fsum Nht xp n :
  real_ifft (2 * Nht + 2) (spectrum Nht xp) n = fsum Nht xp (sample_phase (2 * Nht + 2) n).
Proof.
  unfold real_ifft. set (Nt := (2 * Nht + 2)%nat).
  assert (HNt : INR Nt <> 0) by (apply not_0_INR; unfold Nt; lia).
  set (term := fun f => fst (spectrum Nht xp f) * cos (2 * PI * INR f * INR n / INR Nt)
                      - snd (spectrum Nht xp f) * sin (2 * PI * INR f * INR n / INR Nt)).
  set (c := fun k => xp (2 * k - 1)%nat). set (s := fun k => xp (2 * k)%nat).
  set (th := fun k => INR k * sample_phase Nt n).
  assert (Eth : forall k, 2 * PI * INR k * INR n / INR Nt = th k).
  { intros k. unfold th, sample_phase. field. exact HNt. }
  assert (T0 : term O = xp O * INR Nt).
  { unfold term, spectrum. rewrite Nat.eqb_refl. cbn [fst snd]. fold Nt. rewrite Eth.
    unfold th. cbn [INR]. rewrite Rmult_0_l, cos_0. field. }
  assert (T1 : forall k, (1 <= k <= Nht)%nat ->
      term k = INR Nt / 2 * (c k * cos (th k) + s k * sin (th k))).
  { intros k Hk. unfold term, spectrum. destruct (Nat.eqb_spec k 0); [lia|].
    destruct (Nat.leb_spec k Nht); [|lia]. cbn [fst snd]. fold Nt. rewrite Eth. unfold c, s. ring. }
  assert (T2 : term (Nht + 1)%nat = 0).
  { unfold term, spectrum. destruct (Nat.eqb_spec (Nht + 1) 0); [lia|].
    destruct (Nat.leb_spec (Nht + 1) Nht); [lia|]. rewrite Nat.eqb_refl. cbn [fst snd]. ring. }
  assert (T3 : forall k, (1 <= k <= Nht)%nat ->
      term (Nt - k)%nat = INR Nt / 2 * (c k * cos (th k) + s k * sin (th k))).
  { intros k Hk. unfold term, spectrum. destruct (Nat.eqb_spec (Nt - k) 0); [unfold Nt in *; lia|].
    destruct (Nat.leb_spec (Nt - k) Nht); [unfold Nt in *; lia|].
    destruct (Nat.eqb_spec (Nt - k) (Nht + 1)); [unfold Nt in *; lia|]. cbn [fst snd]. fold Nt.
    rewrite cos_mirror, sin_mirror by (unfold Nt; lia). rewrite Eth.
    replace (Nt - (Nt - k))%nat with k by (unfold Nt; lia). unfold c, s. ring. }
  replace Nt with (1 + Nht + (1 + Nht))%nat at 2 by (unfold Nt; lia).
  rewrite !rsum_split. cbn [rsum].
  rewrite !Nat.add_0_r. change (fun i => term (1 + i)%nat) with (fun i => term (S i)).
  rewrite Rplus_0_l. rewrite Rplus_0_l. rewrite T0.
  replace (term (1 + Nht)%nat) with 0 by (rewrite <- T2; f_equal; lia).
  rewrite (rsum_ext Nht (fun i => term (S i))
             (fun j => INR Nt / 2 * (c (S j) * cos (th (S j)) + s (S j) * sin (th (S j)))))
    by (intros j Hj; apply (T1 (S j)); lia).
  rewrite (rsum_rev Nht (fun i => term (1 + Nht + (1 + i))%nat)).
  rewrite (rsum_ext Nht (fun i => term (1 + Nht + (1 + (Nht - 1 - i)))%nat)
             (fun j => INR Nt / 2 * (c (S j) * cos (th (S j)) + s (S j) * sin (th (S j))))).
  2:{ intros j Hj. rewrite <- T3 by lia. f_equal. unfold Nt. lia. }
  rewrite rsum_scal_l. unfold fsum. fold (c 1%nat).
  assert (EF : rsum Nht (fun j => xp (2 * S j - 1)%nat * cos (INR (S j) * sample_phase Nt n)
                               + xp (2 * S j)%nat * sin (INR (S j) * sample_phase Nt n))
             = rsum Nht (fun j => c (S j) * cos (th (S j)) + s (S j) * sin (th (S j)))) by reflexivity.
  rewrite EF. set (Sm := rsum Nht (fun j => c (S j) * cos (th (S j)) + s (S j) * sin (th (S j)))).
  field. exact HNt.
Qed.
