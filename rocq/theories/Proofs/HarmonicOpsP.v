(** Harmonic stiffness, phase rotation, wrapping, conditioning and zero crossings. *)
From Coq Require Import Reals Lra Lia Arith List Bool ZArith FunctionalExtensionality.
From Verif.Lib Require Import RSum Calc Py.
From Verif.Spec Require Import Harmonic.
From Verif.Model Require Import Harmonic.
From Verif.Proofs Require Import HarmonicP FourierP.
Import ListNotations.
Open Scope R_scope.

(** ---- block matrices ---- *)
Lemma block_inj nd a i b j : (i < nd)%nat -> (j < nd)%nat -> (a * nd + i = b * nd + j)%nat -> a = b /\ i = j.
Proof. intros Hi Hj H. assert (a = b) by nia. subst. lia. Qed.

Lemma block_in nd b c i : (i < nd)%nat ->
  (Nat.leb (nd * b) (c * nd + i) && Nat.ltb (c * nd + i) (nd * b + nd))%bool = Nat.eqb c b.
Proof.
  intros Hi. destruct (Nat.eqb_spec c b) as [->|Hne].
  - apply andb_true_iff. split; [apply Nat.leb_le; nia|apply Nat.ltb_lt; nia].
  - apply andb_false_iff. destruct (Nat.lt_ge_cases c b).
    + left. apply Nat.leb_gt. nia.
    + right. apply Nat.ltb_ge. nia.
Qed.

Lemma set_block_read nd E b b' B c c' i j : (i < nd)%nat -> (j < nd)%nat ->
  set_block nd E (nd * b) (nd * b') B (c * nd + i)%nat (c' * nd + j)%nat
  = if (Nat.eqb c b && Nat.eqb c' b')%bool then B i j else E (c * nd + i)%nat (c' * nd + j)%nat.
Proof.
  intros Hi Hj. unfold set_block. rewrite !block_in by assumption.
  destruct (Nat.eqb_spec c b) as [->|]; [|reflexivity].
  destruct (Nat.eqb_spec c' b') as [->|]; [|reflexivity]. cbn [andb].
  f_equal; nia.
Qed.

Section Stiff.
  Variables (nd : nat) (M C K : mat) (w : R) (h : list nat).
  Hypothesis Hz : ~ In O (tl h).

  Definition hk (p : nat) : R := INR (nth (p + zi h) h O).
  Definition Dblk (p i j : nat) : R := K i j + (-1 * (hk p * w) ^ 2) * M i j.

  Definition same_pair (p c c' : nat) : Prop :=
    (c = 2 * p + zi h \/ c = 2 * p + 1 + zi h)%nat /\ (c' = 2 * p + zi h \/ c' = 2 * p + 1 + zi h)%nat.

  Lemma hs_step_read oc E p c c' i j : (i < nd)%nat -> (j < nd)%nat ->
    hs_step nd M C K w h oc E (p + zi h) (c * nd + i)%nat (c' * nd + j)%nat =
    if (Nat.eqb c (2 * p + zi h) && Nat.eqb c' (2 * p + 1 + zi h))%bool then hk p * w * C i j
    else if (Nat.eqb c (2 * p + 1 + zi h) && Nat.eqb c' (2 * p + zi h))%bool then - (hk p * w * C i j)
    else if (negb oc && ((Nat.eqb c (2 * p + zi h) && Nat.eqb c' (2 * p + zi h)) ||
                         (Nat.eqb c (2 * p + 1 + zi h) && Nat.eqb c' (2 * p + 1 + zi h))))%bool then Dblk p i j
    else E (c * nd + i)%nat (c' * nd + j)%nat.
  Proof.
    intros Hi Hj. unfold hs_step. pose proof (zi_le h) as Z.
    replace ((p + zi h) * 2 - zi h)%nat with (2 * p + zi h)%nat by lia.
    replace (2 * p + zi h + 1)%nat with (2 * p + 1 + zi h)%nat by lia.
    fold (hk p). set (b := (2 * p + zi h)%nat). set (b1 := (2 * p + 1 + zi h)%nat).
    assert (Hb : b <> b1) by (unfold b, b1; lia).
    destruct oc; cbn [negb andb]; rewrite !set_block_read by assumption; unfold mscal, Dblk.
    - destruct (Nat.eqb_spec c b), (Nat.eqb_spec c b1), (Nat.eqb_spec c' b), (Nat.eqb_spec c' b1);
        subst; try congruence; cbn [andb]; ring.
    - destruct (Nat.eqb_spec c b), (Nat.eqb_spec c b1), (Nat.eqb_spec c' b), (Nat.eqb_spec c' b1);
        subst; try congruence; cbn [andb orb]; ring.
  Qed.

  Definition hsE0 (oc : bool) : mat := if (Nat.eqb (zi h) 1 && negb oc)%bool then set_block nd mzero 0 0 K else mzero.
  Definition hsE (oc : bool) (m : nat) : mat := fold_left (hs_step nd M C K w h oc) (seq (zi h) m) (hsE0 oc).

  Lemma hsE_S oc m : hsE oc (S m) = hs_step nd M C K w h oc (hsE oc m) (m + zi h).
  Proof. unfold hsE. rewrite seq_S, fold_left_app. cbn [fold_left]. rewrite Nat.add_comm. reflexivity. Qed.

  (** entries of the harmonic stiffness, block by block *)
  Lemma hsE_inv m c c' i j : (i < nd)%nat -> (j < nd)%nat ->
    (forall p, (p < m)%nat -> same_pair p c c' ->
       hsE false m (c * nd + i)%nat (c' * nd + j)%nat =
         if Nat.eqb c c' then Dblk p i j else if Nat.ltb c c' then hk p * w * C i j else - (hk p * w * C i j)) /\
    ((forall p, (p < m)%nat -> ~ same_pair p c c') ->
       hsE false m (c * nd + i)%nat (c' * nd + j)%nat = hsE0 false (c * nd + i)%nat (c' * nd + j)%nat).
  Proof.
    intros Hi Hj. unfold same_pair. induction m as [|m IH].
    - split; [intros; lia|]. reflexivity.
    - rewrite hsE_S, hs_step_read by assumption. cbn [negb andb]. destruct IH as [A B]. split.
      + intros p Hp [S1 S2]. destruct (Nat.eq_dec p m) as [->|Hne].
        * destruct S1 as [->| ->], S2 as [->| ->];
          repeat (match goal with |- context [Nat.eqb ?a ?b] => destruct (Nat.eqb_spec a b); try lia
                  | |- context [Nat.ltb ?a ?b] => destruct (Nat.ltb_spec a b); try lia end);
          cbn [andb orb]; try reflexivity; lia.
        * rewrite <- (A p) by (lia || tauto).
          repeat (match goal with |- context [Nat.eqb c ?b] => destruct (Nat.eqb_spec c b); try lia end);
          cbn [andb orb]; try reflexivity.
      + intros Hn. rewrite <- B by (intros p Hp; apply Hn; lia).
        specialize (Hn m ltac:(lia)).
        repeat (match goal with |- context [Nat.eqb ?a ?b] => destruct (Nat.eqb_spec a b); subst end);
          cbn [andb orb]; try reflexivity; exfalso; apply Hn; lia.
  Qed.

  Lemma hs0_read c c' i j : (i < nd)%nat -> (j < nd)%nat ->
    hsE0 false (c * nd + i)%nat (c' * nd + j)%nat =
    if (Nat.eqb (zi h) 1 && (Nat.eqb c 0 && Nat.eqb c' 0))%bool then K i j else 0.
  Proof.
    intros Hi Hj. unfold hsE0. destruct (Nat.eqb (zi h) 1); cbn [andb negb]; [|reflexivity].
    replace (set_block nd mzero 0 0 K) with (set_block nd mzero (nd * 0) (nd * 0) K)
      by (rewrite Nat.mul_0_r; reflexivity).
    rewrite set_block_read by assumption. reflexivity.
  Qed.

  Variable U : vec.
  Let n := (length h - zi h)%nat.
  Let E := hsE false n.
  Let Uc (c j : nat) := U (c * nd + j)%nat.

  Lemma row_blocks r : matvec (length (components h) * nd) E U r =
    rsum (length (components h)) (fun c' => rsum nd (fun j => E r (c' * nd + j)%nat * Uc c' j)).
  Proof. unfold matvec. apply rsum_blocks. Qed.

  Lemma row_zero i : zi h = 1%nat -> (i < nd)%nat ->
    matvec (length (components h) * nd) E U (0 * nd + i)%nat = rsum nd (fun j => K i j * Uc 0 j).
  Proof.
    intros Ez Hi. rewrite row_blocks. rewrite (rsum_single _ 0%nat).
    - apply rsum_ext. intros j Hj. unfold E. rewrite (proj2 (hsE_inv n 0 0 i j Hi Hj)).
      + rewrite hs0_read by assumption. rewrite Ez. reflexivity.
      + intros p Hp [S1 S2]. rewrite Ez in *. lia.
    - rewrite nhc_zi by exact Hz. lia.
    - intros c' Hc' Hne. apply rsum_zero. intros j Hj. unfold E. rewrite (proj2 (hsE_inv n 0 c' i j Hi Hj)).
      + rewrite hs0_read by assumption. destruct (Nat.eqb_spec c' 0); [lia|]. rewrite !andb_false_r. ring.
      + intros p Hp [S1 S2]. rewrite Ez in *. lia.
  Qed.

  Lemma row_pair p i : (p < n)%nat -> (i < nd)%nat ->
    matvec (length (components h) * nd) E U ((2 * p + zi h) * nd + i)%nat
      = rsum nd (fun j => Dblk p i j * Uc (2 * p + zi h) j + hk p * w * C i j * Uc (2 * p + 1 + zi h) j) /\
    matvec (length (components h) * nd) E U ((2 * p + 1 + zi h) * nd + i)%nat
      = rsum nd (fun j => Dblk p i j * Uc (2 * p + 1 + zi h) j - hk p * w * C i j * Uc (2 * p + zi h) j).
  Proof.
    intros Hp Hi.
    assert (Off : forall c c' j, (c = 2 * p + zi h \/ c = 2 * p + 1 + zi h)%nat ->
        c' <> (2 * p + zi h)%nat -> c' <> (2 * p + 1 + zi h)%nat -> (j < nd)%nat ->
        E (c * nd + i)%nat (c' * nd + j)%nat = 0).
    { intros c c' j Hc H1 H2 Hj. unfold E.
      rewrite (proj2 (hsE_inv n c c' i j Hi Hj)).
      - rewrite hs0_read by assumption. pose proof (zi_le h).
        destruct (Nat.eqb_spec (zi h) 1), (Nat.eqb_spec c 0), (Nat.eqb_spec c' 0); cbn [andb]; try reflexivity. lia.
      - intros q Hq [S1 S2]. lia. }
    assert (Zero : forall c, (c = 2 * p + zi h \/ c = 2 * p + 1 + zi h)%nat ->
       matvec (length (components h) * nd) E U (c * nd + i)%nat =
       rsum nd (fun j => E (c * nd + i)%nat ((2 * p + zi h) * nd + j)%nat * Uc (2 * p + zi h) j) +
       rsum nd (fun j => E (c * nd + i)%nat ((2 * p + 1 + zi h) * nd + j)%nat * Uc (2 * p + 1 + zi h) j)).
    { intros c Hc. rewrite row_blocks, rsum_components by exact Hz. fold n.
      rewrite (rsum_single n p _ Hp).
      - destruct (Nat.eqb_spec (zi h) 1) as [Ez|Ez]; [|ring].
        rewrite (rsum_zero nd (fun j => E (c * nd + i)%nat (0 * nd + j)%nat * _)); [ring|].
        intros j Hj. rewrite Off; [ring|exact Hc|lia|lia|exact Hj].
      - intros q Hq Hne. rewrite !rsum_zero; [ring| |]; intros j Hj; (rewrite Off; [ring|exact Hc|lia|lia|exact Hj]). }
    assert (Hsp : forall c c', (c = 2 * p + zi h \/ c = 2 * p + 1 + zi h)%nat ->
                   (c' = 2 * p + zi h \/ c' = 2 * p + 1 + zi h)%nat -> same_pair p c c') by (split; assumption).
    rewrite !Zero by lia. rewrite <- !rsum_plus. split; apply rsum_ext; intros j Hj; unfold E.
    - rewrite !(fun c c' S => proj1 (hsE_inv n c c' i j Hi Hj) p Hp S) by (apply Hsp; lia).
      rewrite Nat.eqb_refl. destruct (Nat.eqb_spec (2 * p + zi h) (2 * p + 1 + zi h)); [lia|].
      destruct (Nat.ltb_spec (2 * p + zi h) (2 * p + 1 + zi h)); [|lia]. reflexivity.
    - rewrite !(fun c c' S => proj1 (hsE_inv n c c' i j Hi Hj) p Hp S) by (apply Hsp; lia).
      rewrite Nat.eqb_refl. destruct (Nat.eqb_spec (2 * p + 1 + zi h) (2 * p + zi h)); [lia|].
      destruct (Nat.ltb_spec (2 * p + 1 + zi h) (2 * p + zi h)); [lia|]. ring.
  Qed.

  (** velocity and acceleration of a degree of freedom *)
  Definition vel (X : vec) (t : R) : R :=
    rsum n (fun p => hk p * w * (X (2 * p + 1 + zi h)%nat * cos (hk p * (w * t)) - X (2 * p + zi h)%nat * sin (hk p * (w * t)))).
  Definition acc (X : vec) (t : R) : R :=
    rsum n (fun p => - (hk p * w) ^ 2 * (X (2 * p + zi h)%nat * cos (hk p * (w * t)) + X (2 * p + 1 + zi h)%nat * sin (hk p * (w * t)))).

  Lemma dlim_cos2 a t : derivable_pt_lim (fun s => cos (a * (w * s))) t (- (a * w * sin (a * (w * t)))).
  Proof.
    apply (dlim_ext (fun s => cos (a * w * s))); [intros; f_equal; ring|].
    eapply dlim_eq; [apply dlim_cos_lin|]. rewrite (Rmult_assoc a w t). reflexivity.
  Qed.
  Lemma dlim_sin2 a t : derivable_pt_lim (fun s => sin (a * (w * s))) t (a * w * cos (a * (w * t))).
  Proof.
    apply (dlim_ext (fun s => sin (a * w * s))); [intros; f_equal; ring|].
    eapply dlim_eq; [apply dlim_sin_lin|]. rewrite (Rmult_assoc a w t). reflexivity.
  Qed.

  Lemma series_vel X t : derivable_pt_lim (fun s => series h X (w * s)) t (vel X t).
  Proof.
    apply (dlim_ext (fun s => (if Nat.eqb (zi h) 1 then X O else 0) +
      rsum n (fun p => X (2 * p + zi h)%nat * cos (hk p * (w * s)) + X (2 * p + 1 + zi h)%nat * sin (hk p * (w * s))))).
    { intros s. rewrite series_index by exact Hz. reflexivity. }
    eapply dlim_eq.
    - apply dlim_plus; [apply dlim_const|].
      apply (dlim_rsum n (fun p s => X (2 * p + zi h)%nat * cos (hk p * (w * s)) + X (2 * p + 1 + zi h)%nat * sin (hk p * (w * s))) t
        (fun p => X (2 * p + zi h)%nat * - (hk p * w * sin (hk p * (w * t))) + X (2 * p + 1 + zi h)%nat * (hk p * w * cos (hk p * (w * t))))).
      intros p Hp. apply dlim_plus; apply dlim_scal; [apply dlim_cos2|apply dlim_sin2].
    - rewrite Rplus_0_l. unfold vel. apply rsum_ext. intros; ring.
  Qed.

  Lemma vel_acc X t : derivable_pt_lim (vel X) t (acc X t).
  Proof.
    unfold vel. eapply dlim_eq.
    - apply (dlim_rsum n (fun p s => hk p * w * (X (2 * p + 1 + zi h)%nat * cos (hk p * (w * s)) - X (2 * p + zi h)%nat * sin (hk p * (w * s)))) t
       (fun p => hk p * w * (X (2 * p + 1 + zi h)%nat * - (hk p * w * sin (hk p * (w * t))) - X (2 * p + zi h)%nat * (hk p * w * cos (hk p * (w * t)))))).
      intros p Hp. apply dlim_scal. apply dlim_minus; apply dlim_scal; [apply dlim_cos2|apply dlim_sin2].
    - unfold acc. apply rsum_ext. intros; ring.
  Qed.

  Lemma stiffness_motion i t : (i < nd)%nat ->
    series h (dof_coefs nd (matvec (length (components h) * nd) E U) i) (w * t) =
    rsum nd (fun j => M i j * acc (dof_coefs nd U j) t + C i j * vel (dof_coefs nd U j) t
                      + K i j * series h (dof_coefs nd U j) (w * t)).
  Proof.
    intros Hi. rewrite series_index by exact Hz. fold n.
    rewrite (rsum_ext nd (fun j => _ + _ + _) (fun j =>
       K i j * (if Nat.eqb (zi h) 1 then Uc 0 j else 0) +
       rsum n (fun p => (Dblk p i j * Uc (2 * p + zi h) j + hk p * w * C i j * Uc (2 * p + 1 + zi h) j) * cos (hk p * (w * t))
          + (Dblk p i j * Uc (2 * p + 1 + zi h) j - hk p * w * C i j * Uc (2 * p + zi h) j) * sin (hk p * (w * t))))).
    - rewrite (rsum_plus nd). f_equal.
      + destruct (Nat.eqb_spec (zi h) 1) as [Ez|Ez].
        * unfold dof_coefs. apply (row_zero i Ez Hi).
        * symmetry. apply rsum_zero. intros; ring.
      + rewrite (rsum_swap nd n). apply rsum_ext. intros p Hp. fold (hk p).
        destruct (row_pair p i Hp Hi) as [R1 R2]. unfold dof_coefs at 1 2. rewrite R1, R2.
        rewrite <- !rsum_scal_r, <- rsum_plus. reflexivity.
    - intros j Hj. rewrite series_index by exact Hz. fold n. unfold acc, vel.
      rewrite Rmult_plus_distr_l. rewrite <- !rsum_scal_l.
      rewrite (Rplus_comm (K i j * _)). rewrite <- Rplus_assoc, <- !rsum_plus, Rplus_comm. f_equal.
      apply rsum_ext. intros p Hp. fold (hk p). unfold Dblk, dof_coefs, Uc. ring.
  Qed.
End Stiff.

Lemma harmonic_stiffness_ok nd M C K w h cg oc : admissible h ->
  harmonic_stiffness nd M C K w h cg oc =
  Ok (hsE nd M C K w h oc (length h - zi h),
      if cg then Some (fold_left (hs_dstep nd M C w h oc) (hs_range h) mzero) else None).
Proof.
  intros [Hne [Hd Hz]]. unfold harmonic_stiffness. rewrite (proj1 (Nhc_spec h) Hd). cbn [bind].
  destruct h as [|k h'] eqn:E; [congruence|]. destruct cg; reflexivity.
Qed.

Lemma stiffness_eom nd M C K w h cg U : admissible h ->
  exists E dE (v a : nat -> R -> R),
    harmonic_stiffness nd M C K w h cg false = Ok (E, dE) /\
    (forall j t, derivable_pt_lim (motion nd h U w j) t (v j t)) /\
    (forall j t, derivable_pt_lim (v j) t (a j t)) /\
    forall i t, (i < nd)%nat ->
      motion nd h (matvec (length (components h) * nd) E U) w i t
      = rsum nd (fun j => M i j * a j t + C i j * v j t + K i j * motion nd h U w j t).
Proof.
  intros Ha. pose proof Ha as [Hne [Hd Hz]].
  eexists _, _, (fun j => vel w h (dof_coefs nd U j)), (fun j => acc w h (dof_coefs nd U j)).
  split; [apply harmonic_stiffness_ok; exact Ha|]. split; [|split].
  - intros j t. apply series_vel. exact Hz.
  - intros j t. apply vel_acc.
  - intros i t Hi. unfold motion. apply stiffness_motion; assumption.
Qed.

(** ---- derivative with respect to the frequency ---- *)
Definition drel (E : R -> mat) (D : R -> mat) : Prop :=
  forall r c w, derivable_pt_lim (fun s => E s r c) w (D w r c).

Lemma drel_set_block nd E D r0 c0 B dB : drel E D -> drel B dB ->
  drel (fun w => set_block nd (E w) r0 c0 (B w)) (fun w => set_block nd (D w) r0 c0 (dB w)).
Proof.
  intros H1 H2 r c w. unfold set_block.
  match goal with |- context [if ?b then _ else _] => destruct b end; [apply H2|apply H1].
Qed.

Lemma drel_step nd M C K h oc E D p : drel E D ->
  drel (fun w => hs_step nd M C K w h oc (E w) p) (fun w => hs_dstep nd M C w h oc (D w) p).
Proof.
  intros H. unfold hs_step, hs_dstep. cbv zeta. set (k := INR (nth p h O)).
  assert (B1 : drel (fun w => mscal (1 * k * w) C) (fun _ => mscal k C)).
  { intros r c w. unfold mscal. eapply dlim_eq; [apply dlim_scal_r; apply dlim_scal; apply dlim_id|ring]. }
  assert (B2 : drel (fun w => mscal (-1 * k * w) C) (fun _ => mscal (-1 * k) C)).
  { intros r c w. unfold mscal. eapply dlim_eq; [apply dlim_scal_r; apply dlim_scal; apply dlim_id|ring]. }
  assert (B3 : drel (fun w i j => K i j + -1 * (k * w) ^ 2 * M i j) (fun w => mscal (-2 * w * k ^ 2) M)).
  { intros r c w. unfold mscal.
    apply (dlim_ext (fun s => K r c + (- k ^ 2 * M r c) * (s * s))); [intros; ring|].
    eapply dlim_eq; [apply dlim_plus; [apply dlim_const|apply dlim_scal; apply (dlim_mult (fun s => s) (fun s => s)); apply dlim_id]|].
    cbv beta. ring. }
  destruct oc; repeat (apply drel_set_block; [|assumption]); exact H.
Qed.

Lemma drel_fold nd M C K h oc l : forall E D, drel E D ->
  drel (fun w => fold_left (hs_step nd M C K w h oc) l (E w)) (fun w => fold_left (hs_dstep nd M C w h oc) l (D w)).
Proof.
  induction l as [|p l IH]; intros E D H; cbn [fold_left]; [exact H|].
  apply (IH (fun w => hs_step nd M C K w h oc (E w) p) (fun w => hs_dstep nd M C w h oc (D w) p)).
  apply drel_step. exact H.
Qed.

Lemma stiffness_derivative nd M C K h oc : admissible h ->
  exists E dE : R -> mat,
    (forall w, harmonic_stiffness nd M C K w h true oc = Ok (E w, Some (dE w))) /\
    (forall w, harmonic_stiffness nd M C K w h false oc = Ok (E w, None)) /\
    forall r c w, derivable_pt_lim (fun s => E s r c) w (dE w r c).
Proof.
  intros Ha. exists (fun w => hsE nd M C K w h oc (length h - zi h)).
  exists (fun w => fold_left (hs_dstep nd M C w h oc) (hs_range h) mzero).
  split; [|split].
  - intros w. apply harmonic_stiffness_ok. exact Ha.
  - intros w. apply harmonic_stiffness_ok. exact Ha.
  - apply (drel_fold nd M C K h oc (hs_range h) (fun _ => hsE0 nd K h oc) (fun _ => mzero)).
    intros r c w. apply (dlim_const (hsE0 nd K h oc r c)).
Qed.

(** only_C *)
Definition diag_free (nd : nat) (E : mat) : Prop :=
  forall c i j, (i < nd)%nat -> (j < nd)%nat -> E (c * nd + i)%nat (c * nd + j)%nat = 0.

Lemma set_zero_diag nd E b B : diag_free nd E -> (forall i j, B i j = 0) ->
  set_block nd E (nd * b) (nd * b) B = E.
Proof.
  intros H HB. apply functional_extensionality. intros r. apply functional_extensionality. intros c.
  unfold set_block. match goal with |- (if ?b then _ else _) = _ => destruct b eqn:Eb end; [|reflexivity].
  rewrite !andb_true_iff, !Nat.leb_le, !Nat.ltb_lt in Eb.
  rewrite HB. symmetry. replace r with (b * nd + (r - b * nd))%nat by nia.
  replace c with (b * nd + (c - b * nd))%nat by nia. apply H; nia.
Qed.

Lemma diag_free_off nd E b b' B : b <> b' -> diag_free nd E -> diag_free nd (set_block nd E (nd * b) (nd * b') B).
Proof.
  intros Hb H c i j Hi Hj. rewrite set_block_read by assumption.
  destruct (Nat.eqb_spec c b), (Nat.eqb_spec c b'); cbn [andb]; try (apply H; assumption). congruence.
Qed.

Lemma only_C_fold nd C w h l : forall E, diag_free nd E ->
  fold_left (hs_step nd mzero C mzero w h false) l E = fold_left (hs_step nd mzero C mzero w h true) l E /\
  diag_free nd (fold_left (hs_step nd mzero C mzero w h true) l E).
Proof.
  induction l as [|p l IH]; intros E H; cbn [fold_left]; [split; [reflexivity|exact H]|].
  assert (D : diag_free nd (hs_step nd mzero C mzero w h true E p)).
  { unfold hs_step. apply diag_free_off; [lia|]. apply diag_free_off; [lia|]. exact H. }
  assert (Eq : hs_step nd mzero C mzero w h false E p = hs_step nd mzero C mzero w h true E p).
  { unfold hs_step in *. cbv zeta in *.
    rewrite (set_zero_diag nd _ _ _ D) by (intros; unfold mzero; ring).
    apply (set_zero_diag nd _ _ _ D). intros; unfold mzero; ring. }
  rewrite Eq. apply IH. exact D.
Qed.

Lemma only_C_dfold nd C w h l : forall E, diag_free nd E ->
  fold_left (hs_dstep nd mzero C w h false) l E = fold_left (hs_dstep nd mzero C w h true) l E /\
  diag_free nd (fold_left (hs_dstep nd mzero C w h true) l E).
Proof.
  induction l as [|p l IH]; intros E H; cbn [fold_left]; [split; [reflexivity|exact H]|].
  assert (D : diag_free nd (hs_dstep nd mzero C w h true E p)).
  { unfold hs_dstep. apply diag_free_off; [lia|]. apply diag_free_off; [lia|]. exact H. }
  assert (Eq : hs_dstep nd mzero C w h false E p = hs_dstep nd mzero C w h true E p).
  { unfold hs_dstep in *. cbv zeta in *.
    rewrite (set_zero_diag nd _ _ _ D) by (intros; unfold mscal, mzero; ring).
    apply (set_zero_diag nd _ _ _ D). intros; unfold mscal, mzero; ring. }
  rewrite Eq. apply IH. exact D.
Qed.

Lemma step_only_C_MK nd M K C w h l E :
  fold_left (hs_step nd M C K w h true) l E = fold_left (hs_step nd mzero C mzero w h true) l E.
Proof. reflexivity. Qed.

Lemma diag_free_mzero nd : diag_free nd mzero.
Proof. intros c i j _ _. reflexivity. Qed.

Lemma only_C_same nd M C K w h cg :
  harmonic_stiffness nd M C K w h cg true = harmonic_stiffness nd mzero C mzero w h cg false.
Proof.
  unfold harmonic_stiffness. destruct (Nhc h); cbn [bind]; [|reflexivity]. destruct h as [|k h']; [reflexivity|].
  set (h := k :: h') in *.
  assert (E0 : (if (Nat.eqb (zi h) 1 && negb false)%bool then set_block nd mzero 0 0 mzero else mzero) = mzero).
  { destruct (Nat.eqb (zi h) 1); cbn [andb negb]; [|reflexivity].
    replace (set_block nd mzero 0 0 mzero) with (set_block nd mzero (nd * 0) (nd * 0) mzero)
      by (rewrite Nat.mul_0_r; reflexivity).
    apply set_zero_diag; [apply diag_free_mzero|reflexivity]. }
  rewrite E0. rewrite andb_false_r.
  rewrite (proj1 (only_C_fold nd C w h (hs_range h) mzero (diag_free_mzero nd))).
  rewrite (proj1 (only_C_dfold nd C w h (hs_range h) mzero (diag_free_mzero nd))).
  destruct cg; reflexivity.
Qed.

(** ---- rotation ---- *)
Section Rot.
  Variables (Ndof : nat) (h : list nat).
  Hypothesis Hz : ~ In O (tl h).

  Lemma range_in b c i : (i < Ndof)%nat ->
    (Nat.leb (b * Ndof) (c * Ndof + i) && Nat.ltb (c * Ndof + i) ((b + 1) * Ndof))%bool = Nat.eqb c b.
  Proof.
    intros Hi. replace (b * Ndof)%nat with (Ndof * b)%nat by lia.
    replace ((b + 1) * Ndof)%nat with (Ndof * b + Ndof)%nat by lia. apply block_in. exact Hi.
  Qed.

  Lemma rot_step_read U p1 acc p c i : (i < Ndof)%nat ->
    rot_step U Ndof h p1 acc p (c * Ndof + i)%nat =
    let k := INR (nth (p + zi h) h O) in
    if Nat.eqb c (2 * p + zi h) then U ((2 * p + zi h) * Ndof + i)%nat * cos (k * p1) - U ((2 * p + 1 + zi h) * Ndof + i)%nat * sin (k * p1)
    else if Nat.eqb c (2 * p + 1 + zi h) then U ((2 * p + zi h) * Ndof + i)%nat * sin (k * p1) + U ((2 * p + 1 + zi h) * Ndof + i)%nat * cos (k * p1)
    else acc (c * Ndof + i)%nat.
  Proof.
    intros Hi. unfold rot_step. cbv zeta.
    replace (zi h + 2 * p)%nat with (2 * p + zi h)%nat by lia.
    replace (2 * p + zi h + 2)%nat with (2 * p + zi h + 1 + 1)%nat by lia.
    rewrite !range_in by exact Hi.
    replace (2 * p + zi h + 1)%nat with (2 * p + 1 + zi h)%nat by lia.
    set (b := (2 * p + zi h)%nat). set (b1 := (2 * p + 1 + zi h)%nat).
    assert (b1 = S b) by (unfold b, b1; lia).
    destruct (Nat.eqb_spec c b1) as [H1|H1], (Nat.eqb_spec c b) as [H2|H2]; try lia; try reflexivity; subst c.
    - replace (b * Ndof + (b1 * Ndof + i - b1 * Ndof))%nat with (b * Ndof + i)%nat by lia. reflexivity.
    - replace (b1 * Ndof + (b * Ndof + i - b * Ndof))%nat with (b1 * Ndof + i)%nat by lia. reflexivity.
  Qed.

  Lemma rot_step_high U p1 acc p i : (p < length h - zi h)%nat ->
    (length (components h) * Ndof <= i)%nat -> rot_step U Ndof h p1 acc p i = acc i.
  Proof.
    intros Hp Hi. unfold rot_step. cbv zeta. rewrite nhc_zi, hs_length in Hi by exact Hz.
    destruct (Nat.ltb_spec i ((zi h + 2 * p + 2) * Ndof)); [nia|].
    destruct (Nat.ltb_spec i ((zi h + 2 * p + 1) * Ndof)); [nia|]. rewrite !andb_false_r. reflexivity.
  Qed.

  Lemma rot_inv U p1 m : (m <= length h - zi h)%nat ->
    let R := fold_left (rot_step U Ndof h p1) (seq 0 m) U in
    (forall p i, (p < m)%nat -> (i < Ndof)%nat ->
       let k := INR (nth (p + zi h) h O) in
       R ((2 * p + zi h) * Ndof + i)%nat = U ((2 * p + zi h) * Ndof + i)%nat * cos (k * p1) - U ((2 * p + 1 + zi h) * Ndof + i)%nat * sin (k * p1) /\
       R ((2 * p + 1 + zi h) * Ndof + i)%nat = U ((2 * p + zi h) * Ndof + i)%nat * sin (k * p1) + U ((2 * p + 1 + zi h) * Ndof + i)%nat * cos (k * p1)) /\
    (zi h = 1%nat -> forall i, (i < Ndof)%nat -> R i = U i) /\
    (forall i, (length (components h) * Ndof <= i)%nat -> R i = U i).
  Proof.
    induction m as [|m IH]; intros Hm.
    - cbn [seq fold_left]. split; [intros; lia|]. split; reflexivity.
    - cbv zeta. rewrite seq_S, fold_left_app. cbn [fold_left Nat.add]. destruct (IH ltac:(lia)) as [A [B D]]. cbv zeta in *.
      split; [|split].
      + intros p i Hp Hi. rewrite !rot_step_read by exact Hi. cbv zeta.
        destruct (Nat.eq_dec p m) as [->|Hne].
        * rewrite !Nat.eqb_refl. destruct (Nat.eqb_spec (2 * m + 1 + zi h) (2 * m + zi h)); [lia|]. split; reflexivity.
        * repeat (match goal with |- context [Nat.eqb ?a ?b] => destruct (Nat.eqb_spec a b); [lia|] end).
          apply A; lia.
      + intros Ez i Hi. replace i with (0 * Ndof + i)%nat at 1 by lia. rewrite rot_step_read by exact Hi. cbv zeta.
        repeat (match goal with |- context [Nat.eqb ?a ?b] => destruct (Nat.eqb_spec a b); [lia|] end).
        apply B; auto.
      + intros i Hi. rewrite rot_step_high by (assumption || lia). apply D. exact Hi.
  Qed.

  Lemma rotate_series U phase k d tau : (d < Ndof)%nat ->
    series h (dof_coefs Ndof (rotate_subtract_phase U Ndof h phase k) d) tau
    = series h (dof_coefs Ndof U d) (tau - phase / INR k).
  Proof.
    intros Hd. rewrite !series_index by exact Hz. unfold rotate_subtract_phase.
    destruct (rot_inv U (phase / INR k) _ (le_n _)) as [A [B _]]. cbv zeta in A. f_equal.
    - destruct (Nat.eqb_spec (zi h) 1) as [Ez|]; [|reflexivity]. unfold dof_coefs. cbn [Nat.mul Nat.add]. apply B; assumption.
    - apply rsum_ext. intros p Hp. unfold dof_coefs. destruct (A p d Hp Hd) as [-> ->].
      set (a := INR (nth (p + zi h) h O)).
      rewrite Rmult_minus_distr_l. rewrite cos_minus, sin_minus. ring.
  Qed.

  (** entries by index *)
  Lemma index_cases i : (0 < Ndof)%nat ->
    (length (components h) * Ndof <= i)%nat \/ (zi h = 1%nat /\ (i < Ndof)%nat) \/
    exists p d, (p < length h - zi h)%nat /\ (d < Ndof)%nat /\
      (i = (2 * p + zi h) * Ndof + d \/ i = (2 * p + 1 + zi h) * Ndof + d)%nat.
  Proof.
    intros HN. destruct (Nat.le_gt_cases (length (components h) * Ndof) i) as [L|L]; [left; exact L|right].
    rewrite nhc_zi, hs_length in L by exact Hz. set (n := (length h - zi h)%nat) in *.
    pose proof (Nat.div_mod i Ndof ltac:(lia)) as DM. pose proof (Nat.mod_upper_bound i Ndof ltac:(lia)) as MB.
    set (c := (i / Ndof)%nat) in *. set (d := (i mod Ndof)%nat) in *.
    assert (Hc : (c < 2 * n + zi h)%nat) by nia.
    pose proof (zi_le h) as Z. destruct (Nat.lt_ge_cases c (zi h)) as [L2|L2].
    - left. split; [lia|]. assert (c = O) by lia. nia.
    - right. destruct (Nat.even (c - zi h)) eqn:Ev.
      + apply Nat.even_spec in Ev. destruct Ev as [p Ep]. exists p, d. split; [lia|]. split; [exact MB|]. left.
        replace (2 * p + zi h)%nat with c by lia. lia.
      + assert (Od : Nat.odd (c - zi h) = true) by (rewrite <- Nat.negb_even, Ev; reflexivity).
        apply Nat.odd_spec in Od. destruct Od as [p Ep]. exists p, d. split; [lia|]. split; [exact MB|]. right.
        replace (2 * p + 1 + zi h)%nat with c by lia. lia.
  Qed.

  Lemma rotate_extra U phase k i : (length (components h) * Ndof <= i)%nat ->
    rotate_subtract_phase U Ndof h phase k i = U i.
  Proof. intros Hi. apply (rot_inv U (phase / INR k) _ (le_n _)). exact Hi. Qed.

  Lemma rotate_compose U a b k i : (0 < Ndof)%nat ->
    rotate_subtract_phase (rotate_subtract_phase U Ndof h a k) Ndof h b k i = rotate_subtract_phase U Ndof h (a + b) k i.
  Proof.
    intros HN. unfold rotate_subtract_phase at 1 3.
    set (V := rotate_subtract_phase U Ndof h a k).
    destruct (rot_inv U (a / INR k) _ (le_n _)) as [A1 [B1 D1]].
    destruct (rot_inv V (b / INR k) _ (le_n _)) as [A2 [B2 D2]].
    destruct (rot_inv U ((a + b) / INR k) _ (le_n _)) as [A3 [B3 D3]]. cbv zeta in *.
    change (fold_left (rot_step U Ndof h (a / INR k)) (seq 0 (length h - zi h)) U) with V in *.
    destruct (index_cases i HN) as [L|[[Ez L]|[p [d [Hp [Hd [->| ->]]]]]]].
    - rewrite D2, D3 by exact L. apply D1. exact L.
    - rewrite B2, B3 by assumption. apply B1; assumption.
    - rewrite (proj1 (A2 p d Hp Hd)), (proj1 (A3 p d Hp Hd)), (proj1 (A1 p d Hp Hd)), (proj2 (A1 p d Hp Hd)).
      set (q := INR (nth (p + zi h) h O)).
      replace (q * ((a + b) / INR k)) with (q * (a / INR k) + q * (b / INR k)) by (unfold Rdiv; ring).
      rewrite cos_plus, sin_plus. ring.
    - rewrite (proj2 (A2 p d Hp Hd)), (proj2 (A3 p d Hp Hd)), (proj1 (A1 p d Hp Hd)), (proj2 (A1 p d Hp Hd)).
      set (q := INR (nth (p + zi h) h O)).
      replace (q * ((a + b) / INR k)) with (q * (a / INR k) + q * (b / INR k)) by (unfold Rdiv; ring).
      rewrite cos_plus, sin_plus. ring.
  Qed.

  Lemma rotate_zero U k i : (0 < Ndof)%nat -> rotate_subtract_phase U Ndof h 0 k i = U i.
  Proof.
    intros HN. unfold rotate_subtract_phase. destruct (rot_inv U (0 / INR k) _ (le_n _)) as [A [B D]]. cbv zeta in *.
    assert (E0 : forall q, q * (0 / INR k) = 0) by (intros; unfold Rdiv; ring).
    destruct (index_cases i HN) as [L|[[Ez L]|[p [d [Hp [Hd [->| ->]]]]]]].
    - apply D. exact L.
    - apply B; assumption.
    - rewrite (proj1 (A p d Hp Hd)), E0, cos_0, sin_0. ring.
    - rewrite (proj2 (A p d Hp Hd)), E0, cos_0, sin_0. ring.
  Qed.

  Lemma rotate_back U a k i : (0 < Ndof)%nat ->
    rotate_subtract_phase (rotate_subtract_phase U Ndof h a k) Ndof h (- a) k i = U i.
  Proof. intros HN. rewrite rotate_compose by exact HN. rewrite Rplus_opp_r. apply rotate_zero. exact HN. Qed.
End Rot.

(** ---- phase wrapping ---- *)
Lemma fmod_range a b : 0 < b -> 0 <= fmod a b < b.
Proof.
  intros Hb. unfold fmod, Rfloor. destruct (archimed (a / b)) as [A B]. rewrite minus_IZR.
  set (u := IZR (up (a / b))) in *.
  assert (E : a = b * (a / b)) by (field; lra). split; nra.
Qed.

Lemma shift_range p : - PI <= shift_pm_pi p < PI.
Proof.
  unfold shift_pm_pi. pose proof (fmod_range (p + PI) 2 ltac:(lra)) as [A B]. pose proof PI_RGT_0. split; nra.
Qed.

Lemma PI_between : 3 < PI < 4.
Proof.
  split; [pose proof PI2_3_2; lra|]. pose proof PI_4 as H.
  pose proof (PI_ineq 1) as [_ X]. unfold tg_alt, PI_tg in X. simpl in X. lra.
Qed.

Lemma floor_unique x z : IZR z <= x < IZR z + 1 -> Rfloor x = z.
Proof.
  intros [A B]. unfold Rfloor. destruct (archimed x) as [C D].
  assert (up x = z + 1)%Z; [|lia].
  assert (z < up x)%Z by (apply lt_IZR; lra).
  assert (up x < z + 2)%Z by (apply lt_IZR; rewrite plus_IZR; lra). lia.
Qed.

Lemma shift_zero : shift_pm_pi 0 = PI * PI - 3 * PI.
Proof.
  unfold shift_pm_pi, fmod. pose proof PI_between.
  rewrite (floor_unique ((0 + PI) / 2) 1); [ring|]. split; lra.
Qed.

Lemma shift_wrong : ~ exists k : Z, shift_pm_pi 0 = 0 + 2 * IZR k * PI.
Proof.
  intros [k Hk]. rewrite shift_zero in Hk. pose proof PI_between as [A B].
  assert (E : PI - 3 = 2 * IZR k) by nra.
  assert (k < 1)%Z by (apply lt_IZR; lra). assert (0 < k)%Z by (apply lt_IZR; lra). lia.
Qed.

(** ---- harmonic-wise conditioning ---- *)
Lemma cond_slice_in X a b C i : (a <= i < b)%nat -> cond_slice X a b C i = Rmax (C i) (mean_abs X a b).
Proof.
  intros H. unfold cond_slice. destruct (Nat.leb_spec a i); [|lia]. destruct (Nat.ltb_spec i b); [|lia]. reflexivity.
Qed.
Lemma cond_slice_out X a b C i : (i < a \/ b <= i)%nat -> cond_slice X a b C i = C i.
Proof.
  intros H. unfold cond_slice. destruct (Nat.leb_spec a i), (Nat.ltb_spec i b); cbn [andb]; try reflexivity; lia.
Qed.

(** the loop over nonzero harmonics starting at index q *)
Lemma cond_loop_pos X Ndof hz : forall l q C, ~ In O l -> (hz <= 1)%nat -> (hz <= q)%nat ->
  exists C1, cond_loop X Ndof q hz l C = Ok C1 /\
   (forall p i, (p < length l)%nat -> ((2 * (q + p) - hz) * Ndof <= i < (2 * (q + p) + 2 - hz) * Ndof)%nat ->
      C1 i = Rmax (C i) (mean_abs X ((2 * (q + p) - hz) * Ndof) ((2 * (q + p) + 2 - hz) * Ndof))) /\
   (forall i, (i < (2 * q - hz) * Ndof)%nat \/ ((2 * (q + length l) - hz) * Ndof <= i)%nat -> C1 i = C i).
Proof.
  induction l as [|k l IH]; intros q C H0 Hz Hq; cbn [cond_loop].
  - exists C. split; [reflexivity|]. split; [intros; simpl in *; lia|reflexivity].
  - destruct (Nat.eqb_spec k 0) as [->|Hk]; [exfalso; apply H0; left; reflexivity|].
    destruct (IH (S q) (cond_slice X ((2 * q - hz) * Ndof) ((2 * q + 2 - hz) * Ndof) C)) as [C1 [E [A B]]];
      [intros Y; apply H0; right; exact Y|exact Hz|lia|].
    exists C1. split; [exact E|]. split.
    + intros p i Hp Hi. destruct p as [|p].
      * rewrite Nat.add_0_r in *. rewrite B by (left; nia). apply cond_slice_in. exact Hi.
      * replace (q + S p)%nat with (S q + p)%nat in * by lia.
        rewrite (A p) by (assumption || (simpl in Hp; lia)). rewrite cond_slice_out; [reflexivity|]. right. nia.
    + intros i Hi. simpl length in Hi. rewrite B by (destruct Hi; [left; nia|right; replace (S q + length l)%nat with (q + S (length l))%nat by lia; assumption]).
      apply cond_slice_out. nia.
Qed.

Lemma firstn_components h p : ~ In O (tl h) -> (p <= length h)%nat ->
  length (components (firstn p h)) = (2 * p - (if Nat.eqb p 0 then 0 else zi h))%nat.
Proof.
  intros Hz Hp. destruct p as [|p]; [reflexivity|]. cbn [Nat.eqb].
  destruct h as [|k h]; [simpl in Hp; lia|]. cbn [firstn tl] in *. simpl in Hp.
  assert (F : ~ In O (firstn p h)).
  { intros X. apply Hz. rewrite <- (firstn_skipn p h). apply in_or_app. left. exact X. }
  unfold components. cbn [flat_map]. rewrite app_length. fold (components (firstn p h)).
  rewrite length_components_pos by exact F. rewrite firstn_length_le by lia.
  unfold zi. cbn [hd]. destruct k as [|k]; cbn [length Nat.eqb]; lia.
Qed.

Lemma cond_loop_spec X Ndof h C : h <> [] -> ~ In O (tl h) ->
  exists C1, cond_loop X Ndof 0 0 h C = Ok C1 /\
   (forall p i, (p < length h)%nat -> (harmonic_start h Ndof p <= i < harmonic_end h Ndof p)%nat ->
      C1 i = Rmax (C i) (mean_abs X (harmonic_start h Ndof p) (harmonic_end h Ndof p))) /\
   (forall i, (length (components h) * Ndof <= i)%nat -> C1 i = C i).
Proof.
  intros Hne Hz.
  assert (Start : forall p, (0 < p <= length h)%nat -> harmonic_start h Ndof p = ((2 * p - zi h) * Ndof)%nat).
  { intros p Hp. unfold harmonic_start. rewrite firstn_components by (assumption || lia).
    destruct (Nat.eqb_spec p 0); [lia|]. lia. }
  assert (Start0 : harmonic_start h Ndof 0 = O) by (unfold harmonic_start; simpl; lia).
  assert (Len : length (components h) = (2 * length h - zi h)%nat).
  { pose proof (firstn_components h (length h) Hz (le_n _)) as F. rewrite firstn_all in F.
    rewrite F. destruct h; [congruence|]. reflexivity. }
  destruct h as [|k l] eqn:Eh; [congruence|]. rewrite <- Eh in *.
  assert (Hl : ~ In O l) by (rewrite Eh in Hz; exact Hz).
  assert (Hlen : length h = S (length l)) by (rewrite Eh; reflexivity).
  destruct (Nat.eq_dec k 0) as [Ek|Ek].
  - assert (Ez : zi h = 1%nat) by (rewrite Eh, Ek; reflexivity).
    assert (Un : cond_loop X Ndof 0 0 h C = cond_loop X Ndof 1 1 l (cond_slice X 0 Ndof C)) by (rewrite Eh, Ek; reflexivity).
    rewrite Un. destruct (cond_loop_pos X Ndof 1 l 1 (cond_slice X 0 Ndof C) Hl (le_n _) (le_n _)) as [C1 [E [A B]]].
    exists C1. split; [exact E|]. split.
    + intros p i Hp Hi. unfold harmonic_end in *. destruct p as [|p].
      * rewrite Start0 in *. rewrite Start in * by lia. rewrite Ez in *.
        replace ((2 * 1 - 1) * Ndof)%nat with Ndof in * by lia.
        rewrite B by (left; lia). apply cond_slice_in. lia.
      * rewrite !Start in * by lia. rewrite Ez in *.
        replace (2 * S (S p) - 1)%nat with (2 * (1 + p) + 2 - 1)%nat in * by lia.
        replace (2 * S p - 1)%nat with (2 * (1 + p) - 1)%nat in * by lia.
        rewrite (A p) by (assumption || lia). rewrite cond_slice_out; [reflexivity|]. right. nia.
    + intros i Hi. rewrite Len, Ez, Hlen in Hi. rewrite B by (right; exact Hi). apply cond_slice_out. right. nia.
  - assert (Ez : zi h = O) by (rewrite Eh; unfold zi; cbn [hd]; destruct (Nat.eqb_spec k 0); [contradiction|reflexivity]).
    assert (H0 : ~ In O h) by (rewrite Eh; intros [Y|Y]; [congruence|contradiction]).
    destruct (cond_loop_pos X Ndof 0 h 0 C H0 ltac:(lia) ltac:(lia)) as [C1 [E [A B]]].
    exists C1. split; [exact E|]. split.
    + intros p i Hp Hi. unfold harmonic_end in *.
      assert (S0 : harmonic_start h Ndof p = ((2 * (0 + p) - 0) * Ndof)%nat).
      { destruct p; [rewrite Start0; reflexivity|]. rewrite Start by lia. rewrite Ez. reflexivity. }
      assert (S1 : harmonic_start h Ndof (S p) = ((2 * (0 + p) + 2 - 0) * Ndof)%nat) by (rewrite Start by lia; nia).
      rewrite S0, S1 in *. apply A; assumption.
    + intros i Hi. rewrite Len, Ez in Hi. apply B. right. exact Hi.
Qed.

Lemma cond_scalar X len Ndof h d : admissible h -> (length (components h) * Ndof <= len)%nat ->
  exists C, harmonic_wise_conditioning X len Ndof h (DScalar d) = Ok (len, C) /\
    (forall p i, (p < length h)%nat -> (harmonic_start h Ndof p <= i < harmonic_end h Ndof p)%nat ->
        C i = Rmax d (mean_abs X (harmonic_start h Ndof p) (harmonic_end h Ndof p))) /\
    (forall i, (length (components h) * Ndof <= i < len)%nat -> C i = Rmax d (Rabs (X i))).
Proof.
  intros [Hne [Hd Hz]] HL. unfold harmonic_wise_conditioning. rewrite (proj1 (Nhc_spec h) Hd). cbn [bind].
  destruct (cond_loop_spec X Ndof h (fun _ => d) Hne Hz) as [C1 [E [A B]]]. rewrite E. cbn [bind].
  assert (Top : forall p, (p < length h)%nat -> (harmonic_end h Ndof p <= length (components h) * Ndof)%nat).
  { intros p Hp. unfold harmonic_end, harmonic_start. rewrite Nat.mul_comm. apply Nat.mul_le_mono_r.
    rewrite <- (firstn_skipn (S p) h) at 2. unfold components. rewrite flat_map_app, app_length. lia. }
  destruct (Nat.ltb_spec 0 (len - length (components h) * Ndof)) as [L|L].
  - destruct (Nat.ltb_spec len (len - length (components h) * Ndof)); [lia|].
    eexists. split; [reflexivity|]. split.
    + intros p i Hp Hi. specialize (Top p Hp).
      destruct (Nat.leb_spec (len - (len - length (components h) * Ndof)) i); [lia|]. cbn [andb]. apply A; assumption.
    + intros i Hi. destruct (Nat.leb_spec (len - (len - length (components h) * Ndof)) i); [|lia].
      destruct (Nat.ltb_spec i len); [|lia]. cbn [andb]. rewrite B by lia. f_equal. f_equal. f_equal. lia.
  - eexists. split; [reflexivity|]. split; [exact A|]. intros; lia.
Qed.

Lemma cond_array X len Ndof h (d : vec) : admissible h -> (0 < Ndof)%nat ->
  (length (components h) * Ndof <= len < length (components h) * Ndof + 2 * Ndof)%nat ->
  let extras := Nat.ltb (length (components h) * Ndof) len in
  exists C, harmonic_wise_conditioning X len Ndof h (DArray d (length h + if extras then 1 else 0)) = Ok (len, C) /\
    (forall p i, (p < length h)%nat -> (harmonic_start h Ndof p <= i < harmonic_end h Ndof p)%nat ->
        C i = Rmax (d p) (mean_abs X (harmonic_start h Ndof p) (harmonic_end h Ndof p))) /\
    (forall i, (length (components h) * Ndof <= i < len)%nat -> C i = Rmax (d (length h)) (Rabs (X i))).
Proof.
  intros [Hne [Hd Hz]] HN HL extras. unfold harmonic_wise_conditioning. rewrite (proj1 (Nhc_spec h) Hd). cbn [bind].
  assert (Ex : Nat.ltb 0 (len - length (components h) * Ndof) = extras).
  { unfold extras. destruct (Nat.ltb_spec 0 (len - length (components h) * Ndof)), (Nat.ltb_spec (length (components h) * Ndof) len); try reflexivity; lia. }
  rewrite Ex. clearbody extras. rewrite Nat.eqb_refl. cbn [orb negb bind].
  set (dlen := (length h + (if extras then 1 else 0))%nat).
  set (off := (Ndof * zi h)%nat).
  assert (Len : length (components h) = (2 * length h - zi h)%nat).
  { pose proof (firstn_components h (length h) Hz (le_n _)) as F. rewrite firstn_all in F.
    rewrite F. destruct h; [congruence|]. reflexivity. }
  pose proof (zi_length h Hne) as Zl. pose proof (zi_le h) as Z1.
  set (C := fun i : nat => d (if Nat.eqb dlen 1 then O else ((i + off) / (2 * Ndof))%nat)).
  assert (Pos : (0 < length h)%nat) by (destruct h; [congruence|simpl; lia]).
  assert (CV : forall q i, (q < dlen)%nat -> (2 * q * Ndof <= i + off < 2 * q * Ndof + 2 * Ndof)%nat -> C i = d q).
  { intros q i Hq Hi. unfold C. destruct (Nat.eqb_spec dlen 1) as [E1|E1]; [f_equal; lia|].
    f_equal. symmetry. apply (Nat.div_unique (i + off) (2 * Ndof) q (i + off - 2 * q * Ndof)); nia. }
  destruct (cond_loop_spec X Ndof h C Hne Hz) as [C1 [E [A B]]].
  assert (NN : (if extras
        then if Nat.ltb (len - length (components h) * Ndof) (2 * Ndof)
             then 2 * Ndof * dlen - off - (2 * Ndof - (len - length (components h) * Ndof))
             else Nat.min (2 * Ndof * dlen - off) (len - length (components h) * Ndof - 2 * Ndof)
        else 2 * Ndof * dlen - off)%nat = len).
  { destruct extras.
    - destruct (Nat.ltb_spec (len - length (components h) * Ndof) (2 * Ndof)); [|lia].
      unfold dlen, off. nia.
    - destruct (Nat.ltb_spec 0 (len - length (components h) * Ndof)); [discriminate|]. unfold dlen, off. nia. }
  rewrite NN. fold C. rewrite E. cbn [bind].
  assert (Start : forall p, (p <= length h)%nat -> (harmonic_start h Ndof p = 2 * p * Ndof - off \/ (p = 0 /\ harmonic_start h Ndof p = 0))%nat).
  { intros p Hp. unfold harmonic_start. rewrite firstn_components by assumption. unfold off.
    destruct (Nat.eqb_spec p 0); [right; split; [assumption|subst; simpl; lia]|left; nia]. }
  assert (CH : forall p i, (p < length h)%nat -> (harmonic_start h Ndof p <= i < harmonic_end h Ndof p)%nat -> C i = d p).
  { intros p i Hp Hi. apply CV; [unfold dlen; lia|]. unfold harmonic_end in Hi.
    destruct (Start p ltac:(lia)) as [S1|[S0 S1]], (Start (S p) ltac:(lia)) as [S2|[S3 _]]; try lia; try subst p;
    rewrite S1, S2 in Hi; unfold off in *; nia. }
  assert (Top : forall p, (p < length h)%nat -> (harmonic_end h Ndof p <= length (components h) * Ndof)%nat).
  { intros p Hp. unfold harmonic_end, harmonic_start. rewrite Nat.mul_comm. apply Nat.mul_le_mono_r.
    rewrite <- (firstn_skipn (S p) h) at 2. unfold components. rewrite flat_map_app, app_length. lia. }
  destruct extras.
  - destruct (Nat.ltb_spec len (len - length (components h) * Ndof)); [lia|].
    eexists. split; [reflexivity|]. split.
    + intros p i Hp Hi. specialize (Top p Hp).
      destruct (Nat.leb_spec (len - (len - length (components h) * Ndof)) i); [lia|]. cbn [andb].
      rewrite (A p i Hp Hi), (CH p i Hp Hi). reflexivity.
    + intros i Hi. destruct (Nat.leb_spec (len - (len - length (components h) * Ndof)) i); [|lia].
      destruct (Nat.ltb_spec i len); [|lia]. cbn [andb]. rewrite B by lia. f_equal.
      * apply CV; [unfold dlen; lia|]. unfold off. nia.
      * f_equal. f_equal. lia.
  - eexists. split; [reflexivity|]. split.
    + intros p i Hp Hi. rewrite (A p i Hp Hi), (CH p i Hp Hi). reflexivity.
    + intros i Hi. destruct (Nat.ltb_spec 0 (len - length (components h) * Ndof)); [discriminate|lia].
Qed.

(** 2*Ndof or more extra entries: the array form always fails *)
Lemma cond_array_fails X len Ndof h (d : vec) : admissible h -> (0 < Ndof)%nat ->
  (length (components h) * Ndof + 2 * Ndof <= len)%nat ->
  harmonic_wise_conditioning X len Ndof h (DArray d (length h + 1)) = Err ValueError.
Proof.
  intros [Hne [Hd Hz]] HN HL. unfold harmonic_wise_conditioning. rewrite (proj1 (Nhc_spec h) Hd). cbn [bind].
  destruct (Nat.ltb_spec 0 (len - length (components h) * Ndof)); [|lia].
  rewrite Nat.eqb_refl. cbn [orb negb bind].
  match goal with |- context [cond_loop X Ndof 0 0 h ?C] => destruct (cond_loop_spec X Ndof h C Hne Hz) as [C1 [E _]]; rewrite E end.
  cbn [bind]. destruct (Nat.ltb_spec (len - length (components h) * Ndof) (2 * Ndof)); [lia|].
  match goal with |- context [Nat.ltb ?a ?b] => destruct (Nat.ltb_spec a b); [reflexivity|] end. lia.
Qed.

(** ---- zero crossings ---- *)
Lemma zero_crossing_iff n X tol i : (i < n)%nat ->
  (zero_crossing n X tol i = true <->
   (S i < n)%nat /\ ((X i < 0 /\ 0 < X (S i)) \/ (0 < X i /\ X (S i) < 0)) /\
   match tol with None => True | Some t => Rabs (X i) < t end).
Proof.
  intros Hi. unfold zero_crossing. rewrite !andb_true_iff, Nat.ltb_lt, Rltb_true.
  assert (S1 : X i * X (S i) < 0 <-> (X i < 0 /\ 0 < X (S i)) \/ (0 < X i /\ X (S i) < 0)).
  { split; [|intros [[A B]|[A B]]; nra].
    intros H. destruct (Rtotal_order (X i) 0) as [A|[A|A]]; [left|exfalso; rewrite A in H; lra|right]; split; nra. }
  rewrite S1. destruct tol as [t|]; [rewrite Rltb_true|]; tauto.
Qed.

(** harmonic coefficients of the equation of motion, by sampling one period *)
Lemma stiffness_coefficients nd M C K w h cg U Nt : admissible h -> w <> 0 -> (2 * list_max h < Nt)%nat ->
  exists E dE (v a : nat -> R -> R),
    harmonic_stiffness nd M C K w h cg false = Ok (E, dE) /\
    (forall j t, derivable_pt_lim (motion nd h U w j) t (v j t)) /\
    (forall j t, derivable_pt_lim (v j) t (a j t)) /\
    forall i c, (i < nd)%nat -> (c < length (components h))%nat ->
      matvec (length (components h) * nd) E U (c * nd + i)%nat
      = fourier_coef Nt (fun n => let t := sample_phase Nt n / w in
          rsum nd (fun j => M i j * a j t + C i j * v j t + K i j * motion nd h U w j t))
          (nth c (components h) (Cos O)).
Proof.
  intros Ha Hw HN. destruct (stiffness_eom nd M C K w h cg U Ha) as [E [dE [v [a [H1 [H2 [H3 H4]]]]]]].
  exists E, dE, v, a. repeat split; auto. intros i c Hi Hc. destruct Ha as [_ [Hd _]].
  pose proof (series_coef Nt h (dof_coefs nd (matvec (length (components h) * nd) E U) i) c Hd HN Hc) as S.
  unfold dof_coefs in S at 2. rewrite <- S. apply fourier_coef_ext. intros n Hn. cbv zeta.
  rewrite <- H4 by exact Hi. unfold motion. f_equal. field. exact Hw.
Qed.

Lemma list_max_3 : list_max [0; 1; 3]%nat = 3%nat. Proof. reflexivity. Qed.
Lemma admissible_013 : admissible [0; 1; 3]%nat.
Proof.
  split; [discriminate|]. split; [repeat constructor; simpl; intuition lia|]. simpl. intuition lia.
Qed.

Lemma time_series_even Nt h X0 order : admissible h -> (2 * list_max h + 1 < Nt)%nat -> Nat.even Nt = true ->
  exists x g, time_series_deriv Nt h X0 order = Ok (Nt, x) /\
    nth_derivative order (series h X0) g /\ forall n, (n < Nt)%nat -> x n = g (sample_phase Nt n).
Proof.
  intros Ha HN Ev. destruct (time_series_spec Nt h X0 order Ha HN) as [x [g [E [D S]]]].
  assert (Q : (2 * (Nt / 2) = Nt)%nat).
  { apply Nat.even_spec in Ev. destruct Ev as [m ->]. rewrite (Nat.mul_comm 2 m), Nat.div_mul by lia. lia. }
  rewrite Q in *. exists x, g. auto.
Qed.

Lemma time_series_count Nt h X0 order : admissible h -> (2 * list_max h + 1 < Nt)%nat -> Nat.even Nt = true ->
  exists x, time_series_deriv Nt h X0 order = Ok (Nt, x).
Proof. intros Ha HN Ev. destruct (time_series_even Nt h X0 order Ha HN Ev) as [x [g [E _]]]. eauto. Qed.

Lemma time_series_odd Nt h X0 order : admissible h -> (2 * list_max h + 1 < Nt)%nat -> Nat.odd Nt = true ->
  exists x, time_series_deriv Nt h X0 order = Ok ((Nt - 1)%nat, x).
Proof.
  intros Ha HN Od. destruct (time_series_spec Nt h X0 order Ha HN) as [x [g [E _]]].
  apply Nat.odd_spec in Od. destruct Od as [m ->].
  replace ((2 * m + 1) / 2)%nat with m in E.
  - exists x. rewrite E. replace (2 * m + 1 - 1)%nat with (2 * m)%nat by lia. reflexivity.
  - replace (2 * m + 1)%nat with (1 + m * 2)%nat by lia. rewrite Nat.div_add by lia. reflexivity.
Qed.

Lemma rotate_group U Ndof h a b k : ~ In O (tl h) -> (0 < Ndof)%nat ->
  (forall i, (length (components h) * Ndof <= i)%nat -> rotate_subtract_phase U Ndof h a k i = U i) /\
  (forall i, rotate_subtract_phase (rotate_subtract_phase U Ndof h a k) Ndof h b k i
             = rotate_subtract_phase U Ndof h (a + b) k i) /\
  (forall i, rotate_subtract_phase (rotate_subtract_phase U Ndof h a k) Ndof h (- a) k i = U i).
Proof.
  intros Hz HN. split; [|split]; intros i; [apply rotate_extra|apply rotate_compose|apply rotate_back]; assumption.
Qed.

Lemma c02_case : admissible [0; 1; 3]%nat /\ (2 * list_max [0; 1; 3]%nat + 1 < 8)%nat /\ Nat.even 8 = true
  /\ series [0; 1; 3]%nat (fun c => INR c) 0 = 4.
Proof.
  split; [exact admissible_013|]. split; [rewrite list_max_3; lia|]. split; [reflexivity|].
  cbn -[cos sin]. rewrite !Rmult_0_r. rewrite cos_0, sin_0. ring.
Qed.

Lemma c07_case : rotate_subtract_phase (fun i => if Nat.eqb i 0 then 1 else 0) 1 [1%nat] (PI / 2) 1 1%nat = 1.
Proof.
  cbn -[cos sin PI]. unfold rot_step. cbn -[cos sin PI]. 
  replace (1 * (PI / 2 / 1)) with (PI / 2) by field. rewrite sin_PI2. ring.
Qed.

Lemma zero_crossing_missed :
  exists n X, X O < 0 /\ 0 < X (n - 1)%nat /\ forall i, zero_crossing n X None i = false.
Proof.
  exists 3%nat, (fun i => INR i - 1). cbn -[zero_crossing]. split; [lra|]. split; [lra|].
  intros i. destruct (zero_crossing 3 (fun i0 => INR i0 - 1) None i) eqn:E; [|reflexivity]. exfalso.
  unfold zero_crossing in E. rewrite !andb_true_iff in E. destruct E as [_ [E1 E2]].
  apply Nat.ltb_lt in E1. apply Rltb_true in E2.
  destruct i as [|[|i]]; [| |lia]; simpl in E2; lra.
Qed.
