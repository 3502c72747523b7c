(** Sliding discs: the share of the Coulomb force that the trapezoidal rule over the rings reaches. *)
From Coq Require Import Reals Lra Lia Arith List.
From Verif.Lib Require Import RSum Calc Py.
From Verif.Spec Require Import Slider Rough RoughMif.
From Verif.Proofs Require Import RoughNormalP RoughStaticP RoughInterpP SliderP.
Open Scope R_scope.

Lemma trapezoid_gap a b p q : a ^ 2 + p ^ 2 = 1 -> b ^ 2 + q ^ 2 = 1 ->
  (p ^ 3 - q ^ 3) / 3 - (b - a) * (a * p + b * q) / 2 = (p - q) * (3 * (b - a) ^ 2 + (p - q) ^ 2) / 12.
Proof.
  intros Ha Hb. assert (D : (b - a) * (a * p + b * q) = (p - q) * (a * b - 1 + p ^ 2 + p * q + q ^ 2)).
  { transitivity (a * b * (p - q) + b ^ 2 * q - a ^ 2 * p); [ring|]. replace (b ^ 2) with (1 - q ^ 2) by lra. replace (a ^ 2) with (1 - p ^ 2) by lra. ring. }
  rewrite D. assert (E : (b - a) ^ 2 = 2 - p ^ 2 - q ^ 2 - 2 * (a * b)) by (replace ((b - a) ^ 2) with (b ^ 2 + a ^ 2 - 2 * (a * b)) by ring; lra). rewrite E. field.
Qed.

(** share of the Coulomb force *)
Definition slip_share (n : nat) : R := 3 * rsum (n - 1) (fun j => (ring n (S j) - ring n j) * (ring n j * sqrt (1 - ring n j ^ 2) + ring n (S j) * sqrt (1 - ring n (S j) ^ 2)) / 2).

Section Share.
  Variable n : nat.
  Hypothesis Hn : (1 < n)%nat.
  Let h := / INR (n - 1).
  Let p := fun j => sqrt (1 - ring n j ^ 2).

  Lemma step_pos : 0 < h <= 1.
  Proof.
    unfold h. pose proof (gap_pos n Hn) as H. split; [apply Rinv_0_lt_compat; exact H|]. rewrite <- Rinv_1. apply Rinv_le_contravar; [lra|]. change 1 with (INR 1). apply le_INR. lia.
  Qed.
  Lemma ring_step j : ring n (S j) - ring n j = h.
  Proof. unfold ring, h. pose proof (gap_pos n Hn). rewrite S_INR. field. lra. Qed.
  Lemma circle j : (j < n)%nat -> ring n j ^ 2 + p j ^ 2 = 1.
  Proof. intros Hj. unfold p. pose proof (ring_range n j Hn Hj). rewrite pow2_sqrt by nra. ring. Qed.
  Lemma p_down j : (S j < n)%nat -> 0 <= p (S j) <= p j.
  Proof.
    intros Hj. split; [apply sqrt_pos|]. unfold p. apply sqrt_le_1_alt. pose proof (ring_range n j Hn ltac:(lia)). pose proof (ring_range n (S j) Hn Hj). pose proof (ring_step j). pose proof step_pos. nra.
  Qed.
  Lemma p_ends : p O = 1 /\ p (n - 1)%nat = 0.
  Proof.
    pose proof (gap_pos n Hn). unfold p, ring. change (INR 0) with 0. split; [replace (1 - (0 / INR (n - 1)) ^ 2) with 1 by (field; lra); apply sqrt_1|].
    replace (1 - (INR (n - 1) / INR (n - 1)) ^ 2) with 0 by (field; lra). apply sqrt_0.
  Qed.
  Lemma telescope (f : nat -> R) m : rsum m (fun j => f j - f (S j)) = f O - f m.
  Proof. induction m as [|m IH]; [cbn [rsum]; ring|]. cbn [rsum]. rewrite IH. ring. Qed.

  Lemma share_range : 1 - 5 / (4 * INR (n - 1)) <= slip_share n <= 1.
  Proof.
    destruct p_ends as [P0 P1]. pose proof step_pos as Hh. pose proof (gap_pos n Hn) as HN.
    assert (E : rsum (n - 1) (fun j => (p j ^ 3 - p (S j) ^ 3) / 3) = / 3).
    { rewrite (rsum_ext _ _ (fun j => p j ^ 3 / 3 - p (S j) ^ 3 / 3)) by (intros; field). rewrite (telescope (fun j => p j ^ 3 / 3)). rewrite P0, P1. field. }
    assert (G : rsum (n - 1) (fun j => (p j ^ 3 - p (S j) ^ 3) / 3) - rsum (n - 1) (fun j => (ring n (S j) - ring n j) * (ring n j * p j + ring n (S j) * p (S j)) / 2) =
                rsum (n - 1) (fun j => (p j - p (S j)) * (3 * h ^ 2 + (p j - p (S j)) ^ 2) / 12)).
    { rewrite <- rsum_minus. apply rsum_ext. intros j Hj. rewrite (trapezoid_gap (ring n j) (ring n (S j)) (p j) (p (S j))) by (apply circle; lia). rewrite ring_step. reflexivity. }
    assert (L : 0 <= rsum (n - 1) (fun j => (p j - p (S j)) * (3 * h ^ 2 + (p j - p (S j)) ^ 2) / 12)).
    { apply rsum_nonneg. intros j Hj. pose proof (p_down j ltac:(lia)). pose proof (pow2_ge_0 h). pose proof (pow2_ge_0 (p j - p (S j))). apply Rmult_le_pos; [|lra]. apply Rmult_le_pos; lra. }
    assert (U : rsum (n - 1) (fun j => (p j - p (S j)) * (3 * h ^ 2 + (p j - p (S j)) ^ 2) / 12) <= 5 * h / 12).
    { apply Rle_trans with (rsum (n - 1) (fun j => 5 * h / 12 * (p j - p (S j)))).
      - apply rsum_le. intros j Hj. pose proof (p_down j ltac:(lia)) as D. pose proof (circle j ltac:(lia)) as C1. pose proof (circle (S j) ltac:(lia)) as C2. pose proof (ring_step j) as RS.
        pose proof (ring_range n j Hn ltac:(lia)) as R1. pose proof (ring_range n (S j) Hn ltac:(lia)) as R2.
        assert (Q : (p j - p (S j)) ^ 2 <= 2 * h).
        { apply Rle_trans with ((p j - p (S j)) * (p j + p (S j))); [nra|]. replace ((p j - p (S j)) * (p j + p (S j))) with ((ring n (S j) - ring n j) * (ring n (S j) + ring n j)) by nra. rewrite RS. nra. }
        assert (H2 : h ^ 2 <= h) by nra.
        replace ((p j - p (S j)) * (3 * h ^ 2 + (p j - p (S j)) ^ 2) / 12) with ((3 * h ^ 2 + (p j - p (S j)) ^ 2) / 12 * (p j - p (S j))) by field. apply Rmult_le_compat_r; lra.
      - rewrite rsum_scal_l, telescope, P0, P1. lra. }
    rewrite E in G. assert (HS : slip_share n = 3 * rsum (n - 1) (fun j => (ring n (S j) - ring n j) * (ring n j * p j + ring n (S j) * p (S j)) / 2)) by reflexivity. rewrite HS.
    replace (5 / (4 * INR (n - 1))) with (5 * h / 4) by (unfold h; field; lra). lra.
  Qed.
End Share.

Lemma share_two : slip_share 2 = 0.
Proof.
  assert (R0 : ring 2 0 = 0) by (unfold ring; cbn; field). assert (R1 : ring 2 1 = 1) by (unfold ring; cbn; field).
  unfold slip_share. cbn [Nat.sub rsum]. rewrite R0, R1. replace (1 - 1 ^ 2) with 0 by ring. rewrite sqrt_0. field.
Qed.

Lemma shape_pos r : 0 <= r < 1 -> 0 < mif_shape r.
Proof.
  intros H. unfold mif_shape. destruct (Rlt_dec r 1); [|lra]. assert (A : 1 <= / sqrt (1 - r ^ 2)).
  { assert (P : 0 < 1 - r ^ 2 <= 1) by nra. rewrite <- Rinv_1 at 1. apply Rinv_le_contravar; [apply sqrt_lt_R0; lra|]. rewrite <- sqrt_1 at 2. apply sqrt_le_1_alt. lra. }
  assert (B : 0 <= r ^ 3) by (apply pow_le; lra). assert (C : r ^ 2 <= 1) by nra. unfold Rdiv at 3. lra.
Qed.

(** beyond some step every ring slips *)
Lemma all_slip s mu n fn a a0 t : physical s -> 0 <= mu -> (1 < n)%nat -> 0 < fn -> 0 < a ->
  exists D, forall du, D <= du ->
    (forall j, (j < n)%nat -> ring_traction s mu n fn a a0 t du j = mu * hertz_pressure fn a (ring n j)) /\
    disc_force n a (ring_traction s mu n fn a a0 t du) = slip_share n * (mu * fn).
Proof.
  intros Hs Hmu Hn Hfn Ha. pose proof PI_RGT_0 as HPI. assert (HG : 0 < mindlin_modulus s) by (unfold mindlin_modulus; destruct Hs as (H1 & H2 & _); apply Rdiv_lt_0_compat; [exact H1|apply Rmult_lt_0_compat; lra]).
  assert (Ha2 : 0 < a ^ 2) by (apply pow_lt; exact Ha).
  assert (HP : forall j, 0 <= mu * hertz_pressure fn a (ring n j)).
  { intros j. apply Rmult_le_pos; [exact Hmu|]. unfold hertz_pressure. apply Rmult_le_pos; [|apply sqrt_pos]. left. apply Rdiv_lt_0_compat; [lra|]. apply Rmult_lt_0_compat; lra. }
  assert (One : forall m, (m <= n)%nat -> exists D, forall du, D <= du -> forall j, (j < m)%nat -> ring_traction s mu n fn a a0 t du j = mu * hertz_pressure fn a (ring n j)).
  { induction m as [|m IH]; intros Hm; [exists 0; intros; lia|]. destruct (IH ltac:(lia)) as [D HD].
    set (q := mu * hertz_pressure fn a (ring n m)). set (c := carried n a0 t (ring n m * a)). set (k := 8 * mindlin_modulus s * a / (PI * a ^ 2) * mif_shape (ring n m)).
    assert (Hq : 0 <= q) by (apply HP).
    assert (Z : exists D', forall du, D' <= du -> q <= c + k * du \/ q = 0).
    { destruct (ring_range n m Hn ltac:(lia)) as [R0 R1]. destruct (Rlt_dec (ring n m) 1) as [L|L].
      - assert (Hk : 0 < k). { unfold k. apply Rmult_lt_0_compat; [|apply shape_pos; lra]. apply Rdiv_lt_0_compat; [apply Rmult_lt_0_compat; lra|apply Rmult_lt_0_compat; lra]. }
        exists ((q - c) / k). intros du Hdu. left. apply (Rmult_le_compat_l k) in Hdu; [|lra]. replace (k * ((q - c) / k)) with (q - c) in Hdu by (field; lra). lra.
      - exists 0. intros du _. right. unfold q, hertz_pressure. replace (ring n m) with 1 by lra. replace (1 - 1 ^ 2) with 0 by ring. rewrite sqrt_0. ring. }
    destruct Z as [D' HD']. exists (Rmax D D'). intros du Hdu j Hj. pose proof (Rmax_l D D'). pose proof (Rmax_r D D').
    destruct (Nat.eq_dec j m) as [->|]; [|apply HD; [lra|lia]].
    unfold ring_traction. destruct (Rlt_dec 0 fn); [|contradiction]. cbv zeta. fold q c k. specialize (HD' du ltac:(lra)). unfold clamp, Rmax, Rmin. repeat destruct (Rle_dec _ _); lra. }
  destruct (One n (le_n n)) as [D HD]. exists D. intros du Hdu. specialize (HD du Hdu). split; [exact HD|].
  unfold disc_force, slip_share.
  rewrite (rsum_ext (n - 1) _ (fun j => mu * (3 * fn / (2 * PI * a ^ 2)) * ((ring n (S j) - ring n j) * (ring n j * sqrt (1 - ring n j ^ 2) + ring n (S j) * sqrt (1 - ring n (S j) ^ 2)) / 2))).
  - rewrite rsum_scal_l. field. lra.
  - intros j Hj. rewrite !HD by lia. unfold hertz_pressure. field. lra.
Qed.

Lemma share_exists n : (1 < n)%nat -> exists share, 1 - 5 / (4 * INR (n - 1)) <= share <= 1 /\
  forall s mu fn a a0 t, physical s -> 0 <= mu -> 0 < fn -> 0 < a -> exists D, forall du, D <= du ->
    (forall j, (j < n)%nat -> ring_traction s mu n fn a a0 t du j = mu * hertz_pressure fn a (ring n j)) /\
    disc_force n a (ring_traction s mu n fn a a0 t du) = share * (mu * fn).
Proof. intros Hn. exists (slip_share n). split; [apply share_range; exact Hn|]. intros. apply all_slip; assumption. Qed.

(** ring tractions never exceed the friction limit, and the disc force never exceeds mu times the normal force *)
Lemma ring_range_limit s mu n fn a a0 t du j : 0 <= mu -> 0 <= fn -> Rabs (ring_traction s mu n fn a a0 t du j) <= mu * hertz_pressure fn a (ring n j).
Proof.
  intros Hmu Hfn. assert (HP : 0 <= mu * hertz_pressure fn a (ring n j)).
  { apply Rmult_le_pos; [exact Hmu|]. unfold hertz_pressure. apply Rmult_le_pos; [|apply sqrt_pos]. pose proof PI_RGT_0. apply Rmult_le_pos; [lra|].
    destruct (Req_dec (2 * PI * a ^ 2) 0) as [->|E]; [rewrite Rinv_0; lra|]. left. apply Rinv_0_lt_compat. pose proof (pow2_ge_0 a). assert (0 <= 2 * PI * a ^ 2) by (apply Rmult_le_pos; lra). lra. }
  unfold ring_traction. destruct (Rlt_dec 0 fn); [|rewrite Rabs_R0; exact HP]. cbv zeta. apply Rabs_le. apply clamp_range. lra.
Qed.

(** ---- cases ---- *)
Lemma edge_traction s mu n fn a a0 t du : (1 < n)%nat -> ring_traction s mu n fn a a0 t du (n - 1) = 0.
Proof.
  intros Hn. unfold ring_traction. destruct (Rlt_dec 0 fn); [|reflexivity]. cbv zeta. unfold hertz_pressure. assert (E : ring n (n - 1) = 1) by (unfold ring; pose proof (gap_pos n Hn); field; lra). rewrite E.
  replace (1 - 1 ^ 2) with 0 by ring. rewrite sqrt_0. unfold clamp, Rmax, Rmin. repeat destruct (Rle_dec _ _); lra.
Qed.
Lemma disc_two s mu fn a a0 t du : disc_force 2 a (ring_traction s mu 2 fn a a0 t du) = 0.
Proof.
  unfold disc_force. cbn [Nat.sub rsum]. pose proof (edge_traction s mu 2 fn a a0 t du ltac:(lia)) as E. cbn [Nat.sub] in E. rewrite E.
  assert (R0 : ring 2 0 = 0) by (unfold ring; cbn; field). rewrite R0. field.
Qed.
