(** The slider distribution of Iwan4Force. *)
From Coq Require Import Reals Lra Lia Arith List Bool.
From Verif.Lib Require Import RSum Py Calc.
From Verif.Spec Require Import Slider JenkinsCalls IwanCalls.
From Verif.Model Require Import Jenkins VectorJenkins Iwan IwanOps.
From Verif.Proofs Require Import SliderP JenkinsP JenkinsOpsP JenkinsDerivP HysteresisP IwanP VectorIwanP IwanOpsP.
Import ListNotations.
Open Scope R_scope.

(** ---- parameters ---- *)
Section Params.
  Variables (kt Fs chi beta : R) (N : nat) (alpha : R).
  Hypotheses (Hkt : 0 < kt) (HFs : 0 < Fs) (Hchi : -1 < chi) (Hbeta : 0 <= beta).
  Let p := iw_phimax kt Fs chi beta.
  Let den := iw_den chi beta.

  Lemma den_pos : 0 < den.
  Proof. unfold den, iw_den. assert (0 < (chi + 1) / (chi + 2)) by (apply Rdiv_lt_0_compat; lra). lra. Qed.
  Lemma phimax_pos : 0 < p.
  Proof. unfold p, iw_phimax. fold den. pose proof den_pos. apply Rdiv_lt_0_compat; [|assumption]. apply Rdiv_lt_0_compat; [|assumption]. apply Rmult_lt_0_compat; lra. Qed.
  Lemma Rp_pos x y : 0 < Rpower x y. Proof. unfold Rpower. apply exp_pos. Qed.
  Lemma iwR_pos : 0 < iw_R kt Fs chi beta.
  Proof. unfold iw_R. fold p den. pose proof den_pos. apply Rdiv_lt_0_compat; [apply Rmult_lt_0_compat; lra|]. apply Rmult_lt_0_compat; [apply Rp_pos|assumption]. Qed.
  Lemma iwS_nonneg : 0 <= iw_S kt Fs chi beta.
  Proof.
    unfold iw_S. fold p den. pose proof den_pos. pose proof phimax_pos. apply Rmult_le_pos; [apply Rmult_le_pos; lra|]. left. apply Rinv_0_lt_compat. apply Rmult_lt_0_compat; assumption.
  Qed.

  Lemma calibration : iwan_stiffness (iw_R kt Fs chi beta) (iw_S kt Fs chi beta) chi p = kt /\ iwan_strength (iw_R kt Fs chi beta) (iw_S kt Fs chi beta) chi p = Fs.
  Proof.
    pose proof den_pos as Hd. pose proof phimax_pos as Hp. assert (Ep : p * den * kt = Fs * (1 + beta)).
    { unfold p, iw_phimax. fold den. field. lra. }
    assert (E2 : Rpower p (chi + 2) = Rpower p (chi + 1) * p). { replace (chi + 2) with ((chi + 1) + 1) by ring. rewrite Rpower_plus, Rpower_1 by exact Hp. reflexivity. }
    pose proof (Rp_pos p (chi + 1)) as Hq. unfold iwan_stiffness, iwan_strength, iw_R, iw_S. fold p den. rewrite E2. set (q := Rpower p (chi + 1)) in *. split.
    - replace (Fs * (chi + 1) / (q * p * den) * (q / (chi + 1)) + Fs * beta / (p * den)) with (Fs * (1 + beta) / (p * den)) by (field; lra). rewrite <- Ep. field. lra.
    - replace (Fs * (chi + 1) / (q * p * den) * (q * p / (chi + 2)) + Fs * beta / (p * den) * p) with (Fs * (beta + (chi + 1) / (chi + 2)) / den) by (field; lra).
      unfold den, iw_den. unfold den, iw_den in Hd. field. split; [lra|]. intros E. assert (beta + (chi + 1) / (chi + 2) = (beta * (chi + 2) + (chi + 1)) / (chi + 2)) by (field; lra). rewrite H, E in Hd. unfold Rdiv in Hd. rewrite Rmult_0_l in Hd. lra.
  Qed.

  (** ---- cells ---- *)
  Definition edge (k : nat) : R := rsum k (iw_delta p N alpha).
  Hypotheses (HN : (0 < N)%nat) (Halpha : 1 <= alpha).

  Lemma geom d a n : rsum n (fun k => d * a ^ k) * (a - 1) = d * (a ^ n - 1).
  Proof. induction n as [|n IH]; [simpl; ring|]. rewrite rsum_S, Rmult_plus_distr_r, IH. simpl. ring. Qed.

  Lemma pow_gt1 a n : 1 < a -> (0 < n)%nat -> 1 < a ^ n.
  Proof. intros Ha Hn. destruct n; [lia|]. pose proof (pow_R1_Rle a n ltac:(lra)). simpl. nra. Qed.

  Lemma edge_end : edge N = p.
  Proof.
    unfold edge, iw_delta, iw_delta1. destruct (Rltb 1 alpha) eqn:E.
    - apply Rltb_true in E. pose proof (pow_gt1 alpha N E HN) as G. apply Rmult_eq_reg_r with (alpha - 1); [|lra]. rewrite geom. field. lra.
    - apply Rltb_false in E. replace alpha with 1 by lra. rewrite (rsum_ext N _ (fun _ => p / INR N)) by (intros; rewrite pow1; ring). rewrite rsum_const. field. apply not_0_INR. lia.
  Qed.

  Lemma delta_pos k : 0 < iw_delta p N alpha k.
  Proof.
    unfold iw_delta. pose proof phimax_pos as Hp. apply Rmult_lt_0_compat; [|apply pow_lt; lra]. unfold iw_delta1. destruct (Rltb 1 alpha) eqn:E.
    - apply Rltb_true in E. pose proof (pow_gt1 alpha N E HN). apply Rdiv_lt_0_compat; [apply Rmult_lt_0_compat; lra|lra].
    - apply Rdiv_lt_0_compat; [exact Hp|]. apply lt_0_INR. lia.
  Qed.

  Lemma edge_S k : edge (S k) = edge k + iw_delta p N alpha k. Proof. unfold edge. apply rsum_S. Qed.
  Lemma edge_nonneg k : 0 <= edge k. Proof. apply rsum_nonneg. intros. left. apply delta_pos. Qed.
  Lemma edge_le j k : (j <= k)%nat -> edge j <= edge k.
  Proof. intros H. induction H; [lra|]. rewrite edge_S. pose proof (delta_pos m). lra. Qed.

  Lemma position_mid k : (k < N)%nat -> iw_positions p N alpha k = (edge k + edge (S k)) / 2.
  Proof. intros Hk. unfold iw_positions. replace (Nat.ltb k N) with true by (symmetry; apply Nat.ltb_lt; exact Hk). fold (edge (S k)). rewrite edge_S. field. Qed.
  Lemma position_last : iw_positions p N alpha N = p. Proof. unfold iw_positions. rewrite Nat.ltb_irrefl. reflexivity. Qed.

  Lemma position_pos k : 0 < iw_positions p N alpha k.
  Proof.
    destruct (le_lt_dec N k) as [L|L]; [unfold iw_positions; replace (Nat.ltb k N) with false by (symmetry; apply Nat.ltb_ge; exact L); apply phimax_pos|].
    rewrite position_mid by exact L. rewrite edge_S. pose proof (delta_pos k). pose proof (edge_nonneg k). lra.
  Qed.
  Lemma position_le k : (k <= N)%nat -> iw_positions p N alpha k <= p.
  Proof.
    intros Hk. destruct (Nat.eq_dec k N) as [->|Hne]; [rewrite position_last; lra|]. rewrite position_mid by lia. pose proof (edge_le k N ltac:(lia)). pose proof (edge_le (S k) N ltac:(lia)). rewrite edge_end in *. lra.
  Qed.
  Lemma position_first k : (k <= N)%nat -> iw_positions p N alpha 0 <= iw_positions p N alpha k.
  Proof.
    intros Hk. rewrite (position_mid 0) by lia. rewrite edge_S. replace (edge 0) with 0 by reflexivity. destruct (Nat.eq_dec k N) as [->|Hne].
    - rewrite position_last. pose proof (edge_le 1 N ltac:(lia)). rewrite edge_end, edge_S in H. replace (edge 0) with 0 in H by reflexivity. pose proof (delta_pos 0). lra.
    - rewrite position_mid by lia. rewrite edge_S. destruct k as [|k]; [replace (edge 0) with 0 by reflexivity; lra|]. pose proof (edge_le 1 (S k) ltac:(lia)). rewrite (edge_S 0) in H. replace (edge 0) with 0 in H by reflexivity. pose proof (delta_pos (S k)). pose proof (delta_pos 0). lra.
  Qed.

  Lemma weight_cell k : (k < N)%nat -> iw_weights kt Fs chi beta N alpha k = iw_R kt Fs chi beta * Rpower (iw_positions p N alpha k) chi * (edge (S k) - edge k).
  Proof. intros Hk. unfold iw_weights. cbv zeta. replace (Nat.ltb k N) with true by (symmetry; apply Nat.ltb_lt; exact Hk). fold p. rewrite edge_S. ring. Qed.
  Lemma weight_last : iw_weights kt Fs chi beta N alpha N = iw_S kt Fs chi beta.
  Proof. unfold iw_weights. cbv zeta. rewrite Nat.ltb_irrefl. reflexivity. Qed.
  Lemma weight_nonneg k : 0 <= iw_weights kt Fs chi beta N alpha k.
  Proof.
    unfold iw_weights. cbv zeta. destruct (Nat.ltb k N); [|apply iwS_nonneg]. fold p. left. apply Rmult_lt_0_compat; [apply Rmult_lt_0_compat; [apply iwR_pos|apply Rp_pos]|apply delta_pos].
  Qed.

  Lemma total_weight : rsum (S N) (iw_weights kt Fs chi beta N alpha)
    = iw_R kt Fs chi beta * rsum N (fun k => Rpower (iw_positions p N alpha k) chi * (edge (S k) - edge k)) + iw_S kt Fs chi beta.
  Proof. rewrite rsum_S, weight_last. f_equal. rewrite <- rsum_scal_l. apply rsum_ext. intros k Hk. rewrite weight_cell by exact Hk. ring. Qed.

  Lemma total_limit : bank_limit (S N) (iw_weights kt Fs chi beta N alpha) (iw_positions p N alpha)
    = iw_R kt Fs chi beta * rsum N (fun k => Rpower (iw_positions p N alpha k) (chi + 1) * (edge (S k) - edge k)) + iw_S kt Fs chi beta * p.
  Proof.
    unfold bank_limit. rewrite rsum_S, weight_last, position_last. f_equal. rewrite <- rsum_scal_l. apply rsum_ext. intros k Hk. rewrite weight_cell by exact Hk.
    rewrite Rpower_plus, Rpower_1 by apply position_pos. ring.
  Qed.
End Params.

Lemma telescope (g : nat -> R) n : rsum n (fun k => g (S k) - g k) = g n - g O.
Proof. induction n as [|n IH]; [simpl; ring|]. rewrite rsum_S, IH. ring. Qed.

(** chi = 0: exact *)
Lemma uniform_exact kt Fs beta N alpha : 0 < kt -> 0 < Fs -> 0 <= beta -> (0 < N)%nat -> 1 <= alpha ->
  rsum (S N) (iw_weights kt Fs 0 beta N alpha) = kt /\ bank_limit (S N) (iw_weights kt Fs 0 beta N alpha) (iw_positions (iw_phimax kt Fs 0 beta) N alpha) = Fs.
Proof.
  intros Hk HF Hb HN Ha. destruct (calibration kt Fs 0 beta Hk HF ltac:(lra) Hb) as [C1 C2]. pose proof (phimax_pos kt Fs 0 beta Hk HF ltac:(lra) Hb) as Hp.
  unfold iwan_stiffness in C1. unfold iwan_strength in C2. set (p := iw_phimax kt Fs 0 beta) in *.
  pose proof (edge_end kt Fs 0 beta N alpha HN Ha) as Ee. fold p in Ee. set (e := edge kt Fs 0 beta N alpha) in *. assert (E0 : e O = 0) by reflexivity. split.
  - rewrite (total_weight kt Fs 0 beta N alpha). fold p e. rewrite (rsum_ext N _ (fun k => e (S k) - e k)).
    2:{ intros k Hk'. rewrite Rpower_O by (apply (position_pos kt Fs 0 beta N alpha); try assumption; lra). ring. }
    rewrite telescope, Ee, E0. etransitivity; [|exact C1]. replace (0 + 1) with 1 by ring. rewrite Rpower_1 by exact Hp. lra.
  - unfold p. rewrite (total_limit kt Fs 0 beta N alpha Hk HF ltac:(lra) Hb HN Ha). fold p e. rewrite (rsum_ext N _ (fun k => e (S k) * e (S k) / 2 - e k * e k / 2)).
    2:{ intros k Hk'. replace (0 + 1) with 1 by ring. rewrite Rpower_1 by (apply (position_pos kt Fs 0 beta N alpha); try assumption; lra). unfold p. rewrite (position_mid kt Fs 0 beta N alpha) by exact Hk'. fold p e. field. }
    rewrite (telescope (fun k => e k * e k / 2)), Ee, E0. etransitivity; [|exact C2]. replace (Rpower p (0 + 2)) with (p * p); [lra|].
    replace (0 + 2) with (1 + 1) by ring. rewrite Rpower_plus, Rpower_1 by exact Hp. reflexivity.
Qed.

(** ---- general chi in (-1, 0]: midpoint rule against the integral ---- *)
Lemma Rp_mult x y z : 0 < x -> 0 < y -> Rpower (x * y) z = Rpower x z * Rpower y z.
Proof. intros Hx Hy. symmetry. apply Rpower_mult_distr; assumption. Qed.

(** tangent bound: x^q <= 1 + q (x - 1) for 0 <= q <= 1 *)
Lemma bern q x : 0 <= q <= 1 -> 0 < x -> Rpower x q <= 1 + q * (x - 1).
Proof.
  intros Hq Hx. unfold Rpower. set (L := ln x). assert (Ex : exp L = x) by (apply exp_ln; exact Hx).
  assert (A : 1 + (L - q * L) <= exp (L - q * L)). { destruct (Req_dec (L - q * L) 0) as [->|H]; [rewrite exp_0; lra|left; apply exp_ineq1; exact H]. }
  assert (B : 1 + - (q * L) <= exp (- (q * L))). { destruct (Req_dec (- (q * L)) 0) as [->|H]; [rewrite exp_0; lra|left; apply exp_ineq1; exact H]. }
  assert (C : 1 <= q * exp (L - q * L) + (1 - q) * exp (- (q * L))) by nra.
  pose proof (exp_pos (q * L)) as P. apply (Rmult_le_compat_l (exp (q * L))) in C; [|lra].
  replace (exp (q * L) * (q * exp (L - q * L) + (1 - q) * exp (- (q * L)))) with (q * exp (q * L + (L - q * L)) + (1 - q) * exp (q * L + - (q * L))) in C by (rewrite !exp_plus; ring).
  replace (q * L + (L - q * L)) with L in C by ring. replace (q * L + - (q * L)) with 0 in C by ring. rewrite exp_0, Ex in C. lra.
Qed.

(** midpoint concavity *)
Lemma mid_concave q m h : 0 <= q <= 1 -> 0 <= h < m -> Rpower (m + h) q + Rpower (m - h) q <= 2 * Rpower m q.
Proof.
  intros Hq Hh. assert (Hm : 0 < m) by lra. replace (m + h) with (m * (1 + h / m)) by (field; lra). replace (m - h) with (m * (1 - h / m)) by (field; lra).
  assert (Hr : 0 <= h / m < 1). { split; [apply Rmult_le_pos; [lra|left; apply Rinv_0_lt_compat; lra]|]. apply Rmult_lt_reg_r with m; [exact Hm|]. unfold Rdiv. rewrite Rmult_assoc, Rinv_l by lra. lra. }
  rewrite !Rp_mult by lra. pose proof (bern q (1 + h / m) Hq ltac:(lra)). pose proof (bern q (1 - h / m) Hq ltac:(lra)). pose proof (Rp_pos m q). nra.
Qed.
(** midpoint convexity for a negative exponent *)
Lemma mid_convex q m h : q <= 0 -> 0 <= h < m -> 2 * Rpower m q <= Rpower (m + h) q + Rpower (m - h) q.
Proof.
  intros Hq Hh. pose proof (Rp_pos (m + h) (q / 2)) as A. pose proof (Rp_pos (m - h) (q / 2)) as B.
  assert (S1 : Rpower (m + h) q = Rpower (m + h) (q / 2) * Rpower (m + h) (q / 2)) by (rewrite <- Rpower_plus; f_equal; field).
  assert (S2 : Rpower (m - h) q = Rpower (m - h) (q / 2) * Rpower (m - h) (q / 2)) by (rewrite <- Rpower_plus; f_equal; field).
  assert (P : Rpower m q <= Rpower (m + h) (q / 2) * Rpower (m - h) (q / 2)).
  { rewrite <- Rp_mult by lra. replace (Rpower m q) with (Rpower (m * m) (q / 2)) by (rewrite Rp_mult by lra; rewrite <- Rpower_plus; f_equal; field).
    unfold Rpower. destruct (Req_dec h 0) as [->|Hn]; [right; f_equal; f_equal; f_equal; ring|].
    assert (ln ((m + h) * (m - h)) <= ln (m * m)) by (left; apply ln_increasing; nra).
    assert (q / 2 * ln (m * m) <= q / 2 * ln ((m + h) * (m - h))) by nra. destruct H0 as [H0|H0]; [left; apply exp_increasing; exact H0|right; f_equal; exact H0]. }
  rewrite S1, S2. set (a := Rpower (m + h) (q / 2)) in *. set (b := Rpower (m - h) (q / 2)) in *. pose proof (Rle_0_sqr (a - b)) as Q. unfold Rsqr in Q. lra.
Qed.

Lemma Rp_deriv q x : 0 < x -> q <> -1 -> derivable_pt_lim (fun y => Rpower y (q + 1) / (q + 1)) x (Rpower x q).
Proof.
  intros Hx Hq. eapply dlim_ext; [|eapply dlim_eq; [exact (dlim_scal (/ (q + 1)) _ _ _ (derivable_pt_lim_power x (q + 1) Hx))|]].
  - intros t. cbv beta. unfold Rdiv. apply Rmult_comm.
  - replace (q + 1 - 1) with q by ring. field. lra.
Qed.

(** difference of the integral over [m-h, m+h] and the midpoint rule, as a function of h *)
Lemma gap_deriv q m h : q <> -1 -> 0 <= h < m ->
  derivable_pt_lim (fun t => Rpower (m + t) (q + 1) / (q + 1) - Rpower (m - t) (q + 1) / (q + 1) - 2 * t * Rpower m q) h (Rpower (m + h) q + Rpower (m - h) q - 2 * Rpower m q).
Proof.
  intros Hq Hh.
  assert (A : derivable_pt_lim (fun t => Rpower (m + t) (q + 1) / (q + 1)) h (Rpower (m + h) q)).
  { eapply dlim_eq; [apply (derivable_pt_lim_comp (fun t => m + t) (fun y => Rpower y (q + 1) / (q + 1)) h 1 (Rpower (m + h) q))|ring].
    - eapply dlim_eq; [apply derivable_pt_lim_plus; [apply derivable_pt_lim_const|apply derivable_pt_lim_id]|ring].
    - apply Rp_deriv; [lra|exact Hq]. }
  assert (B : derivable_pt_lim (fun t => Rpower (m - t) (q + 1) / (q + 1)) h (- Rpower (m - h) q)).
  { eapply dlim_eq; [apply (derivable_pt_lim_comp (fun t => m - t) (fun y => Rpower y (q + 1) / (q + 1)) h (- 1) (Rpower (m - h) q))|ring].
    - eapply dlim_eq; [apply derivable_pt_lim_minus; [apply derivable_pt_lim_const|apply derivable_pt_lim_id]|ring].
    - apply Rp_deriv; [lra|exact Hq]. }
  eapply dlim_eq; [apply derivable_pt_lim_minus; [apply derivable_pt_lim_minus; [exact A|exact B]|]|].
  - apply (dlim_scal_r (Rpower m q)). apply (dlim_scal 2 (fun t => t)). apply derivable_pt_lim_id.
  - ring.
Qed.

(** one cell away from zero: sign of integral minus midpoint rule *)
Lemma cell_sign q m h (sg : R) : q <> -1 -> 0 < h < m -> (forall t, 0 <= t < m -> 0 <= sg * (Rpower (m + t) q + Rpower (m - t) q - 2 * Rpower m q)) ->
  0 <= sg * (Rpower (m + h) (q + 1) / (q + 1) - Rpower (m - h) (q + 1) / (q + 1) - 2 * h * Rpower m q).
Proof.
  intros Hq Hh Hs. set (f := fun t => Rpower (m + t) (q + 1) / (q + 1) - Rpower (m - t) (q + 1) / (q + 1) - 2 * t * Rpower m q).
  assert (F0 : f 0 = 0) by (unfold f; rewrite Rplus_0_r, Rminus_0_r; ring).
  destruct (MVT_cor2 f (fun t => Rpower (m + t) q + Rpower (m - t) q - 2 * Rpower m q) 0 h) as (c & Ec & Hc).
  - lra.
  - intros c Hc. apply gap_deriv; [exact Hq|lra].
  - change (0 <= sg * f h). replace (f h) with (f h - f 0) by (rewrite F0; ring). rewrite Ec, Rminus_0_r. rewrite <- Rmult_assoc. apply Rmult_le_pos; [apply Hs; lra|lra].
Qed.

(** stiffness: the midpoint rule is below the integral when -1 < chi <= 0 *)
Lemma two_pow t : 0 <= t <= 1 -> (1 - t) * Rpower 2 t <= 1.
Proof.
  intros Ht. pose proof (bern t 2 Ht ltac:(lra)) as B. pose proof (Rp_pos 2 t). nra.
Qed.

Section Between.
  Variables (e : nat -> R) (N : nat).
  Hypotheses (E0 : e O = 0) (Hup : forall k, e k < e (S k)) (HN : (0 < N)%nat).
  Lemma e_pos k : (0 < k)%nat -> 0 < e k.
  Proof. induction k as [|k IH]; intros H; [lia|]. destruct k as [|k]; [rewrite <- E0; apply Hup|]. specialize (IH ltac:(lia)). pose proof (Hup (S k)). lra. Qed.

  (** antiderivative with value 0 at 0 *)
  Let G (q : R) (k : nat) : R := if Nat.eqb k 0 then 0 else Rpower (e k) (q + 1) / (q + 1).

  Lemma midpoint_sign q sg : -1 < q ->
    (forall m t, 0 <= t < m -> 0 <= sg * (Rpower (m + t) q + Rpower (m - t) q - 2 * Rpower m q)) ->
    (forall d, 0 < d -> 0 <= sg * (Rpower d (q + 1) / (q + 1) - Rpower (d / 2) q * d)) ->
    0 <= sg * (Rpower (e N) (q + 1) / (q + 1) - rsum N (fun k => Rpower ((e k + e (S k)) / 2) q * (e (S k) - e k))).
  Proof.
    intros Hq Hs H1. replace (Rpower (e N) (q + 1) / (q + 1)) with (G q N - G q O).
    2:{ unfold G. replace (Nat.eqb N 0) with false by (symmetry; apply Nat.eqb_neq; lia). cbn. ring. }
    rewrite <- telescope, <- rsum_minus, <- rsum_scal_l. apply rsum_nonneg. intros k Hk. unfold G. cbn [Nat.eqb]. destruct k as [|k].
    - cbn [Nat.eqb]. rewrite E0. replace ((0 + e 1%nat) / 2) with (e 1%nat / 2) by field. rewrite !Rminus_0_r. apply H1. apply e_pos. lia.
    - cbn [Nat.eqb]. set (a := e (S k)). set (b := e (S (S k))). assert (Ha : 0 < a) by (apply e_pos; lia). assert (Hb : a < b) by apply Hup.
      pose proof (cell_sign q ((a + b) / 2) ((b - a) / 2) sg ltac:(lra) ltac:(lra) (Hs _)) as C. replace ((a + b) / 2 + (b - a) / 2) with b in C by field. replace ((a + b) / 2 - (b - a) / 2) with a in C by field.
      replace (2 * ((b - a) / 2)) with (b - a) in C by field. eapply Rle_trans; [exact C|]. right. f_equal. ring.
  Qed.
End Between.

Lemma edges_up kt Fs chi beta N alpha : 0 < kt -> 0 < Fs -> -1 < chi -> 0 <= beta -> (0 < N)%nat -> 1 <= alpha -> forall k, edge kt Fs chi beta N alpha k < edge kt Fs chi beta N alpha (S k).
Proof. intros. rewrite edge_S. pose proof (delta_pos kt Fs chi beta N alpha). specialize (H5 ltac:(assumption) ltac:(assumption) ltac:(assumption) ltac:(assumption) ltac:(assumption) ltac:(assumption) k). lra. Qed.

Lemma discrete_bounds kt Fs chi beta N alpha : 0 < kt -> 0 < Fs -> -1 < chi <= 0 -> 0 <= beta -> (0 < N)%nat -> 1 <= alpha ->
  rsum (S N) (iw_weights kt Fs chi beta N alpha) <= kt /\ Fs <= bank_limit (S N) (iw_weights kt Fs chi beta N alpha) (iw_positions (iw_phimax kt Fs chi beta) N alpha).
Proof.
  intros Hk HF Hc Hb HN Ha. destruct (calibration kt Fs chi beta Hk HF ltac:(lra) Hb) as [C1 C2]. pose proof (phimax_pos kt Fs chi beta Hk HF ltac:(lra) Hb) as Hp. pose proof (iwR_pos kt Fs chi beta HF ltac:(lra) Hb) as HR.
  unfold iwan_stiffness in C1. unfold iwan_strength in C2. pose proof (edge_end kt Fs chi beta N alpha HN Ha) as Ee.
  pose proof (edges_up kt Fs chi beta N alpha Hk HF ltac:(lra) Hb HN Ha) as Up. assert (E0 : edge kt Fs chi beta N alpha O = 0) by reflexivity. split.
  - rewrite (total_weight kt Fs chi beta N alpha). eapply Rle_trans; [|right; exact C1]. apply Rplus_le_compat_r. apply Rmult_le_compat_l; [lra|].
    rewrite (rsum_ext N _ (fun k => Rpower ((edge kt Fs chi beta N alpha k + edge kt Fs chi beta N alpha (S k)) / 2) chi * (edge kt Fs chi beta N alpha (S k) - edge kt Fs chi beta N alpha k))).
    2:{ intros k Hk'. rewrite position_mid by exact Hk'. reflexivity. }
    pose proof (midpoint_sign _ N E0 Up HN chi 1 ltac:(lra)) as M. rewrite Ee in M.
    assert (0 <= 1 * (Rpower (iw_phimax kt Fs chi beta) (chi + 1) / (chi + 1) - rsum N (fun k => Rpower ((edge kt Fs chi beta N alpha k + edge kt Fs chi beta N alpha (S k)) / 2) chi * (edge kt Fs chi beta N alpha (S k) - edge kt Fs chi beta N alpha k)))); [|lra].
    apply M.
    + intros m t Ht. pose proof (mid_convex chi m t ltac:(lra) Ht). lra.
    + intros d Hd. rewrite Rmult_1_l. replace (Rpower (d / 2) chi * d) with (Rpower d (chi + 1) * Rpower 2 (- chi)).
      2:{ rewrite Rpower_plus, Rpower_1 by exact Hd. unfold Rdiv. rewrite Rp_mult by lra. replace (Rpower (/ 2) chi) with (Rpower 2 (- chi)); [ring|].
          unfold Rpower. rewrite ln_Rinv by lra. f_equal. ring. }
      pose proof (two_pow (- chi) ltac:(lra)) as T. replace (1 - - chi) with (chi + 1) in T by ring. pose proof (Rp_pos d (chi + 1)) as P.
      replace (Rpower d (chi + 1) / (chi + 1) - Rpower d (chi + 1) * Rpower 2 (- chi)) with (Rpower d (chi + 1) / (chi + 1) * (1 - (chi + 1) * Rpower 2 (- chi))) by (field; lra).
      apply Rmult_le_pos; [left; apply Rdiv_lt_0_compat; lra|lra].
  - rewrite (total_limit kt Fs chi beta N alpha Hk HF ltac:(lra) Hb HN Ha). eapply Rle_trans; [right; symmetry; exact C2|]. apply Rplus_le_compat_r. apply Rmult_le_compat_l; [lra|].
    rewrite (rsum_ext N _ (fun k => Rpower ((edge kt Fs chi beta N alpha k + edge kt Fs chi beta N alpha (S k)) / 2) (chi + 1) * (edge kt Fs chi beta N alpha (S k) - edge kt Fs chi beta N alpha k))).
    2:{ intros k Hk'. rewrite position_mid by exact Hk'. reflexivity. }
    pose proof (midpoint_sign _ N E0 Up HN (chi + 1) (- 1) ltac:(lra)) as M. rewrite Ee in M. replace (chi + 2) with (chi + 1 + 1) by ring.
    assert (0 <= -1 * (Rpower (iw_phimax kt Fs chi beta) (chi + 1 + 1) / (chi + 1 + 1) - rsum N (fun k => Rpower ((edge kt Fs chi beta N alpha k + edge kt Fs chi beta N alpha (S k)) / 2) (chi + 1) * (edge kt Fs chi beta N alpha (S k) - edge kt Fs chi beta N alpha k)))); [|lra].
    apply M.
    + intros m t Ht. pose proof (mid_concave (chi + 1) m t ltac:(lra) Ht). lra.
    + intros d Hd. replace (Rpower (d / 2) (chi + 1) * d) with (Rpower d (chi + 1 + 1) * Rpower 2 (- (chi + 1))).
      2:{ rewrite (Rpower_plus (chi + 1) 1), Rpower_1 by exact Hd. unfold Rdiv. rewrite Rp_mult by lra. replace (Rpower (/ 2) (chi + 1)) with (Rpower 2 (- (chi + 1))); [ring|].
          unfold Rpower. rewrite ln_Rinv by lra. f_equal. ring. }
      pose proof (bern (chi + 1) 2 ltac:(lra) ltac:(lra)) as B. pose proof (Rp_pos d (chi + 1 + 1)) as P. pose proof (Rp_pos 2 (chi + 1)) as Q.
      assert (I : Rpower 2 (- (chi + 1)) * Rpower 2 (chi + 1) = 1). { rewrite <- Rpower_plus. replace (- (chi + 1) + (chi + 1)) with 0 by ring. apply Rpower_O. lra. }
      pose proof (Rp_pos 2 (- (chi + 1))) as Q'. assert (K : 1 <= (chi + 1 + 1) * Rpower 2 (- (chi + 1))) by nra.
      replace (-1 * (Rpower d (chi + 1 + 1) / (chi + 1 + 1) - Rpower d (chi + 1 + 1) * Rpower 2 (- (chi + 1)))) with (Rpower d (chi + 1 + 1) / (chi + 1 + 1) * ((chi + 1 + 1) * Rpower 2 (- (chi + 1)) - 1)) by (field; lra).
      apply Rmult_le_pos; [left; apply Rdiv_lt_0_compat; lra|lra].
Qed.

(** the new element is good *)
Lemma iw_new_good kt Fs chi beta N alpha s : 0 < kt -> 0 < Fs -> -1 < chi -> 0 <= beta -> 1 <= alpha -> iw_new kt Fs chi beta N alpha = Ok s ->
  good s /\ (0 < N)%nat /\ iw_n s = S N /\ iw_phi s = iw_positions (iw_phimax kt Fs chi beta) N alpha /\ iw_w s = iw_weights kt Fs chi beta N alpha /\ iw_up s = 0 /\ iw_fs s = vzero.
Proof.
  intros Hk HF Hc Hb Ha E. unfold iw_new in E. destruct (Nat.eqb_spec N 0) as [->|HN]; [discriminate|]. injection E as <-.
  assert (P : forall i, 0 < iw_positions (iw_phimax kt Fs chi beta) N alpha i) by (apply position_pos; try assumption; lia).
  split; [|split; [lia|repeat split]]. split; [intros i _; left; apply P|]. split; [intros i _; apply weight_nonneg; try assumption; lia|]. intros i _. cbn. unfold vzero. rewrite Rabs_R0. left. apply P.
Qed.

(** ---- histories that stay elastic, or slide through ---- *)
Lemma force_after_elastic phi us : 0 <= phi -> (forall u, In u us -> Rabs u <= phi) -> force_after 1 phi us = last us 0.
Proof.
  intros Hp. induction us as [|u us IH] using rev_ind; intros H; [reflexivity|]. rewrite force_after_snoc, last_last, IH by (intros v Hv; apply H; apply in_or_app; left; exact Hv).
  replace (1 * (u - last us 0) + last us 0) with u by ring. apply stick_clamp. apply H. apply in_or_app. right. left. reflexivity.
Qed.
Lemma force_after_range phi us : 0 <= phi -> Rabs (force_after 1 phi us) <= phi.
Proof. intros H. destruct us as [|u us] using rev_ind; [simpl; rewrite Rabs_R0; exact H|]. rewrite force_after_snoc. apply clamp_abs. exact H. Qed.
Lemma abs_le_inv x y : Rabs x <= y -> - y <= x <= y.
Proof. intros H. unfold Rabs in H. destruct (Rcase_abs x); lra. Qed.
Lemma force_after_slide phi us u (b : bool) : 0 <= phi -> 2 * phi <= (if b then u - last us 0 else last us 0 - u) -> force_after 1 phi (us ++ [u]) = if b then phi else - phi.
Proof.
  intros Hp H. rewrite force_after_snoc. pose proof (force_after_range phi us Hp) as B. apply abs_le_inv in B. unfold clamp, Rmax, Rmin. destruct b; repeat destruct (Rle_dec _ _); lra.
Qed.

(** ---- alpha < 1 ---- *)
Lemma shrinking_cells : exists kt Fs chi beta N alpha s, 0 < kt /\ 0 < Fs /\ -1 < chi /\ 0 <= beta /\ 0 < alpha /\ iw_new kt Fs chi beta N alpha = Ok s /\
  rsum (iw_n s) (iw_w s) <> kt /\ bank_limit (iw_n s) (iw_w s) (iw_phi s) <> Fs /\ chi = 0.
Proof.
  exists 1, 1, 0, 0, 2%nat, (/ 2). eexists. split; [lra|]. split; [lra|]. split; [lra|]. split; [lra|]. split; [lra|]. split; [reflexivity|]. cbn [iw_n iw_w iw_phi].
  assert (Ep : iw_phimax 1 1 0 0 = 2) by (unfold iw_phimax, iw_den; field).
  assert (E2 : Rpower 2 (0 + 2) = 4). { replace (0 + 2) with (1 + 1) by ring. rewrite Rpower_plus, Rpower_1 by lra. ring. }
  assert (ER : iw_R 1 1 0 0 = / 2) by (unfold iw_R; rewrite Ep, E2; unfold iw_den; field).
  assert (ES : iw_S 1 1 0 0 = 0) by (unfold iw_S; rewrite Ep; unfold iw_den; field).
  assert (ED : iw_delta1 2 2 (/ 2) = 1). { unfold iw_delta1. rewrite Rltb_ge by lra. simpl. lra. }
  assert (D0 : iw_delta 2 2 (/ 2) 0 = 1) by (unfold iw_delta; rewrite ED; simpl; ring).
  assert (D1 : iw_delta 2 2 (/ 2) 1 = / 2) by (unfold iw_delta; rewrite ED; simpl; ring).
  assert (P0 : iw_positions 2 2 (/ 2) 0 = / 2) by (unfold iw_positions; cbn [Nat.ltb Nat.leb rsum]; rewrite D0; field).
  assert (P1 : iw_positions 2 2 (/ 2) 1 = 5 / 4) by (unfold iw_positions; cbn [Nat.ltb Nat.leb rsum]; rewrite D0, D1; field).
  assert (W : rsum 3 (iw_weights 1 1 0 0 2 (/ 2)) = 3 / 4 /\ iw_weights 1 1 0 0 2 (/ 2) 0 = / 2 /\ iw_weights 1 1 0 0 2 (/ 2) 1 = / 4 /\ iw_weights 1 1 0 0 2 (/ 2) 2 = 0).
  { assert (W0 : iw_weights 1 1 0 0 2 (/ 2) 0 = / 2) by (unfold iw_weights; cbv zeta; cbn [Nat.ltb Nat.leb]; rewrite Ep, ER, P0, D0, Rpower_O by lra; ring).
    assert (W1 : iw_weights 1 1 0 0 2 (/ 2) 1 = / 4) by (unfold iw_weights; cbv zeta; cbn [Nat.ltb Nat.leb]; rewrite Ep, ER, P1, D1, Rpower_O by lra; field).
    assert (W2 : iw_weights 1 1 0 0 2 (/ 2) 2 = 0) by (unfold iw_weights; cbv zeta; cbn [Nat.ltb Nat.leb]; exact ES).
    cbn [rsum]. rewrite W0, W1, W2. repeat split; lra. }
  destruct W as (W & W0 & W1 & W2). split; [rewrite W; lra|]. split; [|reflexivity]. unfold bank_limit. cbn [rsum]. rewrite W0, W1, W2, Ep, P0, P1. lra.
Qed.

(** ---- element with two sliders that is a Jenkins element with kt = Fs = 1 ---- *)
Definition iw_unit : iwan := mkIw 2 (iw_positions 2 1 1) (iw_weights 1 1 0 0 1 1) 0 0 vzero None.
Lemma iw_unit_new : iw_new 1 1 0 0 1 1 = Ok iw_unit.
Proof. unfold iw_new, iw_unit. cbn [Nat.eqb]. assert (Ep : iw_phimax 1 1 0 0 = 2) by (unfold iw_phimax, iw_den; field). rewrite Ep. reflexivity. Qed.
Lemma iw_unit_values : iw_positions 2 1 1 0 = 1 /\ iw_positions 2 1 1 1 = 2 /\ iw_weights 1 1 0 0 1 1 0 = 1 /\ iw_weights 1 1 0 0 1 1 1 = 0.
Proof.
  assert (Ep : iw_phimax 1 1 0 0 = 2) by (unfold iw_phimax, iw_den; field).
  assert (E2 : Rpower 2 (0 + 2) = 4). { replace (0 + 2) with (1 + 1) by ring. rewrite Rpower_plus, Rpower_1 by lra. ring. }
  assert (ER : iw_R 1 1 0 0 = / 2) by (unfold iw_R; rewrite Ep, E2; unfold iw_den; field).
  assert (ES : iw_S 1 1 0 0 = 0) by (unfold iw_S; rewrite Ep; unfold iw_den; field).
  assert (D0 : iw_delta 2 1 1 0 = 2). { unfold iw_delta, iw_delta1. rewrite Rltb_ge by lra. simpl. lra. }
  assert (P0 : iw_positions 2 1 1 0 = 1) by (unfold iw_positions; cbn [Nat.ltb Nat.leb rsum]; rewrite D0; field).
  split; [exact P0|]. split; [reflexivity|]. split; [unfold iw_weights; cbv zeta; cbn [Nat.ltb Nat.leb]; rewrite Ep, ER, P0, D0, Rpower_O by lra; field|].
  unfold iw_weights; cbv zeta; cbn [Nat.ltb Nat.leb]; exact ES.
Qed.

Lemma iw_unit_law u u0 k : bank_law (iw_n iw_unit) (iw_w iw_unit) (iw_phi iw_unit) u u0 k = jenkins_law 1 1 u u0 k.
Proof. destruct iw_unit_values as (A & B & C & D). unfold bank_law. cbn [iw_unit iw_n iw_w iw_phi rsum]. rewrite A, C, D. ring. Qed.

Lemma iw_unit_ok : phi_ok iw_unit.
Proof. intros i Hi. cbn [iw_unit iw_n iw_phi] in *. destruct iw_unit_values as (A & B & _). destruct i as [|[|i]]; [rewrite A; lra|rewrite B; lra|lia]. Qed.

Lemma iwan_vector_differs : exists kt Fs chi beta Ns alpha s N u u0, iw_new kt Fs chi beta Ns alpha = Ok s /\ (0 < N)%nat /\ 0 < kt /\ 0 < Fs /\ forall cst, exists s1 os s2 ft dfduh,
    iwan_local_force_history s (rows N u cst) u0 2 default_tol default_tol = Ok (s1, os) /\ vector_iwan_local_force_history s N u cst u0 = Ok (s2, ft, dfduh) /\
    ~ steady_state N (bank_law (iw_n s) (iw_w s) (iw_phi s) (repeat_samples N u) u0) (fun k => nth k (map fst os) 0) /\
    exists k, (k < N)%nat /\ ft k <> nth k (map fst os) 0.
Proof.
  exists 1, 1, 0, 0, 1%nat, 1, iw_unit, 4%nat, wit_u, 0. split; [exact iw_unit_new|]. split; [lia|]. split; [lra|]. split; [lra|]. intros cst.
  destruct (iwan_history_default iw_unit 4 wit_u cst 0 ltac:(lia) iw_unit_ok) as (s1 & os & E1 & _ & _ & V1).
  destruct (vector_iwan_default iw_unit 4 wit_u cst 0 2 ltac:(lia) iw_unit_ok wit_reversal) as (s2 & ft & df & E2 & _ & V2).
  exists s1, os, s2, ft, df. split; [exact E1|]. split; [exact E2|]. destruct wit_pass as (A0 & A1 & A2 & A3 & A4 & A5 & A6 & A7). pose proof default_tol_range as T.
  assert (N1 : nth 0 (map fst os) 0 = / 2).
  { destruct (V1 0%nat ltac:(lia)) as [-> _]. rewrite !bank_pass_law, !iw_unit_law. cbn [Nat.mul Nat.add Nat.sub]. rewrite A3. unfold pass_no. rewrite Rabs_R0, Rltb_ge by lra. cbn [Nat.mul Nat.add]. exact A0. }
  assert (N2 : ft 0%nat = 1).
  { destruct (V2 0%nat ltac:(lia)) as [-> _]. rewrite !bank_pass_law, !iw_unit_law. cbn [Nat.mul Nat.add Nat.sub]. rewrite A2. unfold pass_no. replace (Rabs (-1)) with 1 by (unfold Rabs; destruct (Rcase_abs (-1)); lra). rewrite Rltb_lt by lra. cbn [Nat.mul Nat.add]. exact A4. }
  split.
  - intros [n0 H]. assert (E : bank_law (iw_n iw_unit) (iw_w iw_unit) (iw_phi iw_unit) (repeat_samples 4 wit_u) 0 (S n0 * 4 + 0) = nth 0 (map fst os) 0) by (apply H; lia).
    rewrite N1, iw_unit_law in E. unfold jenkins_law in E. rewrite (slider_all_passes 1 4 (fun _ => - (1)) (fun _ => 1)) in E; [|lia|intros; lra|apply periodic_const|apply periodic_const|apply periodic_repeat; lia|lia].
    cbn [Nat.add] in E. change (slider 1 (fun _ => - (1)) (fun _ => 1) (repeat_samples 4 wit_u) 0 4) with (jenkins_law 1 1 (repeat_samples 4 wit_u) 0 4) in E. rewrite A4 in E. lra.
  - exists 0%nat. split; [lia|]. rewrite N1, N2. lra.
Qed.
