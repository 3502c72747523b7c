(** Interpolation of stored tractions and the traction of one ring. *)
From Coq Require Import Reals Lra Lia Arith List Bool FunctionalExtensionality.
From Verif.Lib Require Import RSum Calc Py.
From Verif.Spec Require Import Calculus Slider Rough RoughMif.
From Verif.Model Require Import Harmonic JaxDual JaxFloat RoughContact.
From Verif.Proofs Require Import JaxDualP JaxFloatP RoughNormalP RoughStaticP SliderP.
Import ListNotations.
Open Scope R_scope.

(** number of points below x *)
Lemma count_down (P : nat -> bool) n : (forall i j, (i <= j)%nat -> P j = true -> P i = true) ->
  let c := length (filter P (seq 0 n)) in (c <= n)%nat /\ forall j, (j < n)%nat -> P j = true <-> (j < c)%nat.
Proof.
  intros HP. induction n as [|n [IH1 IH2]]; cbv zeta in *; [split; [cbn; lia|intros; lia]|].
  rewrite seq_S, filter_app, app_length. cbn [plus filter]. set (c := length (filter P (seq 0 n))) in *. destruct (P n) eqn:E; cbn [length].
  - assert (c = n). { destruct n as [|n']; [lia|]. pose proof (proj1 (IH2 n' ltac:(lia)) (HP n' (S n') ltac:(lia) E)). lia. }
    split; [lia|]. intros j Hj. split; [lia|]. intros _. destruct (Nat.eq_dec j n) as [->|]; [exact E|]. apply (IH2 j); lia.
  - split; [lia|]. intros j Hj. destruct (Nat.eq_dec j n) as [->|]; [rewrite E; split; [discriminate|lia]|]. rewrite IH2 by lia. lia.
Qed.

Lemma hat_two n i y (t : nat -> R) : (0 < i)%nat -> (i < n)%nat -> INR (i - 1) <= y <= INR i ->
  rsum n (fun j => t j * hat (y - INR j)) = t (i - 1)%nat * (INR i - y) + t i * (y - INR (i - 1)).
Proof.
  intros Hi Hn Hy. assert (E : INR i = INR (i - 1) + 1) by (rewrite minus_INR by lia; cbn [INR]; ring).
  rewrite (rsum_ext n _ (fun j => (if Nat.eqb j (i - 1) then t j * (INR i - y) else 0) + (if Nat.eqb j i then t j * (y - INR (i - 1)) else 0))).
  - rewrite rsum_plus. rewrite (rsum_single n (i - 1) (fun j => if Nat.eqb j (i - 1) then _ else _)) by (solve [lia|intros j Hj Hne; rewrite (proj2 (Nat.eqb_neq j (i - 1))) by exact Hne; reflexivity]).
    rewrite (rsum_single n i (fun j => if Nat.eqb j i then _ else _)) by (solve [lia|intros j Hj Hne; rewrite (proj2 (Nat.eqb_neq j i)) by exact Hne; reflexivity]). rewrite !Nat.eqb_refl. reflexivity.
  - intros j Hj. unfold hat. destruct (Nat.eqb_spec j (i - 1)) as [->|]; [|destruct (Nat.eqb_spec j i) as [->|]].
    + rewrite (proj2 (Nat.eqb_neq (i - 1) i)) by lia. rewrite Rabs_right by lra. rewrite Rmax_right by lra. rewrite E. ring.
    + rewrite Rabs_left1 by lra. rewrite Rmax_right by lra. rewrite E. ring.
    + rewrite Rmax_left; [ring|]. destruct (le_lt_dec j i) as [Hl|Hl].
      * assert (H : (S j <= i - 1)%nat) by lia. apply le_INR in H. rewrite S_INR in H. rewrite Rabs_right by lra. lra.
      * assert (H : (S i <= j)%nat) by lia. apply le_INR in H. rewrite S_INR in H. rewrite Rabs_left1 by lra. lra.
Qed.

Section Interp.
  Variables (n : nat) (a : R) (t : nat -> R).
  Hypothesis Hn : (1 < n)%nat.

  Lemma gap_pos : 0 < INR (n - 1). Proof. apply lt_0_INR. lia. Qed.

  Lemma interp_rings x v xp fp : 0 < a -> / 2 ^ 104 < a / INR (n - 1) -> 0 <= v -> fv x v ->
    (forall j, (j < n)%nat -> fv (xp j) (ring n j * a)) -> (forall j, (j < n)%nat -> fv (fp j) (t j)) -> fv (finterp n x xp fp) (carried n a t v).
  Proof.
    intros Ha Hres Hv Hx Hxp Hfp. pose proof gap_pos as HN. unfold finterp.
    assert (P : forall j, (j < n)%nat -> fle (xp j) x = Rleb (INR j) (v / a * INR (n - 1))).
    { intros j Hj. rewrite (fle_v _ _ _ _ (Hxp j Hj) Hx). unfold Rleb. unfold ring. assert (E : INR j / INR (n - 1) * a <= v <-> INR j <= v / a * INR (n - 1)).
      { split; intros H.
        - apply (Rmult_le_reg_r (a / INR (n - 1))); [apply Rdiv_lt_0_compat; assumption|]. replace (INR j * (a / INR (n - 1))) with (INR j / INR (n - 1) * a) by (field; lra). replace (v / a * INR (n - 1) * (a / INR (n - 1))) with v by (field; lra). exact H.
        - apply (Rmult_le_reg_r (INR (n - 1) / a)); [apply Rdiv_lt_0_compat; assumption|]. replace (INR j / INR (n - 1) * a * (INR (n - 1) / a)) with (INR j) by (field; lra). replace (v * (INR (n - 1) / a)) with (v / a * INR (n - 1)) by (field; lra). exact H. }
      destruct (Rle_dec _ _), (Rle_dec _ _); tauto. }
    assert (EF : filter (fun j => fle (xp j) x) (seq 0 n) = filter (fun j => Rleb (INR j) (v / a * INR (n - 1))) (seq 0 n)).
    { apply filter_ext_in. intros j Hj. apply in_seq in Hj. apply P. lia. }
    rewrite EF. set (y := v / a * INR (n - 1)). destruct (count_down (fun j => Rleb (INR j) y) n) as [C1 C2].
    { intros i j Hij H. apply Rleb_true in H. apply Rleb_true. apply le_INR in Hij. lra. }
    cbv zeta in C1, C2. set (c := length _) in *. clearbody c. set (i := Nat.min (Nat.max c 1) (n - 1)). cbv zeta.
    assert (Hy : 0 <= y). { unfold y. apply Rmult_le_pos; [|lra]. apply Rmult_le_pos; [exact Hv|]. left. apply Rinv_0_lt_compat. exact Ha. }
    assert (Hi : (0 < i)%nat /\ (i < n)%nat) by (unfold i; lia). destruct Hi as [Hi0 Hi].
    rewrite (flt_v _ _ _ _ (Hxp (n - 1)%nat ltac:(lia)) Hx). rewrite (flt_v _ _ _ _ Hx (Hxp O ltac:(lia))).
    assert (R1 : ring n (n - 1) * a = a) by (unfold ring; field; lra). assert (R0 : ring n 0 * a = 0) by (unfold ring; change (INR 0) with 0; unfold Rdiv; ring). rewrite R1, R0.
    unfold carried. destruct (Rlt_dec 0 a); [|contradiction]. destruct (Rle_dec v a) as [Hva|Hva].
    2:{ rewrite (proj2 (Rltb_true a v)) by lra. apply fv_const. }
    rewrite (proj2 (Rltb_false a v)) by lra. rewrite (proj2 (Rltb_false v 0)) by lra. cbn [fwhere].
    assert (Hyn : y <= INR (n - 1)). { unfold y. replace (INR (n - 1)) with (1 * INR (n - 1)) at 2 by ring. apply Rmult_le_compat_r; [lra|]. apply (Rmult_le_reg_r a); [exact Ha|]. unfold Rdiv. rewrite Rmult_assoc, Rinv_l by lra. lra. }
    assert (Hc : (0 < c)%nat). { apply (C2 O ltac:(lia)). apply Rleb_true. exact Hy. }
    assert (Hb : INR (i - 1) <= y <= INR i).
    { split.
      - apply Rleb_true. apply (C2 (i - 1)%nat ltac:(lia)). unfold i. lia.
      - destruct (Nat.eq_dec i (n - 1)) as [->|Hne]; [exact Hyn|]. assert (i = c) by (unfold i in *; lia). left. apply Rnot_le_lt. intros H'. apply Rleb_true in H'. apply (C2 i ltac:(lia)) in H'. lia. }
    assert (Hdx : fv (fsub (xp i) (xp (i - 1)%nat)) (a / INR (n - 1))).
    { eapply fv_eq; [apply fv_sub; apply Hxp; lia|]. unfold ring. rewrite (minus_INR i 1) by lia. change (INR 1) with 1. field. lra. }
    pose proof Hdx as Hdx'. unfold fv in Hdx'. rewrite Hdx'. assert (E0 : Rleb (Rabs (a / INR (n - 1))) (/ 2 ^ 104) = false).
    { apply Rleb_false. rewrite Rabs_right; [exact Hres|]. pose proof (Rdiv_lt_0_compat _ _ Ha HN). lra. }
    rewrite E0. cbn [fwhere]. fold y. rewrite (hat_two n i y t Hi0 Hi Hb). clearbody i.
    eapply fv_eq; [apply fv_add; [apply Hfp; lia|apply fv_mul; [apply fv_div; [apply fv_sub; [exact Hx|apply Hxp; lia]|exact Hdx|]|apply fv_sub; apply Hfp; lia]]|].
    - apply Rgt_not_eq. apply Rdiv_lt_0_compat; assumption.
    - unfold ring, y. assert (Ei : INR i = INR (i - 1) + 1) by (rewrite minus_INR by lia; cbn [INR]; ring). rewrite Ei. set (q := INR (i - 1)). field. lra.
  Qed.

  Lemma interp_zero x xp fp : finite x -> (forall j, (j < n)%nat -> finite (xp j)) -> (forall j, (j < n)%nat -> fv (fp j) 0) -> fv (finterp n x xp fp) 0.
  Proof.
    intros Hx Hxp Hfp. unfold finterp. set (i := Nat.min _ _). assert (Hi : (i < n)%nat) by (unfold i; lia). clearbody i. cbv zeta.
    destruct (flt (xp (n - 1)%nat) x); cbn [fwhere]; [apply fv_const|]. destruct (flt x (xp O)); cbn [fwhere]; [apply fv_const|].
    destruct (finite_sub (xp i) (xp (i - 1)%nat) (Hxp i Hi) (Hxp (i - 1)%nat ltac:(lia))) as [dx Hdx]. pose proof Hdx as Hdx'. unfold fv in Hdx'. rewrite Hdx'.
    unfold Rleb. destruct (Rle_dec (Rabs dx) (/ 2 ^ 104)) as [Hs|Hs]; cbn [fwhere]; [apply Hfp; lia|].
    destruct (finite_sub x (xp (i - 1)%nat) Hx (Hxp (i - 1)%nat ltac:(lia))) as [dl Hdl].
    eapply fv_eq; [apply fv_add; [apply Hfp; lia|apply fv_mul; [apply fv_div; [exact Hdl|exact Hdx|]|apply fv_sub; apply Hfp; lia]]|ring].
    intros ->. apply Hs. rewrite Rabs_R0. left. apply Rinv_0_lt_compat. apply pow_lt. lra.
  Qed.
End Interp.

Lemma carried_zero n a t x : (forall j, (j < n)%nat -> t j = 0) -> carried n a t x = 0.
Proof. intros H. unfold carried. destruct (Rlt_dec 0 a); [|reflexivity]. destruct (Rle_dec x a); [|reflexivity]. apply rsum_zero. intros j Hj. rewrite H by exact Hj. ring. Qed.

Lemma quad_ring n j : (1 < n)%nat -> quad_radii n j = ring n j.
Proof. intros H. unfold quad_radii, ring. rewrite (proj2 (Nat.eqb_neq n 1)) by lia. reflexivity. Qed.

Lemma ring_range n j : (1 < n)%nat -> (j < n)%nat -> 0 <= ring n j <= 1.
Proof.
  intros H Hj. pose proof (gap_pos n H) as HN. unfold ring. assert (J : INR j <= INR (n - 1)) by (apply le_INR; lia). pose proof (pos_INR j).
  split; [apply Rmult_le_pos; [lra|left; apply Rinv_0_lt_compat; exact HN]|]. apply (Rmult_le_reg_r (INR (n - 1))); [exact HN|]. unfold Rdiv. rewrite Rmult_assoc, Rinv_l by lra. lra.
Qed.

Lemma shape_value r : 0 <= r <= 1 -> kt_tilde r = mif_shape r.
Proof.
  intros H. unfold kt_tilde, mif_shape, Rltb. destruct (Rlt_dec 0 (1 - r ^ 2)) as [A|A], (Rlt_dec r 1) as [B|B]; [|exfalso; nra|exfalso; nra|reflexivity].
  assert (sqrt (1 - r ^ 2) <> 0) by (apply Rgt_not_eq; apply sqrt_lt_R0; exact A). field. assumption.
Qed.

(** stored tractions t of a disc of radius a0, or no tractions at all *)
Definition stored_rings (n : nat) (a0 : R) (t : nat -> R) (radii0 txy0 : nat -> fdual) : Prop :=
  (forall j, (j < n)%nat -> fv (txy0 j) (t j)) /\
  (((forall j, (j < n)%nat -> t j = 0) /\ forall j, (j < n)%nat -> finite (radii0 j)) \/
   (0 < a0 /\ / 2 ^ 104 < a0 / INR (n - 1) /\ forall j, (j < n)%nat -> fv (radii0 j) (ring n j * a0))).

Lemma ring_value s m mu k uxy uxy0 txy0 fn a radii0 j u u0 n r a0 t : m_Gstar m = mindlin_modulus s -> (1 < k)%nat -> (j < k)%nat -> fv uxy u -> fv uxy0 u0 -> fv fn n -> fv a r -> 0 <= n -> 0 <= r -> (0 < n -> 0 < r) -> 0 <= mu ->
  stored_rings k a0 t radii0 txy0 ->
  fv (mif_traction m mu k (quad_radii k) uxy uxy0 txy0 fn a radii0 j) (ring_traction s mu k n r a0 t (u - u0) j).
Proof.
  intros Gm Hk Hj Hu Hu0 Hn Hr Hn0 Hr0 Hpos Hmu (Ht & Hst). unfold mif_traction. pose proof PI_RGT_0 as HPI. pose proof (ring_range k j Hk Hj) as Hq.
  assert (Hx : fv (mif_radii a (quad_radii k) j) (ring k j * r)) by (unfold mif_radii; rewrite quad_ring by exact Hk; apply fv_scal; exact Hr).
  assert (Hc : fv (finterp k (mif_radii a (quad_radii k) j) radii0 txy0) (carried k a0 t (ring k j * r))).
  { destruct Hst as [[Z Hf]|(Ha & Hres & Hrad)].
    - rewrite carried_zero by exact Z. apply interp_zero; [exact Hk|eexists; exact Hx|exact Hf|]. intros j' Hj'. rewrite <- (Z j' Hj'). apply Ht. exact Hj'.
    - apply interp_rings; try assumption. apply Rmult_le_pos; lra. }
  set (ti := finterp k _ radii0 txy0) in *. clearbody ti. rewrite (flt_v _ _ 0 n (fv_const 0) Hn). unfold ring_traction, Rltb. rewrite quad_ring by exact Hk. rewrite shape_value by exact Hq.
  destruct (Rlt_dec 0 n) as [Hp|Hp]; cbn [fwhere]; cbv zeta.
  - specialize (Hpos Hp). assert (0 < r ^ 2) by (apply pow_lt; exact Hpos).
    assert (Tn : fv (fscal (sqrt (1 - ring k j ^ 2)) (fdiv (fscal 3 fn) (fscal (2 * PI) (fipow a 2)))) (hertz_pressure n r (ring k j))).
    { eapply fv_eq; [apply fv_scal; apply fv_div; [apply fv_scal; exact Hn|apply fv_scal; apply fv_ipow; exact Hr|]|unfold hertz_pressure; ring]. apply Rgt_not_eq. apply Rmult_lt_0_compat; lra. }
    eapply fv_eq.
    + apply fv_max; [apply fv_min; [apply fv_add; [apply fv_mul; [apply fv_scal; apply fv_divc; apply fv_div; [apply fv_scal; exact Hr|apply fv_ipow; exact Hr|lra]|apply fv_sub; eassumption]|exact Hc]|apply fv_scal; exact Tn]|apply fv_scal; exact Tn].
    + unfold clamp. rewrite Rmax_comm. f_equal; [ring|]. rewrite Rmin_comm. f_equal. rewrite Gm. field. lra.
  - eapply fv_eq; [apply fv_max; [apply fv_min; [apply fv_add; [apply fv_mul; [apply fv_const|apply fv_sub; eassumption]|exact Hc]|apply fv_scal; apply fv_const]|apply fv_scal; apply fv_const]|].
    unfold Rmax, Rmin. repeat destruct (Rle_dec _ _); lra.
Qed.

Lemma disc_value k a txy r t : (1 < k)%nat -> fv a r -> (forall j, (j < k)%nat -> fv (txy j) (t j)) ->
  fv (mif_force k (quad_radii k) (weight_radii k) a txy) (disc_force k r t).
Proof.
  intros Hk Hr Ht. unfold mif_force. eapply fv_eq; [apply fv_mul; [apply fv_scal; apply fv_ipow; exact Hr|apply (fv_sum k _ (fun j => weight_radii k j * (quad_radii k j * t j))); intros j Hj; apply fv_scal; apply fv_scal; apply Ht; exact Hj]|].
  unfold disc_force. f_equal. destruct k as [|N]; [lia|]. replace (S N - 1)%nat with N by lia. assert (HN : 0 < INR N) by (apply lt_0_INR; lia).
  assert (W : rsum (S N) (raw_weight (S N)) = 2 * INR N).
  { rewrite (rsum_ext _ _ (fun j => raw_weight (S N) j * 1)) by (intros; ring). rewrite (raw_sum N (fun _ => 1)) by lia. rewrite (rsum_ext _ _ (fun _ => 2)) by (intros; ring). rewrite rsum_const. ring. }
  rewrite (rsum_ext (S N) _ (fun j => / (2 * INR N) * (raw_weight (S N) j * (ring (S N) j * t j)))) by (intros j Hj; unfold weight_radii; rewrite W, quad_ring by lia; unfold Rdiv; ring).
  rewrite rsum_scal_l, (raw_sum N (fun j => ring (S N) j * t j)) by lia. rewrite <- rsum_scal_l. apply rsum_ext. intros j Hj.
  assert (St : ring (S N) (S j) - ring (S N) j = / INR N) by (unfold ring; replace (S N - 1)%nat with N by lia; rewrite S_INR; field; lra). rewrite St. field. lra.
Qed.
