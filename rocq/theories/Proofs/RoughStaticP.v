(** Static evaluation of the rough contact element. *)
From Coq Require Import Reals Lra Lia Arith List Bool FunctionalExtensionality.
From Verif.Lib Require Import RSum Calc Py.
From Verif.Spec Require Import Calculus Slider Rough RoughCalls.
From Verif.Model Require Import Harmonic JaxDual JaxFloat RoughContact.
From Verif.Proofs Require Import JaxDualP JaxFloatP RoughNormalP SliderP.
Import ListNotations.
Open Scope R_scope.

Section Law.
  Variable s : solid.
  Hypothesis Hs : physical s.
  Let m := mat_of s. Let E := effective_modulus s. Let yl := yield_limit s.
  Let Hm : good_material m := mat_good s Hs.
  Let HE : 0 < E := effective_pos s Hs.
  Let HR : 0 < s_R s. Proof. apply Hs. Qed.
  Let Hyl : 0 < yl. Proof. unfold yl, yield_limit. pose proof (yield_pos s Hs). lra. Qed.
  Let mE : m_Estar m = E. Proof. apply (mat_spec s Hs). Qed.
  Let mR : m_Re m = s_R s. Proof. apply (mat_spec s Hs). Qed.

  (** memories that occur: below yield the largest force is that of Hertz contact *)
  Definition mem_ok (d F : R) : Prop := 0 <= F /\ (d < yl -> F = solid_hertz s d).

  Lemma solid_hertz_nonneg x : 0 <= solid_hertz s x. Proof. apply hertz_nonneg; assumption. Qed.

  Lemma force_nonneg d F x : mem_ok d F -> 0 <= asperity_force s d F x.
  Proof.
    intros [H0 H]. unfold asperity_force. fold yl. destruct (Rlt_dec _ _); [apply solid_hertz_nonneg|]. destruct (Rlt_dec _ _) as [Hy|].
    - left. apply plastic_pos; [exact Hs|]. pose proof (Rmax_r d yl). lra.
    - destruct (Rlt_dec 0 (Rmin d F)) as [Hp|]; [|lra]. pose proof (Rmin_l d F). pose proof (Rmin_r d F). unfold solid_unloading. fold E.
      rewrite <- mE, <- mR. apply (unloading_nonneg m Hm d F); lra.
  Qed.

  Lemma mem_ok_start g : 0 <= g -> mem_ok (0 - g) 0.
  Proof. intros. split; [lra|]. intros _. unfold solid_hertz. rewrite hertz_open by lra. reflexivity. Qed.
  Lemma mem_ok_step d F x : mem_ok d F -> mem_ok (Rmax d x) (Rmax F (asperity_force s d F x)).
  Proof.
    intros Hok. pose proof (force_nonneg d F x Hok) as Hf. destruct Hok as [H0 H]. pose proof (Rmax_l F (asperity_force s d F x)). split; [lra|]. intros Hlt.
    unfold asperity_force. fold yl. destruct (Rlt_dec (Rmax d x) yl); [|contradiction]. pose proof (Rmax_l d x). rewrite H by lra. unfold solid_hertz. symmetry. apply hertz_max; assumption.
  Qed.

  Section At.
    Variables (un deltam Fm : fdual) (x d F : R).
    Hypothesis Hu : fv un x.
    Hypothesis Hd : fv deltam d.
    Hypothesis HF : fv Fm F.

    Lemma flattened_eq : 0 < d -> 0 < F -> flat_radius m d F = flattened E (s_R s) d F.
    Proof.
      intros Hd' HF'. unfold flat_radius, flattened. rewrite mE, mR. destruct (permanent_gap m Hm d F Hd' HF') as [_ G]. rewrite mE, mR in G. field. lra.
    Qed.

    Lemma general_value : mem_ok d F ->
      fv (n_fn (normal_general m un deltam Fm)) (asperity_force s d F x) /\ fv (n_a (normal_general m un deltam Fm)) (asperity_radius s d F x).
    Proof.
      intros [H0 H]. cbn [normal_general normal_where n_fn n_a].
      assert (Edy : 19/10 * m_dy m = yl) by (unfold yl, yield_limit; f_equal; apply (mat_spec s Hs)). rewrite Edy.
      rewrite (flt_v un (fconst yl) x yl Hu (fv_const _)), (flt_v deltam (fconst yl) d yl Hd (fv_const _)), (flt_v deltam un d x Hd Hu), (flt_v (fconst yl) un yl x (fv_const _) Hu).
      unfold asperity_force, asperity_radius. fold yl.
      destruct (Rlt_dec (Rmax d x) yl) as [He|He].
      - pose proof (Rmax_l d x). pose proof (Rmax_r d x). rewrite (proj2 (Rltb_true x yl)) by lra. rewrite (proj2 (Rltb_true d yl)) by lra. rewrite (proj2 (Rltb_false yl x)) by lra. rewrite andb_false_r. cbn [andb fwhere]. split.
        + unfold solid_hertz. fold E. rewrite <- mE, <- mR. apply (el_force m Hm). exact Hu.
        + rewrite <- mR. apply (el_radius m Hm). exact Hu.
      - assert (Ee : (Rltb x yl && Rltb d yl)%bool = false).
        { destruct (Rltb x yl) eqn:A; [|reflexivity]. destruct (Rltb d yl) eqn:B; [|reflexivity]. exfalso. apply Rltb_true in A. apply Rltb_true in B. apply He. apply Rmax_lub_lt; assumption. }
        rewrite Ee. clear Ee. cbn [fwhere]. destruct (Rlt_dec (Rmax d yl) x) as [Hy|Hy].
        + pose proof (Rmax_l d yl). pose proof (Rmax_r d yl). rewrite (proj2 (Rltb_true d x)) by lra. rewrite (proj2 (Rltb_true yl x)) by lra. cbn [andb fwhere]. split.
          * apply plastic_force_value; [exact Hs|exact Hu|lra].
          * apply plastic_radius_value; [exact Hs|exact Hu|lra].
        + assert (Ey : (Rltb d x && Rltb yl x)%bool = false).
          { destruct (Rltb d x) eqn:A; [|reflexivity]. destruct (Rltb yl x) eqn:B; [|reflexivity]. exfalso. apply Rltb_true in A. apply Rltb_true in B. apply Hy. apply Rmax_lub_lt; assumption. }
          rewrite Ey. clear Ey. cbn [fwhere]. destruct (Rle_lt_dec d 0) as [Hn|Hdp].
          * destruct (Rlt_dec 0 (Rmin d F)) as [Hp|_]; [pose proof (Rmin_l d F); lra|]. apply (unloading_never m un deltam Fm x d); assumption.
          * destruct (Rle_lt_or_eq_dec 0 F H0) as [HFp|HF0].
            -- destruct (Rlt_dec 0 (Rmin d F)) as [_|Hp]; [|exfalso; apply Hp; apply Rmin_glb_lt; assumption].
               destruct (un_pieces m Hm un deltam Fm x d F Hu Hd HF Hdp HFp) as (_ & _ & A). pose proof (unloading_force m Hm un deltam Fm x d F Hu Hd HF Hdp HFp) as B.
               rewrite mE, mR in B. rewrite flattened_eq, mE, mR in A by assumption. split; [exact B|exact A].
            -- destruct (Rlt_dec 0 (Rmin d F)) as [Hp|_]; [pose proof (Rmin_r d F); lra|].
               assert (Hdl : yl <= d). { destruct (Rlt_le_dec d yl) as [Hlt|]; [|assumption]. exfalso. specialize (H Hlt). pose proof (hertz_pos E (s_R s) d HE HR Hdp) as Z. unfold solid_hertz in H. fold E in H. lra. }
               assert (Hxd : x <= d). { destruct (Rle_lt_dec x d) as [|Hlt]; [assumption|]. exfalso. apply Hy. apply Rmax_lub_lt; lra. }
               apply (unloading_unloaded m Hm un deltam Fm x d F); try assumption. symmetry. exact HF0.
    Qed.
  End At.

  Lemma radius_pos d F x : mem_ok d F -> 0 <= asperity_radius s d F x /\ (0 < asperity_force s d F x -> 0 < asperity_radius s d F x).
  Proof.
    intros [H0 H]. unfold asperity_force, asperity_radius. fold yl. destruct (Rlt_dec _ _).
    - destruct (Rlt_dec 0 x); [split; [apply sqrt_pos|intros _; apply sqrt_lt_R0; apply Rmult_lt_0_compat; assumption]|]. split; [lra|]. intros Z. unfold solid_hertz in Z. rewrite hertz_open in Z by lra. lra.
    - destruct (Rlt_dec (Rmax d yl) x) as [Hy|].
      + pose proof (Rmax_r d yl). pose proof (plastic_radius_pos s Hs x ltac:(lra)). split; lra.
      + destruct (Rlt_dec 0 (Rmin d F)) as [Hp|]; [|lra]. pose proof (Rmin_l d F). pose proof (Rmin_r d F). assert (Hdp : 0 < d) by lra. assert (HFp : 0 < F) by lra.
        pose proof (flat_radius_pos m Hm d F Hdp HFp) as FP. rewrite flattened_eq in FP by assumption. unfold unloading_radius, solid_unloading, unloading. fold E. cbv zeta.
        destruct (Rlt_dec _ x); [|split; lra]. split; [apply sqrt_pos|]. intros _. apply sqrt_lt_R0. apply Rmult_lt_0_compat; [exact FP|lra].
  Qed.
End Law.

(** ---- tangential forces of one asperity ---- *)
Lemma tangential_value m mu uxy uxy0 fxy0 fn a u u0 f n r : fv uxy u -> fv uxy0 u0 -> fv fxy0 f -> fv fn n -> fv a r -> 0 <= mu * n ->
  fv (tangential m mu uxy uxy0 fxy0 fn a) (clamp (- (mu * n)) (mu * n) (f + 8 * m_Gstar m * r * (u - u0))).
Proof.
  intros Hu Hu0 Hf Hn Hr H. unfold tangential. eapply fv_eq.
  - apply fv_max; [apply fv_min; [apply fv_add; [apply fv_mul; [apply fv_scal; exact Hr|apply fv_sub; eassumption]|exact Hf]|apply fv_scal; exact Hn]|apply fv_scal; apply fv_scal; exact Hn].
  - unfold clamp. rewrite Rmax_comm, (Rmin_comm (mu * n)). f_equal; [ring|]. f_equal. ring.
Qed.

Definition finite (x : fdual) : Prop := exists v, fv x v.
Lemma finite_const c : finite (fconst c). Proof. exists c. reflexivity. Qed.
Lemma finite_where b x y : finite x -> finite y -> finite (fwhere b x y). Proof. destruct b; intros; assumption. Qed.
Lemma finite_add x y : finite x -> finite y -> finite (fadd x y). Proof. intros [a H] [b K]. eexists. apply fv_add; eassumption. Qed.
Lemma finite_sub x y : finite x -> finite y -> finite (fsub x y). Proof. intros [a H] [b K]. eexists. apply fv_sub; eassumption. Qed.
Lemma finite_mul x y : finite x -> finite y -> finite (fmul x y). Proof. intros [a H] [b K]. eexists. apply fv_mul; eassumption. Qed.
Lemma finite_scal c x : finite x -> finite (fscal c x). Proof. intros [a H]. eexists. apply fv_scal; eassumption. Qed.

Lemma interp_finite n x xp fp : finite x -> (forall j, (j < n)%nat -> finite (xp j)) -> (forall j, (j < n)%nat -> finite (fp j)) -> (0 < n)%nat -> finite (finterp n x xp fp).
Proof.
  intros Hx Hxp Hfp Hn. unfold finterp. set (i := Nat.min _ _). assert (Hi : (i < n)%nat) by (unfold i; lia). clearbody i. cbv zeta.
  apply finite_where; [apply finite_const|]. apply finite_where; [apply finite_const|].
  destruct (finite_sub (xp i) (xp (i - 1)%nat) (Hxp i Hi) (Hxp (i - 1)%nat ltac:(lia))) as [dx Hdx]. pose proof Hdx as Hdx'. unfold fv in Hdx'. rewrite Hdx'.
  unfold Rleb. destruct (Rle_dec (Rabs dx) (/ 2 ^ 104)) as [Hs|Hs]; cbn [fwhere].
  - apply Hfp. lia.
  - apply finite_add; [apply Hfp; lia|]. apply finite_mul; [|apply finite_sub; apply Hfp; lia]. destruct (finite_sub x (xp (i - 1)%nat) Hx (Hxp (i - 1)%nat ltac:(lia))) as [dl Hdl].
    eexists. apply fv_div; [exact Hdl|exact Hdx|]. intros ->. apply Hs. rewrite Rabs_R0. left. apply Rinv_0_lt_compat. apply pow_lt. lra.
Qed.

(** normal pressure of Hertz contact at the relative radius r of a contact of radius a carrying the force n *)
Definition pressure (n a r : R) : R := if Rlt_dec 0 n then 3 * n / (2 * PI * a ^ 2) * sqrt (1 - r ^ 2) else 0.

Lemma pressure_nonneg n a r : 0 <= n -> (0 < n -> 0 < a) -> 0 <= pressure n a r.
Proof.
  intros Hn Ha. unfold pressure. destruct (Rlt_dec 0 n) as [Hp|]; [|lra]. specialize (Ha Hp). apply Rmult_le_pos; [|apply sqrt_pos]. left. apply Rdiv_lt_0_compat; [lra|].
  pose proof PI_RGT_0. apply Rmult_lt_0_compat; [lra|apply pow_lt; exact Ha].
Qed.

Lemma traction_value m mu k radii uxy uxy0 txy0 fn a radii0 j u u0 n r : (0 < k)%nat -> fv uxy u -> fv uxy0 u0 -> fv fn n -> fv a r -> 0 <= n -> (0 < n -> 0 < r) -> 0 <= mu ->
  (forall j, (j < k)%nat -> finite (txy0 j)) -> (forall j, (j < k)%nat -> finite (radii0 j)) ->
  exists t, fv (mif_traction m mu k radii uxy uxy0 txy0 fn a radii0 j) t /\ Rabs t <= mu * pressure n r (radii j).
Proof.
  intros Hk Hu Hu0 Hn Hr Hn0 Hpos Hmu Ht Hrad. unfold mif_traction. pose proof PI_RGT_0 as HPI.
  destruct (interp_finite k (mif_radii a radii j) radii0 txy0) as [t0 Ht0]; [apply finite_scal; exists r; exact Hr|exact Hrad|exact Ht|exact Hk|].
  set (ti := finterp k _ radii0 txy0) in *. clearbody ti. rewrite (flt_v _ _ 0 n (fv_const 0) Hn).
  assert (Tn : fv (fwhere (Rltb 0 n) (fscal (sqrt (1 - radii j ^ 2)) (fdiv (fscal 3 fn) (fscal (2 * PI) (fipow a 2)))) (fconst 0)) (pressure n r (radii j))).
  { unfold pressure, Rltb. destruct (Rlt_dec 0 n) as [Hp|]; cbn [fwhere]; [|apply fv_const]. specialize (Hpos Hp). eapply fv_eq; [apply fv_scal; apply fv_div; [apply fv_scal; exact Hn|apply fv_scal; apply fv_ipow; exact Hr|]|ring].
    apply Rgt_not_eq. apply Rmult_lt_0_compat; [lra|apply pow_lt; exact Hpos]. }
  set (tn := fwhere (Rltb 0 n) _ (fconst 0)) in Tn. fold tn. clearbody tn.
  assert (Kt : finite (fwhere (Rltb 0 n) (fscal (kt_tilde (radii j)) (fdivc (fdiv (fscal (8 * m_Gstar m) a) (fipow a 2)) PI)) (fconst 0))).
  { unfold Rltb. destruct (Rlt_dec 0 n) as [Hp|]; cbn [fwhere]; [|apply finite_const]. specialize (Hpos Hp). eexists. apply fv_scal. apply fv_divc. apply fv_div; [apply fv_scal; exact Hr|apply fv_ipow; exact Hr|].
    apply Rgt_not_eq. apply pow_lt. exact Hpos. }
  destruct Kt as [kl Kl]. set (kt := fwhere (Rltb 0 n) _ (fconst 0)) in *. clearbody kt. cbv zeta.
  eexists. split; [apply fv_max; [apply fv_min; [apply fv_add; [apply fv_mul; [exact Kl|apply fv_sub; eassumption]|exact Ht0]|apply fv_scal; exact Tn]|apply fv_scal; exact Tn]|].
  pose proof (Rmult_le_pos mu _ Hmu (pressure_nonneg n r (radii j) Hn0 Hpos)) as P. set (q := mu * pressure n r (radii j)) in *. replace (- mu * pressure n r (radii j)) with (- q) by (unfold q; ring).
  apply Rabs_le. unfold Rmax, Rmin. repeat destruct (Rle_dec _ _); lra.
Qed.

(** ---- the radial quadrature does not exceed the integral ---- *)
Lemma trapezoid_cell a b p q : 0 <= q -> q <= p -> a ^ 2 + p ^ 2 = 1 -> b ^ 2 + q ^ 2 = 1 ->
  (b - a) * (a * p + b * q) / 2 <= (p ^ 3 - q ^ 3) / 3.
Proof.
  intros Hq Hpq Ha Hb. assert (K : p * q + a * b <= 1) by (pose proof (pow2_ge_0 (p - q)); pose proof (pow2_ge_0 (a - b)); nra).
  assert (D : (b - a) * (a * p + b * q) = (p - q) * (a * b - 1 + p ^ 2 + p * q + q ^ 2)).
  { replace (p ^ 2) with (p * p) by ring. replace (q ^ 2) with (q * q) by ring.
    transitivity (a * b * (p - q) + b ^ 2 * q - a ^ 2 * p); [ring|]. replace (b ^ 2) with (1 - q ^ 2) by lra. replace (a ^ 2) with (1 - p ^ 2) by lra. ring. }
  rewrite D. assert (L : 3 * (a * b - 1 + p ^ 2 + p * q + q ^ 2) <= 2 * (p ^ 2 + p * q + q ^ 2)).
  { pose proof (pow2_ge_0 (a - b)). nra. }
  replace ((p ^ 3 - q ^ 3) / 3) with ((p - q) * (2 * (p ^ 2 + p * q + q ^ 2)) / 6) by field.
  replace ((p - q) * (a * b - 1 + p ^ 2 + p * q + q ^ 2) / 2) with ((p - q) * (3 * (a * b - 1 + p ^ 2 + p * q + q ^ 2)) / 6) by field.
  apply Rmult_le_compat_r; [lra|]. apply Rmult_le_compat_l; lra.
Qed.

Lemma raw_sum n g : (0 < n)%nat -> rsum (S n) (fun j => raw_weight (S n) j * g j) = rsum n (fun j => g j + g (S j)).
Proof.
  intros Hn. assert (A : rsum n (fun j => g j + g (S j)) = 2 * rsum (S n) g - g O - g n).
  { rewrite rsum_plus. assert (B : rsum n (fun j => g (S j)) = rsum (S n) g - g O). { clear Hn. induction n as [|n IH]; [cbn; ring|]. cbn [rsum] in *. rewrite IH. ring. } rewrite B. cbn [rsum]. ring. }
  rewrite A. rewrite (rsum_ext (S n) _ (fun j => 2 * g j - ((if Nat.eqb j 0 then g j else 0) + (if Nat.eqb j n then g j else 0)))).
  - rewrite rsum_minus, rsum_plus, rsum_scal_l. rewrite (rsum_single (S n) O (fun j => if Nat.eqb j 0 then g j else 0)) by (solve [lia | intros j Hj Hne; rewrite (proj2 (Nat.eqb_neq j 0)) by exact Hne; reflexivity]).
    rewrite (rsum_single (S n) n (fun j => if Nat.eqb j n then g j else 0)) by (solve [lia | intros j Hj Hne; rewrite (proj2 (Nat.eqb_neq j n)) by exact Hne; reflexivity]). rewrite !Nat.eqb_refl. ring.
  - intros j Hj. unfold raw_weight. replace (S n - 1)%nat with n by lia. destruct (Nat.eqb_spec j 0), (Nat.eqb_spec j n); cbn [orb]; try (exfalso; lia); ring.
Qed.

Lemma quadrature_bound k : rsum k (fun j => weight_radii k j * (quad_radii k j * sqrt (1 - quad_radii k j ^ 2))) <= / 3.
Proof.
  destruct k as [|[|n]].
  - cbn. lra.
  - cbn. unfold quad_radii. cbn. lra.
  - set (N := S n). assert (HN : 0 < INR N) by (apply lt_0_INR; unfold N; lia).
    set (r := fun j => INR j / INR N). set (p := fun j => sqrt (1 - r j ^ 2)).
    assert (W : rsum (S N) (raw_weight (S N)) = 2 * INR N).
    { rewrite (rsum_ext _ _ (fun j => raw_weight (S N) j * 1)) by (intros; ring). rewrite (raw_sum N (fun _ => 1)) by (unfold N; lia). rewrite (rsum_ext _ _ (fun _ => 2)) by (intros; ring). rewrite rsum_const. ring. }
    rewrite (rsum_ext (S N) _ (fun j => / (2 * INR N) * (raw_weight (S N) j * (r j * p j)))).
    2:{ intros j Hj. unfold weight_radii. rewrite W. assert (Q : quad_radii (S N) j = r j) by (unfold quad_radii, r, N; cbn [Nat.eqb]; replace (S (S n) - 1)%nat with (S n) by lia; reflexivity). rewrite Q. fold (p j). unfold Rdiv. ring. }
    rewrite rsum_scal_l, (raw_sum N (fun j => r j * p j)) by (unfold N; lia). rewrite <- rsum_scal_l.
    assert (Rr : forall j, (j <= N)%nat -> 0 <= r j <= 1).
    { intros j Hj. unfold r. apply le_INR in Hj. pose proof (pos_INR j). split; [apply Rmult_le_pos; [lra|left; apply Rinv_0_lt_compat; exact HN]|]. apply (Rmult_le_reg_r (INR N)); [exact HN|]. unfold Rdiv. rewrite Rmult_assoc, Rinv_l by lra. lra. }
    assert (Pp : forall j, (j <= N)%nat -> r j ^ 2 + p j ^ 2 = 1). { intros j Hj. unfold p. specialize (Rr j Hj). rewrite pow2_sqrt by nra. ring. }
    apply Rle_trans with (rsum N (fun j => (p j ^ 3 - p (S j) ^ 3) / 3)).
    + apply rsum_le. intros j Hj. assert (St : r (S j) - r j = / INR N) by (unfold r; rewrite S_INR; field; lra).
      replace (/ (2 * INR N) * (r j * p j + r (S j) * p (S j))) with ((r (S j) - r j) * (r j * p j + r (S j) * p (S j)) / 2) by (rewrite St; field; lra).
      apply trapezoid_cell; [apply sqrt_pos| |apply Pp; lia|apply Pp; lia]. unfold p. apply sqrt_le_1_alt. pose proof (Rr j ltac:(lia)). pose proof (Rr (S j) ltac:(lia)).
      assert (r j <= r (S j)) by (pose proof (Rinv_0_lt_compat _ HN); lra). nra.
    + assert (T : forall M, rsum M (fun j => (p j ^ 3 - p (S j) ^ 3) / 3) = (p O ^ 3 - p M ^ 3) / 3). { induction M as [|M IH]; [cbn [rsum]; field|]. cbn [rsum]. rewrite IH. field. }
      rewrite T. assert (p O = 1) as ->. { unfold p, r. cbn [INR]. replace (1 - (0 / INR N) ^ 2) with 1 by (field; lra). apply sqrt_1. }
      assert (0 <= p N ^ 3) by (apply pow_le; apply sqrt_pos). lra.
Qed.

(** total tangential force of one asperity (one direction) from its tractions *)
Lemma mif_force_value k a txy mu n r t : fv a r -> (forall j, (j < k)%nat -> fv (txy j) (t j)) -> 0 <= n -> (0 < n -> 0 < r) -> 0 <= mu ->
  (forall j, (j < k)%nat -> Rabs (t j) <= mu * pressure n r (quad_radii k j)) ->
  exists f, fv (mif_force k (quad_radii k) (weight_radii k) a txy) f /\ Rabs f <= mu * n.
Proof.
  intros Hr Ht Hn Hpos Hmu Hb. unfold mif_force. eexists. split; [apply fv_mul; [apply fv_scal; apply fv_ipow; exact Hr|apply (fv_sum k _ (fun j => weight_radii k j * (quad_radii k j * t j))); intros j Hj; apply fv_scal; apply fv_scal; apply Ht; exact Hj]|].
  pose proof PI_RGT_0 as HPI. assert (H0 : 0 <= 2 * PI * r ^ 2) by (apply Rmult_le_pos; [lra|apply pow2_ge_0]). rewrite Rabs_mult, (Rabs_right (2 * PI * r ^ 2)) by lra.
  assert (Wp : forall j, 0 <= weight_radii k j). { intros j. unfold weight_radii. assert (forall i, 0 < raw_weight k i) as Rw by (intros i; unfold raw_weight; destruct (_ || _)%bool; lra).
    apply Rmult_le_pos; [left; apply Rw|]. destruct k as [|k']; [cbn; rewrite Rinv_0; lra|]. left. apply Rinv_0_lt_compat. cbn [rsum]. pose proof (Rw k'). assert (0 <= rsum k' (raw_weight (S k'))) by (apply rsum_nonneg; intros; left; apply Rw). lra. }
  assert (Qp : forall j, (j < k)%nat -> 0 <= quad_radii k j). { intros j Hj. unfold quad_radii. destruct (Nat.eqb_spec k 1); [lra|]. apply Rmult_le_pos; [apply pos_INR|]. left. apply Rinv_0_lt_compat. apply lt_0_INR. lia. }
  assert (B : Rabs (rsum k (fun j => weight_radii k j * (quad_radii k j * t j))) <= rsum k (fun j => weight_radii k j * (quad_radii k j * (mu * pressure n r (quad_radii k j))))).
  { eapply Rle_trans; [apply rsum_abs|]. apply rsum_le. intros j Hj. rewrite !Rabs_mult, (Rabs_right (weight_radii k j)) by (apply Rle_ge; apply Wp). rewrite (Rabs_right (quad_radii k j)) by (apply Rle_ge; apply Qp; exact Hj).
    apply Rmult_le_compat_l; [apply Wp|]. apply Rmult_le_compat_l; [apply Qp; exact Hj|]. apply Hb. exact Hj. }
  eapply Rle_trans; [apply Rmult_le_compat_l; [exact H0|exact B]|]. destruct (Rlt_dec 0 n) as [Hp|Hp].
  - specialize (Hpos Hp). assert (0 < r ^ 2) by (apply pow_lt; exact Hpos).
    rewrite (rsum_ext k _ (fun j => mu * (3 * n / (2 * PI * r ^ 2)) * (weight_radii k j * (quad_radii k j * sqrt (1 - quad_radii k j ^ 2))))) by (intros j Hj; unfold pressure; destruct (Rlt_dec 0 n); [ring|contradiction]).
    rewrite rsum_scal_l. replace (2 * PI * r ^ 2 * (mu * (3 * n / (2 * PI * r ^ 2)) * rsum k (fun j => weight_radii k j * (quad_radii k j * sqrt (1 - quad_radii k j ^ 2))))) with (3 * (mu * n) * rsum k (fun j => weight_radii k j * (quad_radii k j * sqrt (1 - quad_radii k j ^ 2)))) by (field; lra).
    pose proof (quadrature_bound k) as QB. assert (0 <= mu * n) by (apply Rmult_le_pos; lra). nra.
  - rewrite (rsum_zero k) by (intros j Hj; unfold pressure; destruct (Rlt_dec 0 n); [contradiction|ring]). rewrite Rmult_0_r. apply Rmult_le_pos; lra.
Qed.
