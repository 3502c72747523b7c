(** The derivatives of the harmonic evaluation of rough contact. *)
From Coq Require Import Reals Lra Lia Arith List Bool FunctionalExtensionality.
From Verif.Lib Require Import RSum Calc Py.
From Verif.Spec Require Import Calculus Harmonic Slider Rough RoughCalls RoughTangent.
From Verif.Model Require Import Harmonic LocalForces Aft JaxDual JaxFloat RoughContact.
From Verif.Proofs Require Import HarmonicP AftP JaxDualP JaxFrictionP JaxFloatP RoughNormalP RoughStaticP RoughCallsP RoughHistoryP RoughAftP SliderP TracksP RoughTangentP RoughJacobianP RoughJacobianCaseP RoughCycleTangentP.
Import ListNotations.
Open Scope R_scope.

Lemma vmax_largest n v um : (0 < n)%nat -> largest n v um -> vmax n v = um.
Proof.
  intros Hn [L1 (t1 & L2 & L3)]. destruct (vmax_spec n v Hn) as [M1 (t2 & M2 & M3)]. specialize (L1 t2 M2). specialize (M1 t1 L2). lra.
Qed.
Lemma largest_vmax n v : (0 < n)%nat -> largest n v (vmax n v).
Proof. intros Hn. destruct (vmax_spec n v Hn) as [M1 (t2 & M2 & M3)]. split; [exact M1|exists t2; split; [exact M2|symmetry; exact M3]]. Qed.
Lemma vmax_ext n v w : (0 < n)%nat -> (forall t, (t < n)%nat -> v t = w t) -> vmax n v = vmax n w.
Proof.
  intros Hn H. apply vmax_largest; [exact Hn|]. destruct (largest_vmax n w Hn) as [L1 (t1 & L2 & L3)]. split; [intros t Ht; rewrite H by exact Ht; apply L1; exact Ht|].
  exists t1. split; [exact L2|]. rewrite H by exact L2. exact L3.
Qed.
Lemma samples_ext n f g : (0 < n)%nat -> (forall t, (t < n)%nat -> f t = g t) -> repeat_samples n f = repeat_samples n g.
Proof. intros Hn H. extensionality k. unfold repeat_samples. apply H. apply Nat.mod_upper_bound. lia. Qed.

Section AftJacobian.
  Variables (s : solid) (r : rough) (N : nat) (Q T : mat) (st : rough_state) (h : list nat) (Nt : nat).
  Hypothesis Hs : physical s.
  Hypothesis Hmat : r_mat r = mat_of s.
  Hypothesis Hgap : forall i, (i < r_n r)%nat -> 0 <= r_meso r + r_gaps r i.
  Hypothesis Hmu : 0 <= rs_mu st.
  Hypothesis Htan : r_model r = TAN.
  Hypothesis Ha : admissible h.
  Hypothesis HN : (2 * list_max h + 1 < Nt)%nat.
  Hypothesis Hev : Nat.even Nt = true.
  Let nhc := length (components h).
  Hypothesis Htwo : (1 < nhc)%nat.
  Let g := fun i => r_meso r + r_gaps r i.

  Lemma aft_jacobian U w n :
    let u := fun d t => local_motion N Q h U d (sample_phase Nt t) in
    single_largest Nt (u 2%nat) -> forall um, largest Nt (u 2%nat) um ->
    (forall i, (i < r_n r)%nat -> smooth_peak s (um - g i)) ->
    (forall i t, (i < r_n r)%nat -> (t < Nt)%nat -> smooth_cycle s (um - g i) (u 2%nat t - g i)) ->
    (forall i d k, (i < r_n r)%nat -> (d < 2)%nat -> (k < S n * Nt)%nat ->
       smooth_slip s (rs_mu st) (um - g i) (repeat_samples Nt (fun t => u 2%nat t - g i)) (repeat_samples Nt (u d)) (rs_aft_u0 st d) k) ->
    exists (FF : vec -> R -> vec) (dU : mat) (dw : vec),
      (forall V z, exists J, rough_aft r N Q T st V z h Nt (S n) = Ok (Some (FF V z), J)) /\
      rough_aft r N Q T st U w h Nt (S n) = Ok (Some (FF U w), Some (dU, dw)) /\
      is_joint_jacobian (nhc * N) (nhc * N) FF U w dU dw /\ forall p, (p < nhc * N)%nat -> dw p = 0.
  Proof.
    intros u Hsingle um Hum Hpeak Hcyc Hslip. assert (HNt : (0 < Nt)%nat) by lia. assert (Hmodel : model_ok (r_model r)) by (rewrite Htan; exact I).
    set (mm := (nhc * 3 + 1)%nat).
    destruct (seeded_samples 3 h Nt Ha HN Hev ltac:(lia)) as (unl & E & SP). fold nhc in SP. fold mm in SP.
    set (hist := fun V => rough_history r (rs_mu st) Nt (unl V) (rs_aft_u0 st) (S n)).
    destruct (gfc_dual_grad h Nt Ha HN mm (fun V t d => fdual_get (hist V t d))) as (F & EF & VF & GF). fold nhc in VF, GF.
    set (G := fun V c d => mkF (if all_values Nt (fun t => hist V t d) then Some (dv (F V c d)) else None) (if all_tangents Nt (fun t => hist V t d) then Some (dt (F V c d)) else None)).
    assert (EL : forall V, rough_local r (rs_mu st) (rs_aft_u0 st) h Nt (S n) (seeded 3 V) = Ok (G V)).
    { intros V. unfold rough_local. rewrite E. cbn [bind]. fold (hist V). rewrite EF. cbn [bind]. reflexivity. }
    (** values *)
    set (us := fun (V : vec) d t => lser 3 h V d (sample_phase Nt t)).
    set (hv := fun V d t => if Nat.ltb d 2
      then rsum (r_n r) (fun i => r_weights r i * cycle_friction s (rs_mu st) (vmax Nt (us V 2%nat) - g i) (repeat_samples Nt (fun t => us V 2%nat t - g i)) (repeat_samples Nt (us V d)) (rs_aft_u0 st d) (n * Nt + t))
      else rsum (r_n r) (fun i => r_weights r i * cycle_force s (vmax Nt (us V 2%nat) - g i) (us V 2%nat t - g i))).
    assert (UV : forall V t d, (t < Nt)%nat -> (d < 3)%nat -> dv (unl V t d) = us V d t) by (intros V t d Ht Hd; apply (proj1 (SP t d Ht Hd))).
    assert (MV : forall V, vmax Nt (fun t => dv (unl V t 2%nat)) = vmax Nt (us V 2%nat)) by (intros V; apply vmax_ext; [exact HNt|]; intros t Ht; apply UV; [exact Ht|lia]).
    assert (XV : forall V i, repeat_samples Nt (fun t => dv (unl V t 2%nat) - (r_meso r + r_gaps r i)) = repeat_samples Nt (fun t => us V 2%nat t - g i)) by (intros V i; apply samples_ext; [exact HNt|]; intros t Ht; rewrite UV by lia; reflexivity).
    assert (DV : forall V d, (d < 3)%nat -> repeat_samples Nt (fun t => dv (unl V t d)) = repeat_samples Nt (us V d)) by (intros V d Hd; apply samples_ext; [exact HNt|]; intros t Ht; apply UV; assumption).
    assert (HV : forall V t d, (t < Nt)%nat -> (d < 3)%nat -> fv (hist V t d) (hv V d t)).
    { intros V t d Ht Hd. destruct (history_value s r (rs_mu st) Nt (unl V) (rs_aft_u0 st) Hs Hmat Hgap Hmu Hmodel HNt n t Ht) as [A B]. fold (hist V) in A, B. unfold hv. destruct (Nat.ltb_spec d 2) as [H2|H2].
      - destruct (B d H2) as (f & Hf & Ef & _). eapply fv_eq; [exact Hf|]. rewrite (Ef Htan). apply rsum_ext. intros i Hi. rewrite MV, XV, DV by lia. reflexivity.
      - assert (d = 2%nat) as -> by lia. eapply fv_eq; [exact A|]. apply rsum_ext. intros i Hi. rewrite MV, UV by lia. reflexivity. }
    assert (LE : forall V W d t, (d < 3)%nat -> (forall j, (j < nhc * 3)%nat -> V j = W j) -> us V d t = us W d t).
    { intros V W d t Hd H. unfold us, lser. apply (series_ext h). intros c Hc. apply H. fold nhc in Hc. lia. }
    assert (HE : forall V W d t, (d < 3)%nat -> (forall j, (j < nhc * 3)%nat -> V j = W j) -> hv V d t = hv W d t).
    { intros V W d t Hd H. assert (Eu : forall e, (e < 3)%nat -> us V e = us W e) by (intros e He; extensionality z; apply LE; assumption). unfold hv. rewrite (Eu d Hd), (Eu 2%nat) by lia. reflexivity. }
    assert (AV : forall V d, (d < 3)%nat -> all_values Nt (fun t => hist V t d) = true) by (intros V d Hd; apply all_values_true; intros t Ht; eexists; apply HV; assumption).
    set (FL := fun V c d => fdual_get (G V c d)). set (Floc := fun V d c => coefc h Nt (hv V d) c).
    assert (LV : forall V c d, (c < nhc)%nat -> (d < 3)%nat -> dv (FL V c d) = Floc V d c).
    { intros V c d Hc Hd. unfold FL, G, fdual_get. cbn [fval ftan dv]. rewrite AV by exact Hd. cbn [getR]. rewrite (proj1 (VF V c d Hc)). apply coefc_ext. intros t Ht. cbn [fdual_get dv]. apply fv_get. apply HV; assumption. }
    assert (FE : forall V W d c, (c < nhc)%nat -> (d < 3)%nat -> (forall j, (j < nhc * 3)%nat -> V j = W j) -> Floc V d c = Floc W d c).
    { intros V W d c Hc Hd H. unfold Floc. apply coefc_ext. intros t Ht. apply HE; assumption. }
    (** derivatives at the point *)
    set (X := join 3 h (loc N 3 Q h U) w).
    assert (UX : forall t d, (d < 3)%nat -> us X d t = u d t).
    { intros t d Hd. unfold u. rewrite <- (lser_loc N 3 Q h U d) by exact Hd. unfold us, lser. apply (series_ext h). intros c Hc. unfold X, join. fold nhc in Hc |- *. destruct (Nat.ltb_spec (c * 3 + d) (nhc * 3)); [reflexivity|lia]. }
    assert (MX : vmax Nt (fun t => dv (unl X t 2%nat)) = um).
    { rewrite MV. apply vmax_largest; [exact HNt|]. destruct Hum as [L1 (t1 & L2 & L3)]. split; [intros t Ht; rewrite UX by lia; apply L1; exact Ht|exists t1; split; [exact L2|rewrite UX by lia; exact L3]]. }
    assert (DG : forall t d, (t < Nt)%nat -> (d < 3)%nat -> (exists Tt, ftan (hist X t d) = Some Tt) /\ dgrad mm (fun V => fdual_get (hist V t d)) X).
    { assert (Along : forall (c : R -> vec) (v : vec) t0, c t0 = X -> (forall j, (j < mm)%nat -> derivable_pt_lim (fun z => c z j) t0 (v j)) -> forall t d, (t < Nt)%nat -> (d < 3)%nat ->
        exists Tt, ftan (hist X t d) = Some Tt /\ derivable_pt_lim (fun z => hv (c z) d t) t0 (rsum mm (fun j => Tt j * v j))).
      { intros c v t0 Hc Hv t d Ht Hd.
        destruct (row_tv mm v t0 s r (rs_mu st) Nt (fun z => unl (c z)) (rs_aft_u0 st) Hs Hmat Hgap Hmu Htan HNt) with (K := (S n * Nt)%nat) (n := n) (t := t) (d := d) as [b Hb].
        - intros t' d' Ht' Hd'. exists (fun z => dv (unl (c z) t' d')), (dt (unl (c t0) t' d')). split; [|reflexivity]. split; [apply near_all; reflexivity|]. split; [reflexivity|].
          exact (proj1 (proj2 (proj2 (SP t' d' Ht' Hd'))) (c t0) c v t0 (fun _ _ => eq_refl) Hv).
        - cbv beta. rewrite Hc. destruct Hsingle as (m & Hm & Hlt). exists m. split; [exact Hm|]. intros t' Ht' Hne. rewrite !UV, !UX by lia. apply Hlt; assumption.
        - cbv beta. rewrite Hc, MX. exact Hpeak.
        - cbv beta. rewrite Hc, MX. intros i t' Hi Ht'. rewrite UV, UX by lia. apply Hcyc; assumption.
        - cbv beta. rewrite Hc, MX. intros i e k Hi He Hk. rewrite XV, DV by lia.
          rewrite (samples_ext Nt (fun t => us X 2%nat t - g i) (fun t => u 2%nat t - g i) HNt) by (intros; rewrite UX by lia; reflexivity). rewrite (samples_ext Nt (us X e) (u e) HNt) by (intros; apply UX; lia). apply Hslip; assumption.
        - lia.
        - exact Ht.
        - exact Hd.
        - destruct (tv_value mm v t0 _ b (fun z => hv (c z) d t) Hb (fun z => HV (c z) t d Ht Hd)) as (Tt & E1 & E2). exists Tt. split; [|exact E2]. rewrite Hc in E1. exact E1. }
      intros t d Ht Hd. split.
      - destruct (Along (fun _ => X) (fun _ => 0) 0 eq_refl (fun j _ => dlim_const (X j) 0) t d Ht Hd) as (Tt & E1 & _). exists Tt. exact E1.
      - intros c v t0 Hc Hv. set (c' := fun z j => if Nat.ltb j mm then c z j else X j).
        destruct (Along c' v t0) with (t := t) (d := d) as (Tt & E1 & E2); [| |exact Ht|exact Hd|].
        + extensionality j. unfold c'. destruct (Nat.ltb_spec j mm); [apply Hc; assumption|reflexivity].
        + intros j Hj. unfold c'. destruct (Nat.ltb_spec j mm); [apply Hv; assumption|lia].
        + cbn [fdual_get dt]. rewrite E1. eapply dlim_ext; [|exact E2]. intros z. cbn [fdual_get dv getV]. rewrite (fv_get _ _ (HV (c z) t d Ht Hd)). apply HE; [exact Hd|]. intros j Hj. unfold c', mm. destruct (Nat.ltb_spec j (nhc * 3 + 1)); [reflexivity|lia]. }
    assert (AT : forall d, (d < 3)%nat -> all_tangents Nt (fun t => hist X t d) = true) by (intros d Hd; apply tangents_true; intros t Ht; apply (DG t d Ht Hd)).
    assert (GL : forall c d, (c < nhc)%nat -> (d < 3)%nat -> dgrad mm (fun W => FL W c d) X).
    { intros c d Hc Hd. pose proof (GF X c d Hc (fun t Ht => proj2 (DG t d Ht Hd))) as K. intros a v t0 H1 H2. specialize (K a v t0 H1 H2).
      assert (Et : dt (FL X c d) = dt (F X c d)) by (unfold FL, G, fdual_get; cbn [ftan dt]; rewrite AT by exact Hd; reflexivity). rewrite Et. eapply dlim_ext; [|exact K]. intros z. cbv beta. unfold FL, G, fdual_get. cbn [fval ftan dv]. rewrite AV by exact Hd. reflexivity. }
    assert (W0 : forall c d, (c < nhc)%nat -> (d < 3)%nat -> dt (FL X c d) (nhc * 3)%nat = 0).
    { intros c d Hc Hd. assert (D1 : derivable_pt_lim (fun z => dv (FL (fun j => if Nat.eqb j (nhc * 3) then z else X j) c d)) w (rsum mm (fun j => dt (FL X c d) j * (if Nat.eqb j (nhc * 3) then 1 else 0)))).
      { apply (GL c d Hc Hd (fun z j => if Nat.eqb j (nhc * 3) then z else X j) (fun j => if Nat.eqb j (nhc * 3) then 1 else 0) w).
        - intros j Hj. destruct (Nat.eqb_spec j (nhc * 3)) as [->|]; [|reflexivity]. unfold X, join. fold nhc. destruct (Nat.ltb_spec (nhc * 3) (nhc * 3)); [lia|reflexivity].
        - intros j Hj. destruct (Nat.eqb_spec j (nhc * 3)); [apply dlim_id|apply dlim_const]. }
      assert (D2 : derivable_pt_lim (fun z => dv (FL (fun j => if Nat.eqb j (nhc * 3) then z else X j) c d)) w 0).
      { eapply dlim_ext; [|apply (dlim_const (Floc X d c))]. intros z. rewrite LV by assumption. apply FE; [exact Hc|exact Hd|]. intros j Hj. destruct (Nat.eqb_spec j (nhc * 3)); [lia|reflexivity]. }
      pose proof (uniqueness_limite _ _ _ _ D1 D2) as K. rewrite (rsum_single mm (nhc * 3)) in K; [|unfold mm; lia|intros j _ Hne; apply Nat.eqb_neq in Hne; rewrite Hne; ring]. rewrite Nat.eqb_refl in K. lra. }
    (** assembly *)
    set (lc := fun Ul => do G <- rough_local r (rs_mu st) (rs_aft_u0 st) h Nt (S n) Ul; Ok (fun c d => fdual_get (G c d))).
    assert (HL : forall V, lc (seeded 3 V) = Ok (FL V)) by (intros V; unfold lc; rewrite EL; reflexivity).
    assert (EV : forall V z, (fun c d => dseed (fun i => if (i <? nhc * 3)%nat then aft_Unl N Q V (i / 3) (i mod 3) else z) (c * 3 + d)%nat) = seeded 3 (join 3 h (loc N 3 Q h V) z)).
    { intros V z. unfold seeded. extensionality c. extensionality d. unfold dseed. f_equal. unfold join. fold nhc. destruct (Nat.ltb_spec (c * 3 + d) (nhc * 3)); [|reflexivity].
      destruct (block_form nhc 3 (c * 3 + d) H) as (c' & d' & Hc' & Hd' & E'). rewrite E'. destruct (divmod_block 3 c' d' Hd') as [-> ->]. symmetry. apply loc_Unl; assumption. }
    set (FF := fun V z => aft_global N 3 T (fun d c => dv (FL (join 3 h (loc N 3 Q h V) z) c d))).
    set (dUf := fun V z => aft_dU N 3 nhc Q T (fun p q => dt (FL (join 3 h (loc N 3 Q h V) z) (p / 3)%nat (p mod 3)%nat) q)).
    set (dwf := fun V z p => matvec 3 T (fun d => dt (FL (join 3 h (loc N 3 Q h V) z) ((d * nhc + p / N) / 3)%nat ((d * nhc + p / N) mod 3)%nat) (nhc * 3)%nat) (p mod N)%nat).
    assert (EJ : forall V z, jax_aft N 3 Q T lc V z h = Ok (FF V z, dUf V z, dwf V z)).
    { intros V z. unfold jax_aft. rewrite (nhc_ok h Ha). cbn [bind]. rewrite (nhc_aft h). fold nhc. destruct (Nat.eqb_spec nhc 0); [lia|].
      assert (ED : ((nhc * 3 + 1) / nhc = 3)%nat) by (rewrite (Nat.mul_comm nhc 3), Nat.div_add_l by lia; rewrite Nat.div_small by lia; lia). rewrite ED. rewrite (Nat.mul_comm 3 nhc), Nat.eqb_refl. cbn [negb]. rewrite EV, HL. cbn [bind]. reflexivity. }
    assert (ER : forall V z, rough_aft r N Q T st V z h Nt (S n) = Ok (Some (FF V z), if all_tangents (nhc * 3) (fun p => G (join 3 h (loc N 3 Q h V) z) (p / 3)%nat (p mod 3)%nat) then Some (dUf V z, dwf V z) else None)).
    { intros V z. unfold rough_aft. fold lc. rewrite EJ. cbn [bind]. rewrite (nhc_aft h). fold nhc. rewrite EV, EL. cbn [bind]. set (W := join 3 h (loc N 3 Q h V) z) in *.
      assert (AG : all_values (nhc * 3) (fun p => G W (p / 3)%nat (p mod 3)%nat) = true).
      { apply all_values_true. intros p Hp. exists (dv (F W (p / 3)%nat (p mod 3)%nat)). unfold fv, G. cbn [fval]. rewrite AV; [reflexivity|]. apply Nat.mod_upper_bound. lia. }
      rewrite AG. reflexivity. }
    exists FF, (dUf U w), (dwf U w). split; [|split; [|split]].
    - intros V z. eexists. apply ER.
    - rewrite ER. fold X. rewrite tangents_true; [reflexivity|]. intros p Hp. unfold G. cbn [ftan]. rewrite AT by (apply Nat.mod_upper_bound; lia). eexists. reflexivity.
    - assert (Val : forall V z p, (p < nhc * N)%nat -> FF V z p = aft_global N 3 T (Floc (loc N 3 Q h V)) p).
      { intros V z p Hp. apply (aft_global_ext N 3 T h); [exact Hp|]. intros d c Hd Hc. fold nhc in Hc. rewrite LV by assumption. apply FE; try assumption. intros j Hj. unfold join. fold nhc. destruct (Nat.ltb_spec j (nhc * 3)); [reflexivity|lia]. }
      assert (J : is_jacobian (nhc * N) (nhc * N) (fun V => aft_global N 3 T (Floc (loc N 3 Q h V))) U (dUf U w)).
      { apply (assembly_jacobian N 3 Q T h Floc U _ (fun V => aft_global N 3 T (Floc (loc N 3 Q h V)))); [reflexivity|].
        fold nhc. intros c v t0 Hg Hv p Hp. destruct (block_form nhc 3 p Hp) as (b & d & Hb & Hd & ->). destruct (divmod_block 3 b d Hd) as [-> ->].
        apply (join_grad 3 h ltac:(lia) Htwo FL Floc LV FE (loc N 3 Q h U) w b d Hb Hd (GL b d Hb Hd) c v t0 Hg Hv). }
      intros c v om dom t0 Hg Hom Hv Hdom i Hi. eapply dlim_ext; [intros z; symmetry; apply (Val (c z) (om z) i Hi)|].
      eapply dlim_eq; [exact (J c v t0 Hg Hv i Hi)|]. assert (Z : dwf U w i = 0); [|rewrite Z; ring].
      unfold dwf. fold X. unfold matvec. apply rsum_zero. intros d Hd. assert (L : (d * nhc + i / N < nhc * 3)%nat). { assert (i / N < nhc)%nat by (apply Nat.div_lt_upper_bound; [intros Z0; subst N; lia|lia]). nia. }
      destruct (block_form nhc 3 _ L) as (c' & d' & Hc' & Hd' & E'). rewrite E'. destruct (divmod_block 3 c' d' Hd') as [-> ->]. rewrite W0 by assumption. ring.
    - intros i Hi. unfold dwf. fold X. unfold matvec. apply rsum_zero. intros d Hd. assert (L : (d * nhc + i / N < nhc * 3)%nat). { assert (i / N < nhc)%nat by (apply Nat.div_lt_upper_bound; [intros Z0; subst N; lia|lia]). nia. }
      destruct (block_form nhc 3 _ L) as (c' & d' & Hc' & Hd' & E'). rewrite E'. destruct (divmod_block 3 c' d' Hd') as [-> ->]. rewrite W0 by assumption. ring.
  Qed.
End AftJacobian.

(** * Example *)
Definition vibration (x0 x1 : R) : vec := fun k => if Nat.eqb k 2 then x0 else if Nat.eqb k 5 then x1 else 0.

Lemma cos_lt_1 z : 0 < z < 2 * PI -> cos z < 1.
Proof.
  intros H. destruct (Rle_lt_or_eq_dec _ _ (proj2 (COS_bound z))) as [L|E]; [exact L|]. exfalso.
  assert (0 < sin (z / 2)) by (apply sin_gt_0; lra). replace z with (2 * (z / 2)) in E by field. rewrite cos_2a_sin in E. nra.
Qed.
Lemma mindlin_rest kt limit u u0 k : (forall j, 0 <= limit j) -> (forall j, u j = u0) -> mindlin kt limit u u0 k = 0.
Proof.
  intros Hl Hu. assert (C : forall j x, x = 0 -> Slider.clamp (- limit j) (limit j) x = 0). { intros j x ->. unfold Slider.clamp. specialize (Hl j). rewrite Rmin_right by lra. apply Rmax_right. lra. }
  induction k as [|k IH]; cbn [mindlin]; apply C; rewrite !Hu; [ring|]. rewrite IH. ring.
Qed.

Lemma vibration_case s x0 x1 mu Nt n : physical s -> 0 < x1 -> x1 < x0 -> x0 + x1 < yield_limit s -> 0 < mu -> (3 < Nt)%nat ->
  let r := one_asperity s mu in
  let g := fun i => r_meso r + r_gaps r i in
  let u := fun d t => local_motion 3 eye [0;1]%nat (vibration x0 x1) d (sample_phase Nt t) in
  single_largest Nt (u 2%nat) /\ largest Nt (u 2%nat) (x0 + x1) /\ (forall i, (i < r_n r)%nat -> smooth_peak s (x0 + x1 - g i)) /\
  (forall i t, (i < r_n r)%nat -> (t < Nt)%nat -> smooth_cycle s (x0 + x1 - g i) (u 2%nat t - g i)) /\
  forall i d k, (i < r_n r)%nat -> (d < 2)%nat -> (k < S n * Nt)%nat ->
    smooth_slip s mu (x0 + x1 - g i) (repeat_samples Nt (fun t => u 2%nat t - g i)) (repeat_samples Nt (u d)) 0 k.
Proof.
  intros Hs H1 H2 H3 Hmu HN r g u.
  assert (U2 : forall t, u 2%nat t = x0 + x1 * cos (sample_phase Nt t)). { intros t. unfold u, local_motion, series, eye, dof_coefs, vibration, basis. cbn -[sample_phase]. rewrite ?Rmult_0_l, ?cos_0, ?Rmult_1_l. ring. }
  assert (Ut : forall d t, (d < 2)%nat -> u d t = 0). { intros d t Hd. unfold u, local_motion, series, eye, dof_coefs, vibration, basis. destruct d as [|[|d]]; [| |lia]; cbn -[sample_phase]; ring. }
  assert (G0 : forall i, g i = 0) by (intros i; unfold g, r, one_asperity; cbn; ring).
  assert (P0 : sample_phase Nt 0 = 0) by (unfold sample_phase; cbn [INR]; unfold Rdiv; ring).
  assert (B : forall t, 0 < u 2%nat t < yield_limit s). { intros t. rewrite U2. pose proof (COS_bound (sample_phase Nt t)). nra. }
  split; [|split; [|split; [|split]]].
  - exists O. split; [lia|]. intros t Ht Hne. rewrite !U2, P0, cos_0. assert (cos (sample_phase Nt t) < 1); [|nra]. apply cos_lt_1. pose proof PI_RGT_0.
    assert (0 < INR t) by (apply lt_0_INR; lia). assert (INR t < INR Nt) by (apply lt_INR; lia). assert (0 < / INR Nt) by (apply Rinv_0_lt_compat; lra). unfold sample_phase, Rdiv. split; [apply Rmult_lt_0_compat; [|assumption]; apply Rmult_lt_0_compat; lra|].
    apply Rmult_lt_reg_r with (INR Nt); [lra|]. rewrite Rmult_assoc, Rinv_l, Rmult_1_r by lra. apply Rmult_lt_compat_l; lra.
  - split; [intros t Ht; rewrite U2; pose proof (COS_bound (sample_phase Nt t)); nra|]. exists O. split; [lia|]. rewrite U2, P0, cos_0. ring.
  - intros i Hi. rewrite G0. unfold smooth_peak. lra.
  - intros i t Hi Ht _. rewrite G0. destruct (Rlt_dec (x0 + x1 - 0) (yield_limit s)); [|lra]. pose proof (B t). lra.
  - intros i d k Hi Hd Hk. unfold smooth_slip. cbv zeta. right.
    assert (X : repeat_samples Nt (fun t => u 2%nat t - g i) = fun k => u 2%nat (k mod Nt)%nat) by (extensionality j; unfold repeat_samples; rewrite G0; ring). rewrite X.
    assert (Y : repeat_samples Nt (u d) = fun _ => 0) by (extensionality j; unfold repeat_samples; apply Ut; exact Hd). rewrite Y.
    assert (F : forall j, 0 < cycle_force s (x0 + x1 - g i) (u 2%nat (j mod Nt)%nat)).
    { intros j. rewrite G0. unfold cycle_force. destruct (Rlt_dec (x0 + x1 - 0) (yield_limit s)); [|lra]. apply hertz_pos; [apply effective_pos; exact Hs|apply Hs|apply B]. }
    assert (Z : match k with O => 0 | S j => cycle_friction s mu (x0 + x1 - g i) (fun k0 => u 2%nat (k0 mod Nt)%nat) (fun _ => 0) 0 j end = 0).
    { destruct k; [reflexivity|]. unfold cycle_friction. apply mindlin_rest; [|reflexivity]. intros j. specialize (F j). nra. }
    rewrite Z. replace (0 - match k with O => 0 | S _ => 0 end) with 0 by (destruct k; ring). rewrite Rmult_0_r, Rplus_0_l. specialize (F k). split; [|nra].
    rewrite G0. unfold cycle_radius. destruct (Rlt_dec (x0 + x1 - 0) (yield_limit s)); [|lra]. destruct (Rlt_dec 0 (u 2%nat (k mod Nt)%nat)) as [L|L]; [|pose proof (B (k mod Nt)%nat); lra].
    apply Rgt_not_eq. apply sqrt_lt_R0. apply Rmult_lt_0_compat; [apply Hs|exact L].
Qed.
