(** JAX friction elements: cases and counterexamples. *)
From Coq Require Import Reals Lra Lia Arith List Bool FunctionalExtensionality.
From Verif.Lib Require Import RSum Calc Py.
From Verif.Spec Require Import Harmonic Calculus Slider Elements JenkinsCalls EldryCalls.
From Verif.Model Require Import Harmonic LocalForces Jenkins Aft JaxDual JaxFriction.
From Verif.Proofs Require Import HarmonicP FourierP HarmonicOpsP AftP SliderP HysteresisP JaxDualP JaxFrictionP EldryP EldryStaticP.
Import ListNotations.
Open Scope R_scope.

(** ---- the harmonic list [0] ---- *)
Lemma jax_aft_mean_only N nnl Q T lc U w : (0 < nnl)%nat -> jax_aft N nnl Q T lc U w [O] = Err TypeError.
Proof.
  intros Hn. unfold jax_aft. change (Nhc [O]) with (Ok 1%nat). cbn [bind]. change (aft_Nhc [O]) with 1%nat. change (Nat.eqb 1 0) with false. cbv iota.
  rewrite Nat.div_1_r. destruct (Nat.eqb_spec ((1 * nnl + 1) * 1) (1 * nnl)); [lia|reflexivity].
Qed.

(** ---- histories of plain numbers ---- *)
Lemma jj_history_value Nt (u : nat -> R) kt Fs s k : (0 < Nt)%nat -> (k < Nt)%nat ->
  dv (jj_history Nt (fun t _ => dconst (u t)) kt Fs (dconst s) k O) = jenkins_law kt Fs (repeat_samples Nt u) s (Nt + k).
Proof.
  intros HNt Hk. unfold jj_history.
  set (unl := fun (V : vec) (t c : nat) => dconst (u t)). set (start := fun V : vec => dconst s).
  set (g := fun (i c : nat) (x : dual) => dmax (dmin (dadd (dscal kt (dsub (dconst (u i)) (dconst (u (prev_row Nt i))))) x) (dconst Fs)) (dconst (- Fs))).
  rewrite (two_passes Nt g HNt (jj_body Nt (fun t _ => dconst (u t)) kt Fs) (fun _ => True)); [| |exact I|exact Hk].
  - assert (Cm : dconst (- Fs) = dscal (-1) (dconst Fs)) by (apply dual_eq; cbn; intros; ring).
    assert (Gd : forall i x, g i O x = dsl_step Nt kt (fun V k => unl V k O) (fun _ _ => dconst Fs) vzero i x) by (intros i x; unfold g, dsl_step; rewrite Cm; reflexivity).
    assert (Z : forall j, rowsteps Nt g (aset (fun _ _ => dconst 0) (Nt - 1) (fun d => dscal kt (dsub (dconst (u (Nt - 1)%nat)) (dconst s))) (Nt - 1)%nat) j 0 = dsl Nt kt (fun V k => unl V k O) (fun _ _ => dconst Fs) start vzero j).
    { induction j as [|j IH]; cbn [rowsteps dsl].
      - rewrite Gd. unfold aset. rewrite Nat.eqb_refl. reflexivity.
      - rewrite Gd. f_equal. exact IH. }
    rewrite Z. rewrite (proj1 (dsl_value Nt kt HNt _ _ _ vzero _)). reflexivity.
  - intros i ft Hi _. split; [exact I|]. unfold jj_body, aset. split; [intros c; rewrite Nat.eqb_refl; reflexivity|]. intros t c Ht. destruct (Nat.eqb_spec t i); [contradiction|reflexivity].
Qed.

Lemma jj_history_reference s Nt u cst u0 k : (0 < Nt)%nat -> (k < Nt)%nat -> 0 <= j_Fs s ->
  default_tol < Rabs (jenkins_law (j_kt s) (j_Fs s) (repeat_samples Nt u) u0 (Nt - 1)) ->
  dv (jj_history Nt (fun t _ => dconst (u t)) (j_kt s) (j_Fs s) (dconst u0) k O)
  = forces_at (jenkins_local_force_history s (rows Nt u cst) u0 2 default_tol default_tol) k.
Proof.
  intros HNt Hk HF Hst. rewrite jj_history_value by assumption.
  destruct (history_steady s Nt u cst u0 2 HNt HF (le_n 2) Hst) as (s' & os & E & L & S). rewrite E. cbn [forces_at].
  apply (steady_state_unique Nt _ _ _ (jenkins_second_pass_steady (j_kt s) (j_Fs s) Nt u u0 HNt HF) S k Hk).
Qed.

Lemma eldry_local_history Nt p P u0 unlt unlth0 start : (0 < Nt)%nat -> (0 < p)%nat -> 0 <= ep_kn P ->
  (u0 = None /\ start = unlth0 \/ u0 = Some (inr start)) ->
  exists ft, ed_local_force_history Nt p P u0 unlt unlth0 = Ok ft /\
    forall d k, (k < Nt)%nat ->
      ft k d = contact_history p (ep_kt P) (ep_kn P) (ep_mu P) (ep_gap P) (fun d => repeat_samples Nt (fun t => unlt t d)) start d (Nt + k).
Proof.
  intros HNt Hp Hkn Hs.
  assert (V : forall d k, (k < Nt)%nat -> dv (ed_history Nt p P (fun t c => dconst (unlt t c)) (fun c => dconst (start c)) k d)
     = contact_history p (ep_kt P) (ep_kn P) (ep_mu P) (ep_gap P) (fun d => repeat_samples Nt (fun t => unlt t d)) start d (Nt + k)).
  { intros d k Hk. exact (ed_history_value Nt p P HNt Hp (fun _ t c => dconst (unlt t c)) (fun _ c => dconst (start c)) Hkn vzero k d Hk). }
  destruct Hs as [[-> ->] | ->]; (eexists; split; [reflexivity|]; intros d k Hk; apply V; exact Hk).
Qed.

(** ---- C27 ---- *)
Lemma lost_history p ne N Q T kt kn mu gap u0 cs X upd i : (0 < p)%nat -> 0 <= kn -> 0 <= mu ->
  fst (snd (ed_force p ne N Q T (ed_run p ne N Q T (ed_new kt kn mu gap u0) (cs ++ [EDForce X true])) X upd)) i
  = rsum (p * ne) (fun d => T i d * (if Nat.eqb d (normal_dof p d) then contact_force kn gap (rsum N (fun j => Q d j * X j)) else 0)).
Proof.
  intros Hp Hkn Hmu. rewrite (static_after_calls p ne N Q T kt kn mu gap u0) by assumption. apply rsum_ext. intros d Hd. f_equal. unfold contact_history.
  destruct (Nat.eqb_spec d (normal_dof p d)) as [E|E]; [rewrite <- E; reflexivity|].
  unfold friction_law. cbn [slider]. unfold ed_recorded. rewrite fold_left_app. cbn [fold_left]. rewrite last_last.
  match goal with |- clamp ?a ?b ?x = 0 => replace x with 0 by ring; assert (0 <= b) end.
  { apply Rmult_le_pos; [apply mu_after_range; exact Hmu|apply contact_nonneg; exact Hkn]. }
  unfold clamp. rewrite Rmin_right by assumption. apply Rmax_right. lra.
Qed.

(** ---- counterexample to the derivative of a separated contact ---- *)
Definition rest_pars := mkEP 1 1 1 1.
Lemma rest_jacobian_wrong :
  exists F dU dw, (forall U w, eldry_aft 2 1 2 mid mid rest_pars (Some (fun _ => 0)) U w [0;1]%nat 4 = Ok (F U w, dU U w, dw U w)) /\
    (forall U w, (forall c, (c < 3)%nat -> U (c * 2 + 1)%nat = 0) -> forall c, (c < 3)%nat -> F U w (c * 2)%nat = 0) /\
    ~ is_jacobian 6 6 (fun U => F U 1) (fun _ => 0) (dU (fun _ => 0) 1).
Proof.
  assert (Ha : admissible [0;1]%nat). { split; [discriminate|]. split; [repeat constructor; cbn; intuition discriminate|]. cbn; intuition discriminate. }
  destruct (eldry_aft_exact 2 1 2 mid mid rest_pars (Some (fun _ => 0)) [0;1]%nat 4 ltac:(lia) ltac:(lia) Ha ltac:(cbn; lia) eq_refl ltac:(cbn; lia) ltac:(cbn; lra) ltac:(cbn; lra)) as (F & dU & dw & A & B & _ & _).
  cbn [rest_pars ep_kt ep_kn ep_mu ep_gap] in B. change (length (components [0;1]%nat)) with 3%nat in B.
  exists F, dU, dw. split; [exact A|].
  assert (Z : forall U w, (forall c, (c < 3)%nat -> U (c * 2 + 1)%nat = 0) -> forall c, (c < 3)%nat -> F U w (c * 2)%nat = 0).
  { intros U w HU c Hc. replace (c * 2)%nat with (c * 2 + 0)%nat by lia. rewrite (B U w c O Hc ltac:(lia)). cbn [rsum Nat.mul Nat.add]. unfold mid at 1 3. cbn [Nat.eqb].
    match goal with |- 0 + 1 * fourier_coef 4 ?f _ + _ = 0 => assert (E : f = fun _ => 0) end.
    - extensionality n.
      pose proof (contact_coulomb 2 1 1 1 1 (fun d => repeat_samples 4 (fun n => local_motion 2 mid [0;1]%nat U d (sample_phase 4 n))) (fun _ => 0) 0 (4 + n) ltac:(lia) ltac:(lra) ltac:(lra)) as (_ & Sep & Cou).
      change (normal_dof 2 0) with 1%nat in *. specialize (Cou ltac:(lia)).
      assert (Un : repeat_samples 4 (fun n => local_motion 2 mid [0;1]%nat U 1 (sample_phase 4 n)) (4 + n) = 0).
      { unfold repeat_samples, local_motion. cbn [rsum]. unfold mid. cbn [Nat.eqb]. rewrite (series_ext [0;1]%nat (dof_coefs 2 U 1) (fun _ => 0)) by (intros c' Hc'; change (length (components [0;1]%nat)) with 3%nat in Hc'; unfold dof_coefs; apply HU; exact Hc').
        assert (S0 : forall x, series [0;1]%nat (fun _ => 0) x = 0) by (intros x; unfold series; apply rsum_zero; intros; ring). rewrite S0. ring. }
      rewrite Un in Sep. rewrite (Sep ltac:(lra)) in Cou. rewrite Rmult_0_r in Cou.
      assert (A0 : forall y, Rabs y <= 0 -> y = 0) by (intros y Hy; destruct (Req_dec y 0) as [|Hn]; [assumption|]; pose proof (Rabs_pos_lt y Hn); lra).
      exact (A0 _ Cou).
    - rewrite E. unfold fourier_coef. rewrite (rsum_zero 4) by (intros; ring). ring. }
  split; [exact Z|]. intros J.
  (* the derivative of the force is zero *)
  specialize (J (fun t j => if Nat.eqb j 0 then t else 0) (fun j => if Nat.eqb j 0 then 1 else 0) 0).
  assert (D : derivable_pt_lim (fun t => F (fun j => if Nat.eqb j 0 then t else 0) 1 0%nat) 0 (rsum 6 (fun j => dU (fun _ => 0) 1 0%nat j * (if Nat.eqb j 0 then 1 else 0)))).
  { apply J; [intros j Hj; destruct (Nat.eqb j 0); reflexivity| |lia]. intros j Hj. destruct (Nat.eqb j 0); [apply dlim_id|apply dlim_const]. }
  rewrite (rsum_single 6 0) in D; [|lia|intros j Hj Hne; destruct (Nat.eqb_spec j 0); [lia|ring]]. cbn [Nat.eqb] in D. rewrite Rmult_1_r in D.
  assert (D0 : dU (fun _ => 0) 1 O O = 0).
  { apply (uniqueness_limite (fun t => F (fun j => if Nat.eqb j 0 then t else 0) 1 O) 0); [exact D|]. eapply dlim_ext; [|apply (dlim_const 0)]. intros t. symmetry. apply (Z (fun j => if Nat.eqb j 0 then t else 0) 1 ltac:(intros c Hc; cbv beta; destruct (Nat.eqb_spec (c * 2 + 1) 0); [lia|reflexivity]) O ltac:(lia)). }
  (* the returned entry *)
  destruct (eldry_local 2 1 rest_pars (Some (fun _ => 0)) [0;1]%nat 4 ltac:(lia) ltac:(lia) Ha ltac:(cbn; lia) eq_refl ltac:(cbn; lia) ltac:(cbn; lra) ltac:(cbn; lra)) as (FL & EF & VF & DF & _).
  change (length (components [0;1]%nat)) with 3%nat in *.
  destruct (jax_aft_value 2 2 mid mid [0;1]%nat Ha ltac:(lia) ltac:(cbn; lia) (ed_local 2 rest_pars (Some (fun _ => 0)) [0;1]%nat 4) FL EF DF (fun _ => 0) 1) as (dw0 & EA & _).
  change (length (components [0;1]%nat)) with 3%nat in *.
  pose proof (A (fun _ => 0) 1) as A1. unfold eldry_aft in A1. change (2 * 1)%nat with 2%nat in A1. rewrite EA in A1. injection A1 as _ EdU _.
  rewrite <- EdU in D0. clear EdU EA A D J Z B.
  set (V0 := join 2 [0;1]%nat (loc 2 2 mid [0;1]%nat (fun _ => 0)) 1) in *.
  assert (V00 : forall j, (j < 6)%nat -> V0 j = 0).
  { intros j Hj. unfold V0, join. change (length (components [0;1]%nat)) with 3%nat. change (3 * 2)%nat with 6%nat. destruct (Nat.ltb_spec j 6); [|lia]. unfold loc, matvec. apply rsum_zero. intros; ring. }
  assert (E00 : aft_dU 2 2 3 mid mid (fun r s => dt (FL V0 (r / 2)%nat (r mod 2)%nat) s) O O = dt (FL V0 O O) O).
  { unfold aft_dU, matmul. change (3 * 2)%nat with 6%nat. rewrite (rsum_single 6 0); [|lia|].
    - rewrite (rsum_single 6 0); [|lia|].
      + unfold kron_eye. cbn. ring.
      + intros b Hb Hne. unfold kron_eye. change (0 / 2)%nat with 0%nat. change (0 mod 2)%nat with 0%nat. destruct b as [|[|[|[|[|[|b]]]]]]; try lia; cbn; ring.
    - intros a Ha' Hne. unfold kron_eye at 2. destruct a as [|[|[|[|[|[|a]]]]]]; try lia; cbn; ring. }
  assert (D1 : dt (FL V0 O O) O = 0) by (rewrite <- E00; exact D0). clear D0. rename D1 into D0.
  (* the tangents of the history *)
  destruct (ts_dual_grad [0;1]%nat 4 Ha ltac:(cbn; lia) eq_refl 7 (seeded 2)) as (unl & Eu & Vu & _).
  destruct (gfc_dual_grad [0;1]%nat 4 Ha ltac:(cbn; lia) 7 (fun V => ed_history 4 2 rest_pars (unl V) (fun _ => dconst 0))) as (F' & EF' & VF' & _).
  assert (EFF : FL V0 = F' V0). { specialize (EF V0). unfold ed_local in EF. change (2 * 1)%nat with 2%nat in EF. rewrite Eu in EF. cbn [bind] in EF. rewrite EF' in EF. injection EF as EF. symmetry. exact EF. }
  rewrite EFF in D0. rewrite (proj2 (VF' V0 O O ltac:(cbn; lia))) in D0.
  set (sl := dsl 4 1 (fun V k => unl V k O) (fun V k => dscal 1 (edN rest_pars unl V k 1)) (fun _ => dconst 0) V0).
  assert (Hist : forall k, (k < 4)%nat -> ed_history 4 2 rest_pars (unl V0) (fun _ => dconst 0) k O = sl (4 + k)%nat).
  { intros k Hk. exact (ed_history_tangential 4 2 rest_pars ltac:(lia) ltac:(lia) unl (fun _ _ => dconst 0) V0 k O Hk eq_refl). }
  assert (UV : forall t c, (t < 4)%nat -> (c < 2)%nat -> dv (unl V0 t c) = 0).
  { intros t c Ht Hc. rewrite (proj1 (Vu V0 t c Ht)). unfold series. apply rsum_zero. intros i Hi. change (length (components [0;1]%nat)) with 3%nat in Hi. cbn [seeded dseed dv]. unfold seeded, dseed. cbn [dv]. rewrite V00 by lia. ring. }
  assert (UT : forall t, (t < 4)%nat -> dt (unl V0 t O) O = 1).
  { intros t Ht. rewrite (proj2 (Vu V0 t O Ht)). unfold series. change (length (components [0;1]%nat)) with 3%nat. rewrite (rsum_single 3 0); [|lia|intros i Hi Hne; unfold seeded, dseed; cbn [dt]; destruct (Nat.eqb_spec 0 (i * 2 + 0)); [lia|ring]].
    change (nth 0 (components [0;1]%nat) (Cos O)) with (Cos O). assert (C1 : forall x, comp_fun (Cos 0) x = 1) by (intros x; cbn; rewrite Rmult_0_l; apply cos_0). unfold basis. change (nth 0 (components [0;1]%nat) (Cos O)) with (Cos O). rewrite C1. unfold seeded, dseed. cbn [dt Nat.mul Nat.add Nat.eqb]. ring. }
  assert (HN : forall t, (t < 4)%nat -> edN rest_pars unl V0 t 1 = dconst 0).
  { intros t Ht. unfold edN. apply dmax_right. cbn [rest_pars ep_kn ep_gap dscal dsub dv dconst]. rewrite UV by lia. lra. }
  assert (Tie : forall x, dv x = 0 -> dv (dmax (dmin x (dscal 1 (dconst 0))) (dscal (-1) (dscal 1 (dconst 0)))) = 0 /\ dt (dmax (dmin x (dscal 1 (dconst 0))) (dscal (-1) (dscal 1 (dconst 0)))) O = dt x O / 4).
  { intros x Hx.
    assert (M : dmin x (dscal 1 (dconst 0)) = dmean 0 x (dscal 1 (dconst 0))).
    { unfold dmin. rewrite (proj2 (Rltb_false _ _)) by (cbn; lra). rewrite (proj2 (Rltb_false _ _)) by (cbn; lra). rewrite Hx. reflexivity. }
    rewrite M. unfold dmax. rewrite (proj2 (Rltb_false _ _)) by (cbn; lra). rewrite (proj2 (Rltb_false _ _)) by (cbn; lra). cbn [dmean dv dt dscal dconst]. split; [reflexivity|]. field. }
  assert (Tan : forall k, dv (sl k) = 0 /\ 0 < dt (sl k) O).
  { assert (MU : forall k, (k mod 4 < 4)%nat) by (intros; apply Nat.mod_upper_bound; lia).
    induction k as [|k [IHv IHt]].
    - unfold sl. cbn [dsl]. unfold dsl_step. rewrite HN by lia. rewrite prev_row_0 by lia. unfold dsl_start. cbn [Nat.sub].
      match goal with |- context [dmin ?x _] => destruct (Tie x) as [T1 T2] end.
      + cbn [dadd dscal dsub dv dconst]. rewrite !UV by lia. ring.
      + rewrite T1, T2. split; [reflexivity|]. cbn [dadd dscal dsub dt dconst]. rewrite !UT by lia. lra.
    - unfold sl. cbn [dsl]. fold sl. unfold dsl_step. rewrite HN by apply MU. rewrite prev_row_mod by lia.
      match goal with |- context [dmin ?x _] => destruct (Tie x) as [T1 T2] end.
      + cbn [dadd dscal dsub dv dconst]. change (dsl _ _ _ _ _ _ k) with (sl k). rewrite !UV by (try apply MU; lia). rewrite IHv. ring.
      + rewrite T1, T2. split; [reflexivity|]. cbn [dadd dscal dsub dt dconst]. change (dsl _ _ _ _ _ _ k) with (sl k). rewrite !UT by apply MU. lra. }
  assert (Pos : 0 < coefc [0;1]%nat 4 (fun t => dt (ed_history 4 2 rest_pars (unl V0) (fun _ => dconst 0) t O) O) O).
  { unfold coefc. change (nth 0 (components [0;1]%nat) (Cos O)) with (Cos O). unfold fourier_coef. cbn [rsum]. rewrite !Hist by lia.
    assert (C1 : forall x, comp_fun (Cos 0) x = 1) by (intros x; cbn; rewrite Rmult_0_l; apply cos_0). rewrite !C1.
    pose proof (proj2 (Tan (4 + 0)%nat)). pose proof (proj2 (Tan (4 + 1)%nat)). pose proof (proj2 (Tan (4 + 2)%nat)). pose proof (proj2 (Tan (4 + 3)%nat)).
    apply Rmult_lt_0_compat; [cbn; lra|]. lra. }
  cbv beta in D0. rewrite D0 in Pos. lra.
Qed.

(** a motion with stick and slip under constant normal load 1: tangential displacement 3/4, 0, -3/4, 0 *)
Definition slip_U : vec := fun j => match j with 1 => 1 | 2 => 3 / 4 | _ => 0 end.
Lemma slip_samples n d : (n < 4)%nat -> (d < 2)%nat ->
  local_motion 2 mid [0;1]%nat slip_U d (sample_phase 4 n) = match d with O => match n with 0 => 3/4 | 2 => - (3/4) | _ => 0 end | _ => 1 end.
Proof.
  intros Hn Hd. destruct d as [|[|d]]; [| |lia].
  - assert (E : local_motion 2 mid [0;1]%nat slip_U 0 (sample_phase 4 n) = 3 / 4 * cos (sample_phase 4 n)).
    { unfold local_motion, series, components, dof_coefs, basis, slip_U, mid. cbn. rewrite ?Rmult_0_l, ?Rmult_1_l, ?cos_0. ring. }
    rewrite E. destruct n as [|[|[|[|n]]]]; [| | | |lia].
    + replace (sample_phase 4 0) with 0 by (unfold sample_phase; simpl; field). rewrite cos_0. ring.
    + replace (sample_phase 4 1) with (PI / 2) by (unfold sample_phase; simpl; field). rewrite cos_PI2. ring.
    + replace (sample_phase 4 2) with PI by (unfold sample_phase; simpl; field). rewrite cos_PI. ring.
    + replace (sample_phase 4 3) with (3 * (PI / 2)) by (unfold sample_phase; simpl; field). rewrite cos_3PI2. ring.
  - unfold local_motion, series, components, dof_coefs, basis, slip_U, mid. cbn. rewrite ?Rmult_0_l, ?Rmult_1_l, ?cos_0. ring.
Qed.

Lemma slip_case :
  let u := fun d => repeat_samples 4 (fun n => local_motion 2 mid [0;1]%nat slip_U d (sample_phase 4 n)) in
  admissible [0;1]%nat /\ (2 * list_max [0;1]%nat + 1 < 4)%nat /\ Nat.even 4 = true /\ (1 < length (components [0;1]%nat))%nat /\
  (forall d t, (d < 2 * 1)%nat -> (t < 4)%nat -> d = normal_dof 2 d -> u d t <> 0) /\
  (forall d j, (d < 2 * 1)%nat -> (j < 2 * 4)%nat -> d <> normal_dof 2 d ->
     let fn := fun k => contact_force 1 0 (u (normal_dof 2 d) k) in
     Rabs (friction_trial 1 (1/2) fn (u d) 0 j) <> 1/2 * fn j).
Proof.
  intros u. split; [|split; [cbn; lia|split; [reflexivity|split; [cbn; lia|]]]].
  { split; [discriminate|]. split; [repeat constructor; cbn; intuition discriminate|]. cbn; intuition discriminate. }
  assert (U1 : forall k, u 1%nat k = 1) by (intros k; unfold u, repeat_samples; rewrite slip_samples by (try lia; apply Nat.mod_upper_bound; lia); reflexivity).
  assert (U0 : forall k, (k < 8)%nat -> u O k = match k with 0 => 3/4 | 2 => - (3/4) | 4 => 3/4 | 6 => - (3/4) | _ => 0 end).
  { intros k Hk. unfold u, repeat_samples. rewrite slip_samples by (try lia; apply Nat.mod_upper_bound; lia). destruct k as [|[|[|[|[|[|[|[|k]]]]]]]]; try lia; reflexivity. }
  split.
  - intros d t Hd Ht En. destruct d as [|[|d]]; [cbn in En; lia| |lia]. rewrite U1. lra.
  - intros d j Hd Hj En fn. destruct d as [|[|d]]; [|cbn in En; lia|lia]. change (normal_dof 2 0) with 1%nat in fn.
    assert (F1 : forall k, fn k = 1). { intros k. unfold fn. rewrite U1. unfold contact_force. destruct (Rlt_dec 0 1); lra. }
    assert (Cl : forall x, clamp (- (1 / 2 * 1)) (1 / 2 * 1) x = Rmax (- (1/2)) (Rmin (1/2) x)) by (intros x; unfold clamp; f_equal; [lra|f_equal; lra]).
    assert (Hi : forall x, 1/2 <= x -> Rmax (- (1/2)) (Rmin (1/2) x) = 1/2) by (intros x Hx; rewrite Rmin_left by lra; apply Rmax_right; lra).
    assert (Lo : forall x, x <= -(1/2) -> Rmax (- (1/2)) (Rmin (1/2) x) = - (1/2)) by (intros x Hx; rewrite Rmin_right by lra; apply Rmax_left; lra).
    assert (Mi : forall x, -(1/2) <= x <= 1/2 -> Rmax (- (1/2)) (Rmin (1/2) x) = x) by (intros x Hx; rewrite Rmin_right by lra; apply Rmax_right; lra).
    set (L := friction_law 1 (1/2) fn (u O) 0).
    assert (L0 : L 0%nat = 1/2) by (unfold L, friction_law; cbn [slider]; rewrite !F1, Cl, !U0 by lia; apply Hi; lra).
    assert (LS : forall k, (S k < 8)%nat -> L (S k) = Rmax (- (1/2)) (Rmin (1/2) (L k + 1 * (u O (S k) - u O k)))) by (intros k Hk; unfold L, friction_law; cbn [slider]; rewrite !F1, Cl; reflexivity).
    assert (L1 : L 1%nat = -(1/4)) by (rewrite LS, L0, !U0 by lia; etransitivity; [apply Mi; lra|lra]).
    assert (L2 : L 2%nat = -(1/2)) by (rewrite LS, L1, !U0 by lia; apply Lo; lra).
    assert (L3 : L 3%nat = 1/4) by (rewrite LS, L2, !U0 by lia; etransitivity; [apply Mi; lra|lra]).
    assert (L4 : L 4%nat = 1/2) by (rewrite LS, L3, !U0 by lia; apply Hi; lra).
    assert (L5 : L 5%nat = -(1/4)) by (rewrite LS, L4, !U0 by lia; etransitivity; [apply Mi; lra|lra]).
    assert (L6 : L 6%nat = -(1/2)) by (rewrite LS, L5, !U0 by lia; apply Lo; lra).
    rewrite F1. unfold friction_trial, slider_trial. fold (friction_law 1 (1/2) fn (u O) 0). change (friction_law 1 (1 / 2) fn (u 0%nat) 0) with L.
    assert (NA : forall x, x <> 1/2 -> x <> -(1/2) -> Rabs x <> 1/2 * 1) by (intros x A B; unfold Rabs; destruct (Rcase_abs x); lra).
    destruct j as [|[|[|[|[|[|[|[|j]]]]]]]]; try lia; rewrite ?L0, ?L1, ?L2, ?L3, ?L4, ?L5, ?L6, !U0 by lia; apply NA; lra.
Qed.

(** a loaded contact: displacement (1/2, 1) from a fresh history *)
Lemma static_case :
  let u := fun d => rsum 2 (fun j => mid d j * (fun j : nat => match j with O => 1/2 | _ => 1 end) j) in
  contact_history 2 1 1 1 0 (fun d _ => u d) (fun _ => 0) 0 0 = 1/2 /\ contact_history 2 1 1 1 0 (fun d _ => u d) (fun _ => 0) 1 0 = 1.
Proof.
  intros u. assert (U0 : u 0%nat = 1/2) by (unfold u, mid; cbn; lra). assert (U1 : u 1%nat = 1) by (unfold u, mid; cbn; lra).
  unfold contact_history. change (normal_dof 2 0) with 1%nat. change (normal_dof 2 1) with 1%nat. cbn [Nat.eqb]. unfold friction_law. cbn [slider]. rewrite U0, U1. unfold contact_force. destruct (Rlt_dec 0 1); [|lra].
  split; [|lra]. unfold clamp. rewrite Rmin_right by lra. rewrite Rmax_right by lra. lra.
Qed.

Lemma history_lost_case : exists p ne N Q T kt kn mu gap u0 X, (0 < p)%nat /\ 0 < kt /\ 0 < kn /\ 0 < mu /\
  let s0 := ed_new kt kn mu gap u0 in
  let first := ed_force p ne N Q T s0 X true in
  let again := ed_force p ne N Q T (fst first) X true in
  fst (snd first) 0%nat = 1/2 /\ fst (snd again) 0%nat = 0 /\ fst (snd first) 1%nat = 1 /\ fst (snd again) 1%nat = 1.
Proof.
  set (X := fun j : nat => match j with O => 1/2 | _ => 1 end).
  exists 2%nat, 1%nat, 2%nat, mid, mid, 1, 1, 1, 0, None, X. split; [lia|]. split; [lra|]. split; [lra|]. split; [lra|]. intros s0 first again.
  assert (A : forall i, fst (snd first) i = rsum (2 * 1) (fun d => mid i d * contact_history 2 1 1 1 0 (fun d _ => rsum 2 (fun j => mid d j * X j)) (fun _ => 0) d 0)).
  { intros i. unfold first. rewrite ed_force_value by (cbn; try lra; lia). reflexivity. }
  assert (B : forall i, fst (snd again) i = rsum (2 * 1) (fun d => mid i d * (if Nat.eqb d (normal_dof 2 d) then contact_force 1 0 (rsum 2 (fun j => mid d j * X j)) else 0))).
  { intros i. exact (lost_history 2 1 2 mid mid 1 1 1 0 None [] X true i ltac:(lia) ltac:(lra) ltac:(lra)). }
  destruct static_case as [C0 C1].
  assert (R2 : forall f, rsum (2 * 1) f = 0 + f O + f 1%nat) by reflexivity. rewrite !A, !B, !R2. cbv beta.
  change (contact_history 2 1 1 1 0 (fun d _ => rsum 2 (fun j => mid d j * X j)) (fun _ => 0) 0 0 = 1/2) in C0.
  change (contact_history 2 1 1 1 0 (fun d _ => rsum 2 (fun j => mid d j * X j)) (fun _ => 0) 1 0 = 1) in C1. rewrite C0, C1. cbn [rsum].
  change (normal_dof 2 0) with 1%nat. change (normal_dof 2 1) with 1%nat. unfold mid, X. cbn [Nat.eqb]. unfold contact_force.
  destruct (Rlt_dec 0 (0 + 0 * (1 / 2) + 1 * 1)); [|lra]. repeat split; lra.
Qed.

Lemma looking_keeps p ne N Q T s before looks X Y upd : (forall c, In c looks -> exists Z, c = EDForce Z false) ->
  ed_force p ne N Q T (ed_run p ne N Q T s (before ++ looks ++ [EDForce X false])) Y upd = ed_force p ne N Q T (ed_run p ne N Q T s before) Y upd.
Proof.
  intros HL. unfold ed_run. rewrite !fold_left_app. cbn [fold_left].
  assert (E : forall l s, (forall c, In c l -> exists Z, c = EDForce Z false) -> fold_left (ed_do p ne N Q T) l s = s).
  { induction l as [|c l IH]; intros s' H; [reflexivity|]. cbn [fold_left]. destruct (H c (or_introl eq_refl)) as [Z ->]. apply IH. intros c Hc. apply H. right. exact Hc. }
  rewrite E by exact HL. reflexivity.
Qed.
