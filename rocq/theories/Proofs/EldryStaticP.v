(** Elastic dry friction elements: static evaluation, call histories, and the refuted derivative and history claims. *)
From Coq Require Import Reals Lra Lia Arith List Bool FunctionalExtensionality.
From Verif.Lib Require Import RSum Calc Py.
From Verif.Spec Require Import Harmonic Calculus Slider Elements JenkinsCalls EldryCalls.
From Verif.Model Require Import Harmonic LocalForces Jenkins Aft JaxDual JaxFriction.
From Verif.Proofs Require Import HarmonicP FourierP HarmonicOpsP AftP SliderP HysteresisP JaxDualP JaxFrictionP EldryP.
Import ListNotations.
Open Scope R_scope.

(** ---- value of the static force ---- *)
Lemma where_clamp x y : 0 <= y -> (let f := if Rltb x y then x else y in if Rltb (- y) f then f else - y) = clamp (- y) y x.
Proof.
  intros Hy. cbv zeta. unfold clamp. destruct (Rltb x y) eqn:A; [apply Rltb_true in A|apply Rltb_false in A].
  - rewrite (Rmin_right y x) by lra. destruct (Rltb (- y) x) eqn:B; [apply Rltb_true in B; rewrite Rmax_right by lra|apply Rltb_false in B; rewrite Rmax_left by lra]; reflexivity.
  - rewrite (Rmin_left y x) by lra. destruct (Rltb (- y) y) eqn:B; [apply Rltb_true in B; rewrite Rmax_right by lra|apply Rltb_false in B; rewrite Rmax_left by lra]; lra.
Qed.

Lemma ed_static_value p P unl up fp c : (0 < p)%nat -> 0 <= ep_kn P -> 0 <= ep_mu P ->
  dv (ed_static p P unl up fp c) = contact_history p (ep_kt P) (ep_kn P) (ep_mu P) (ep_gap P) (fun d _ => dv (unl d)) up c 0.
Proof.
  intros Hp Hkn Hmu. unfold ed_static, contact_history. rewrite <- (is_normal_spec p c Hp).
  destruct (is_normal p c) eqn:Hc.
  - rewrite dv_max. cbn [dv dscal dsub dconst]. rewrite contact_max by exact Hkn. rewrite is_normal_spec in Hc by exact Hp. apply Nat.eqb_eq in Hc. rewrite <- Hc. reflexivity.
  - cbv zeta. change (normal_col p c) with (normal_dof p c). unfold friction_law. cbn [slider].
    set (fn := contact_force (ep_kn P) (ep_gap P) (dv (unl (normal_dof p c)))).
    assert (E : forall a, dv (dscal a (dmax (dscal (ep_kn P) (dsub (unl (normal_dof p c)) (dconst (ep_gap P)))) (dconst 0))) = a * fn).
    { intros a. cbn [dscal dv]. rewrite dv_max. cbn [dv dscal dsub dconst]. rewrite contact_max by exact Hkn. reflexivity. }
    assert (W : forall b x y, dv (dwhere b x y) = if b then dv x else dv y) by (intros b x y; destruct b; reflexivity).
    rewrite !W, !E. cbn [dv dscal dsub dconst].
    assert (0 <= ep_mu P * fn) by (apply Rmult_le_pos; [exact Hmu|apply contact_nonneg; exact Hkn]).
    rewrite <- where_clamp by assumption. cbv zeta. rewrite Ropp_mult_distr_l. reflexivity.
Qed.

Lemma ed_force_value p ne N Q T s X upd i : (0 < p)%nat -> 0 <= ep_kn (ed_pars s) -> 0 <= ep_mu (ed_pars s) ->
  fst (snd (ed_force p ne N Q T s X upd)) i
  = rsum (p * ne) (fun d => T i d * contact_history p (ep_kt (ed_pars s)) (ep_kn (ed_pars s)) (ep_mu (ed_pars s)) (ep_gap (ed_pars s)) (fun d _ => matvec N Q X d) (ed_up s) d 0).
Proof.
  intros Hp Hkn Hmu. cbn [ed_force fst snd]. apply rsum_ext. intros d Hd. f_equal. rewrite ed_static_value by assumption. reflexivity.
Qed.

(** ---- call histories ---- *)
Section Calls.
  Variables (p ne N : nat) (Q T : mat) (kt kn mu gap : R) (u0 : option vec).
  Let run cs := ed_run p ne N Q T (ed_new kt kn mu gap u0) cs.

  Lemma run_snoc cs c : run (cs ++ [c]) = ed_do p ne N Q T (run cs) c.
  Proof. unfold run, ed_run. rewrite fold_left_app. reflexivity. Qed.

  Lemma run_state cs :
    let s := run cs in
    ep_kt (ed_pars s) = kt /\ ep_kn (ed_pars s) = kn /\ ep_gap (ed_pars s) = gap /\ ed_real_mu s = mu /\ ed_prestress_mu s = 0 /\
    ep_mu (ed_pars s) = ed_mu_after mu cs /\
    forall d, ed_up s d = match ed_recorded cs with [] => 0 | _ => matvec N Q (last (ed_recorded cs) (fun _ => 0)) d end.
  Proof.
    induction cs as [|c cs IH] using rev_ind; [cbn; repeat split; reflexivity|].
    cbv zeta in *. rewrite run_snoc. destruct IH as (A & B & C & D & E & F & G).
    unfold ed_recorded, ed_mu_after in *. rewrite !fold_left_app. cbn [fold_left].
    destruct c as [X [|]| | | |X]; cbn [ed_do ed_force fst ed_update_history ed_init_history ed_set_prestress_mu ed_reset_real_mu ed_set_mu ed_set_aft_initialize ed_pars ed_real_mu ed_prestress_mu ed_up ep_kt ep_kn ep_mu ep_gap]; repeat (split; [first [assumption|reflexivity]|]); try assumption.
    - intros d. destruct (fold_left _ cs []) as [|y l] eqn:El; [reflexivity|]. rewrite last_last. reflexivity.
    - intros d. reflexivity.
  Qed.

  Lemma mu_after_range cs : 0 <= mu -> 0 <= ed_mu_after mu cs <= mu.
  Proof.
    intros Hmu. induction cs as [|c cs IH] using rev_ind; [cbn; lra|]. unfold ed_mu_after in *. rewrite fold_left_app. cbn [fold_left]. destruct c; lra.
  Qed.

  Lemma static_after_calls cs X upd i : (0 < p)%nat -> 0 <= kn -> 0 <= mu ->
    fst (snd (ed_force p ne N Q T (run cs) X upd)) i
    = rsum (p * ne) (fun d => T i d * contact_history p kt kn (ed_mu_after mu cs) gap (fun d _ => rsum N (fun j => Q d j * X j))
        (fun d => rsum N (fun j => Q d j * last (ed_recorded cs) (fun _ => 0) j)) d 0).
  Proof.
    intros Hp Hkn Hmu. destruct (run_state cs) as (A & B & C & D & E & F & G). pose proof (mu_after_range cs Hmu).
    rewrite ed_force_value; [|exact Hp|rewrite B; exact Hkn|rewrite F; lra]. rewrite A, B, C, F. apply rsum_ext. intros d Hd. f_equal. unfold contact_history. destruct (Nat.eqb d (normal_dof p d)); [reflexivity|].
    unfold friction_law. cbn [slider]. rewrite G. unfold matvec. destruct (ed_recorded cs); [|reflexivity]. cbn [last]. rewrite (rsum_zero N (fun j => Q d j * 0)) by (intros; ring). reflexivity.
  Qed.
End Calls.

(** ---- gradient of the static force ---- *)
Lemma dgrad_congr m X x y : (forall V, dv (x V) = dv (y V)) -> (forall i, dt (x X) i = dt (y X) i) -> dgrad m x X -> dgrad m y X.
Proof.
  intros Hv Ht G g v t0 Hg Hd. eapply dlim_ext; [intros t; apply Hv|]. eapply dlim_eq; [apply (G g v t0 Hg Hd)|]. apply rsum_ext. intros j Hj. rewrite Ht. reflexivity.
Qed.

Lemma dlim_squeeze f k x : derivable_pt_lim k x 0 -> k x = 0 -> (forall t, Rabs (f t) <= k t) -> derivable_pt_lim f x 0.
Proof.
  intros Hk K0 HB eps He. destruct (Hk eps He) as [d Hd]. exists d. intros h Hh Hhd. specialize (Hd h Hh Hhd).
  assert (F0 : f x = 0). { pose proof (HB x) as B. rewrite K0 in B. pose proof (Rabs_pos (f x)). destruct (Req_dec (f x) 0); [assumption|]. pose proof (Rabs_pos_lt _ H0). lra. }
  rewrite F0, Rminus_0_r. rewrite K0, Rminus_0_r in Hd. eapply Rle_lt_trans; [|exact Hd]. rewrite Rminus_0_r. rewrite Rminus_0_r. unfold Rdiv. rewrite !Rabs_mult. apply Rmult_le_compat_r; [apply Rabs_pos|].
  eapply Rle_trans; [apply HB|apply Rle_abs].
Qed.

Section StaticGrad.
  Variables (p : nat) (P : eldry_pars) (up fp : vec) (m : nat) (X : vec).
  Hypothesis Hp : (0 < p)%nat.
  Let kt := ep_kt P. Let kn := ep_kn P. Let mu := ep_mu P. Let gap := ep_gap P.
  Hypothesis Hkn : 0 < kn.
  Hypothesis Hmu : 0 <= mu.

  Definition sN (V : vec) (c : nat) : dual := dmax (dscal kn (dsub (dseed V c) (dconst gap))) (dconst 0).
  Lemma sN_grad c : (c < m)%nat -> X c <> gap -> dlocal m (fun V => sN V c) /\ dgrad m (fun V => sN V c) X.
  Proof.
    intros Hc Hx. split.
    - intros A B E. unfold sN. rewrite !dv_max. cbn. rewrite (E c Hc). reflexivity.
    - unfold sN. apply (dgrad_max m X (fun V => dscal kn (dsub (dseed V c) (dconst gap))) (fun _ => dconst 0)).
      + intros A B E. cbn. rewrite (E c Hc). reflexivity.
      + intros A B _. reflexivity.
      + apply (dgrad_scal m X kn (fun V => dsub (dseed V c) (dconst gap))). apply (dgrad_sub m X (fun V => dseed V c) (fun _ => dconst gap)); [apply dgrad_seed; exact Hc|apply dgrad_const].
      + apply dgrad_const.
      + cbn. intros Z. apply Rmult_integral in Z. destruct Z; lra.
  Qed.
  Lemma sN_value V c : dv (sN V c) = contact_force kn gap (V c).
  Proof. unfold sN. rewrite dv_max. cbn [dv dscal dsub dconst dseed]. apply contact_max. lra. Qed.

  Lemma static_grad c : (c < m)%nat -> (normal_dof p c < m)%nat -> X (normal_dof p c) <> gap ->
    (c <> normal_dof p c -> 0 < mu * contact_force kn gap (X (normal_dof p c)) -> Rabs (kt * (X c - up c)) <> mu * contact_force kn gap (X (normal_dof p c))) ->
    dgrad m (fun V => ed_static p P (dseed V) up fp c) X.
  Proof.
    intros Hc Hn Hg Hk. unfold ed_static. destruct (is_normal p c) eqn:En.
    - rewrite is_normal_spec in En by exact Hp. apply Nat.eqb_eq in En. apply (sN_grad c Hc). rewrite En. exact Hg.
    - rewrite is_normal_spec in En by exact Hp. apply Nat.eqb_neq in En. specialize (Hk En). change (normal_col p c) with (normal_dof p c). cbv zeta.
      set (x := fun V : vec => dscal (ep_kt P) (dsub (dseed V c) (dconst (up c)))).
      set (hi := fun V : vec => dscal (ep_mu P) (sN V (normal_dof p c))).
      destruct (sN_grad _ Hn Hg) as [LN GN].
      assert (Lx : dlocal m x) by (intros A B E; cbn; rewrite (E c Hc); reflexivity).
      assert (Gx : dgrad m x X) by (apply (dgrad_scal m X (ep_kt P) (fun V => dsub (dseed V c) (dconst (up c)))); apply (dgrad_sub m X (fun V => dseed V c) (fun _ => dconst (up c))); [apply dgrad_seed; exact Hc|apply dgrad_const]).
      assert (Lh : dlocal m hi) by (intros A B E; unfold hi; cbn [dv dscal]; rewrite (LN A B E); reflexivity).
      assert (Gh : dgrad m hi X) by (apply (dgrad_scal m X (ep_mu P) (fun V => sN V (normal_dof p c))); exact GN).
      assert (Hv : forall V, dv (hi V) = mu * contact_force kn gap (V (normal_dof p c))) by (intros V; unfold hi; cbn [dv dscal]; rewrite sN_value; reflexivity).
      assert (Hpos : forall V, 0 <= dv (hi V)) by (intros V; rewrite Hv; apply Rmult_le_pos; [exact Hmu|apply contact_nonneg; lra]).
      set (f := fun V : vec => let lim := hi V in let nl := dscal (- ep_mu P) (sN V (normal_dof p c)) in let fc := dwhere (Rltb (dv (x V)) (dv lim)) (x V) lim in dwhere (Rltb (dv nl) (dv fc)) fc nl).
      change (dgrad m f X).
      assert (Enl : forall V, dscal (- ep_mu P) (sN V (normal_dof p c)) = dscal (-1) (hi V)) by (intros V; apply dual_eq; cbn; intros; ring).
      assert (Vf : forall V, dv (f V) = clamp (- dv (hi V)) (dv (hi V)) (dv (x V))).
      { intros V. unfold f. cbv zeta. rewrite Enl. rewrite <- where_clamp by apply Hpos. cbv zeta. unfold dwhere.
        replace (dv (dscal (-1) (hi V))) with (- dv (hi V)) by (cbn; ring).
        destruct (Rltb (dv (x V)) (dv (hi V))); [destruct (Rltb (- dv (hi V)) (dv (x V)))|destruct (Rltb (- dv (hi V)) (dv (hi V)))]; cbn; try reflexivity; ring. }
      destruct (Rle_lt_or_eq_dec _ _ (Hpos X)) as [Pos|Zero].
      + rewrite Hv in Pos. specialize (Hk Pos). rewrite <- Hv in Pos, Hk.
        assert (N1 : dv (x X) <> dv (hi X)) by (intros Z; apply Hk; change (kt * (X c - up c)) with (dv (x X)); rewrite Z; apply Rabs_right; lra).
        assert (N2 : dv (x X) <> - dv (hi X)) by (intros Z; apply Hk; change (kt * (X c - up c)) with (dv (x X)); rewrite Z, Rabs_Ropp; apply Rabs_right; lra).
        apply (dgrad_congr m X (fun V => dmax (dmin (x V) (hi V)) (dscal (-1) (hi V)))); [| |apply dgrad_clamp; try assumption; reflexivity].
        * intros V. rewrite Vf, dv_max, dv_min. unfold clamp. rewrite (Rmin_comm (dv (x V))), Rmax_comm. f_equal. cbn. ring.
        * intros i. unfold f. cbv zeta. rewrite Enl. unfold dwhere.
          destruct (Rltb (dv (x X)) (dv (hi X))) eqn:A; [apply Rltb_true in A|apply Rltb_false in A].
          -- rewrite (dmin_left _ _ A). destruct (Rltb (dv (dscal (-1) (hi X))) (dv (x X))) eqn:B; [apply Rltb_true in B; rewrite (dmax_left _ _ B); reflexivity|apply Rltb_false in B].
             rewrite dmax_right; [reflexivity|]. cbn [dv dscal] in *. lra.
          -- rewrite (dmin_right (x X) (hi X)) by lra. assert (B : dv (dscal (-1) (hi X)) < dv (hi X)) by (cbn [dv dscal]; lra). rewrite (proj2 (Rltb_true _ _) B), (dmax_left _ _ B). reflexivity.
      + assert (Df : forall i, dt (f X) i = - dt (hi X) i).
        { intros i. unfold f. cbv zeta. rewrite Enl. unfold dwhere. destruct (Rltb (dv (x X)) (dv (hi X))) eqn:A; [apply Rltb_true in A|].
          - rewrite (proj2 (Rltb_false _ _)); [cbn; ring|]. cbn [dv dscal]. lra.
          - rewrite (proj2 (Rltb_false _ _)); [cbn; ring|]. cbn [dv dscal]. lra. }
        intros g v t0 Hg0 Hv0. pose proof (Gh g v t0 Hg0 Hv0) as Dh. cbv beta in Dh.
        assert (H0 : dv (hi (g t0)) = 0) by (rewrite (Lh (g t0) X) by exact Hg0; symmetry; exact Zero).
        assert (Sz : rsum m (fun j => dt (hi X) j * v j) = 0) by (apply (dlim_minimum _ _ _ Dh H0); intros t; apply Hpos).
        rewrite (rsum_ext m _ (fun j => -1 * (dt (hi X) j * v j))) by (intros j Hj; rewrite Df; ring). rewrite rsum_scal_l, Sz, Rmult_0_r. rewrite Sz in Dh.
        apply (dlim_squeeze _ (fun t => dv (hi (g t))) t0 Dh H0). intros t. cbv beta. rewrite Vf. pose proof (Hpos (g t)). pose proof (clamp_range (- dv (hi (g t))) (dv (hi (g t))) (dv (x (g t))) ltac:(lra)). apply Rabs_le. lra.
  Qed.
End StaticGrad.

Lemma static_jacobian p ne N Q T s X upd : (0 < p)%nat -> 0 < ep_kn (ed_pars s) -> 0 <= ep_mu (ed_pars s) ->
  let u := fun d => rsum N (fun j => Q d j * X j) in
  let fn := fun d => contact_force (ep_kn (ed_pars s)) (ep_gap (ed_pars s)) (u (normal_dof p d)) in
  (forall d, (d < p * ne)%nat -> u (normal_dof p d) <> ep_gap (ed_pars s)) ->
  (forall d, (d < p * ne)%nat -> d <> normal_dof p d -> 0 < ep_mu (ed_pars s) * fn d ->
     Rabs (ep_kt (ed_pars s) * (u d - ed_up s d)) <> ep_mu (ed_pars s) * fn d) ->
  is_jacobian N N (fun X => fst (snd (ed_force p ne N Q T s X upd))) X (snd (snd (ed_force p ne N Q T s X upd))).
Proof.
  intros Hp Hkn Hmu u fn H1 H2 g v t0 Hg Hv i Hi. cbn [ed_force fst snd].
  set (nnl := (p * ne)%nat) in *.
  assert (Du : forall d, (d < nnl)%nat -> derivable_pt_lim (fun t => matvec N Q (g t) d) t0 (rsum N (fun j => Q d j * v j))).
  { intros d Hd. unfold matvec. apply dlim_rsum. intros j Hj. apply dlim_scal. apply Hv. exact Hj. }
  assert (G0 : forall d, (d < nnl)%nat -> matvec N Q (g t0) d = matvec N Q X d) by (intros d Hd; unfold matvec; apply rsum_ext; intros j Hj; rewrite (Hg j Hj); reflexivity).
  eapply dlim_eq.
  - unfold matvec at 1. apply dlim_rsum. intros d Hd. apply dlim_scal.
    pose proof (static_grad p (ed_pars s) (ed_up s) (ed_fp s) nnl (matvec N Q X) Hp Hkn Hmu d Hd (normal_dof_lt p ne d Hp Hd) (H1 d Hd) (H2 d Hd)) as G.
    apply (G (fun t => matvec N Q (g t)) (fun d => rsum N (fun j => Q d j * v j)) t0 G0 Du).
  - unfold matmul. cbv beta.
    rewrite (rsum_ext N (fun j => rsum nnl (fun k => rsum nnl (fun k0 => T i k0 * dt (ed_static p (ed_pars s) (dseed (matvec N Q X)) (ed_up s) (ed_fp s) k0) k) * Q k j) * v j)
                       (fun j => rsum nnl (fun d => rsum nnl (fun k => T i d * (dt (ed_static p (ed_pars s) (dseed (matvec N Q X)) (ed_up s) (ed_fp s) d) k * (Q k j * v j)))))).
    2:{ intros j Hj. rewrite <- rsum_scal_r. rewrite (rsum_swap nnl nnl). apply rsum_ext. intros k Hk. rewrite <- !rsum_scal_r. apply rsum_ext. intros d Hd. ring. }
    rewrite rsum_swap. apply rsum_ext. intros d Hd. rewrite rsum_swap. rewrite <- rsum_scal_l. apply rsum_ext. intros k Hk. rewrite !rsum_scal_l. ring.
Qed.
