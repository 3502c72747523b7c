(** Tangents of the rough contact element. *)
From Coq Require Import Reals Lra Lia Arith List Bool FunctionalExtensionality.
From Verif.Lib Require Import RSum Calc Py.
From Verif.Spec Require Import Calculus Slider Rough RoughTangent.
From Verif.Model Require Import Harmonic JaxDual JaxFloat RoughContact.
From Verif.Proofs Require Import JaxDualP JaxFloatP RoughNormalP RoughStaticP SliderP TracksP.
Import ListNotations.
Open Scope R_scope.

Section Tangent.
  Variables (k : nat) (v : vec) (t0 : R).
  Notation near := (near t0). Notation tv := (tv k v t0). Notation still := (still t0).
  Variable s : solid.
  Hypothesis Hs : physical s.
  Let m := mat_of s. Let E := effective_modulus s. Let yl := yield_limit s. Let Re := s_R s.
  Let Hm : good_material m := mat_good s Hs.
  Let HE : 0 < E := effective_pos s Hs.
  Let HR : 0 < Re. Proof. apply Hs. Qed.
  Let Hdy : 0 < yield_interference s := yield_pos s Hs.
  Let Hyl : 0 < yl. Proof. unfold yl, yield_limit. lra. Qed.
  Let mE : m_Estar m = E. Proof. apply (mat_spec s Hs). Qed.
  Let mR : m_Re m = Re. Proof. apply (mat_spec s Hs). Qed.
  Let mdy : m_dy m = yield_interference s. Proof. apply (mat_spec s Hs). Qed.

  (** ---- elastic ---- *)
  Lemma el_closed un x : tv un x -> 0 < x -> exists f a, tv (fun t => n_fn (normal_el m (un t))) f /\ tv (fun t => n_a (normal_el m (un t))) a.
  Proof.
    intros Hu Hx. pose proof (tv_pos_part k v t0 un x Hu Hx) as P. cbn [normal_el n_fn n_a].
    do 2 eexists. split.
    - apply tv_scal. apply (tv_pow k v t0 (fun t => fdivc (fwhere (fle (fconst 0) (un t)) (un t) (fconst 0)) 2)); [apply tv_divc; exact P|lra].
    - eapply tv_near; [|apply (tv_sqrt k v t0 (fun t => fscal (2 * m_Re m) (fdivc (fwhere (fle (fconst 0) (un t)) (un t) (fconst 0)) 2))); [apply tv_scal; apply tv_divc; exact P|]].
      + eapply near_impl; [|exact (tv_lt k v t0 _ un 0 x (tv_const k v t0 0) Hu Hx)]. intros t ->. reflexivity.
      + rewrite mR. apply Rmult_lt_0_compat; lra.
  Qed.
  Lemma el_open un x : tv un x -> x < 0 -> still (fun t => n_fn (normal_el m (un t))) 0 /\ still (fun t => n_a (normal_el m (un t))) 0.
  Proof.
    intros Hu Hx. pose proof (neg_part k v t0 un x Hu Hx) as P. cbn [normal_el n_fn n_a]. split.
    - eapply (still_near t0 (fun _ => fscal (4 * (2 * m_Estar m) * sqrt (2 * m_Re m) / 3) (fpow (fdivc (fconst 0) 2) (3/2)))); [eapply near_impl; [|exact P]; intros t ->; reflexivity|].
      assert (V0 : fv (fdivc (fconst 0) 2) 0) by (eapply fv_eq; [apply fv_divc; apply fv_const|field]). split.
      + apply near_all. intros _. eapply fv_eq; [apply fv_scal; apply fv_pow0; exact V0|ring].
      + assert (Vp : fv (fpow (fdivc (fconst 0) 2) (3/2)) 0) by (apply fv_pow0; exact V0). unfold fscal, fun1 at 1. rewrite Vp. cbn [ftan].
        assert (Tp : ftan (fpow (fdivc (fconst 0) 2) (3/2)) = Some (fun i => 0 * (/ 2 * 0))).
        { unfold fpow, fun1 at 1. rewrite V0. unfold powr. rewrite (proj2 (Rltb_false 0 0)) by lra. rewrite (proj2 (Reqb_true_iff 0 0)) by reflexivity. rewrite (proj2 (Rltb_true 1 (3/2))) by lra. cbn. reflexivity. }
        rewrite Tp. eexists. split; [reflexivity|]. intros i. cbv beta. ring.
    - eapply (still_near t0 (fun _ => fconst 0)); [|apply still_const]. eapply near_impl; [|exact (tv_not_lt k v t0 (fun _ => fconst 0) un 0 x (tv_const k v t0 0) Hu Hx)]. intros t ->. reflexivity.
  Qed.

  (** ---- plastic ---- *)
  Lemma pl_upsilon pu x : tv pu x -> exists a, tv (fun t => upsilon m (pu t)) a.
  Proof.
    intros H. unfold upsilon. destruct (Rltb _ _); eexists; [apply tv_const|].
    apply tv_divc. apply tv_scal. apply tv_cpow. apply (tv_sub k v t0 (fun _ => fconst 1)); [apply tv_const|]. apply tv_divc. apply tv_divc. apply (tv_sub k v t0 pu (fun _ => fconst (m_dy m))); [exact H|apply tv_const].
  Qed.
  Lemma pl_radius un x : tv un x -> 0 < x -> exists a, tv (fun t => plastic_radius m (un t)) a.
  Proof.
    intros Hu Hx. unfold plastic_radius. pose proof (tv_pos_part k v t0 un x Hu Hx) as P. set (pu := fun t => fwhere (fle (fconst 0) (un t)) (un t) (fconst 0)) in *.
    destruct (pl_upsilon pu x P) as (u & Hup).
    assert (A : tv (fun t => fsqrt (fscal (2 * m_Re m) (fdivc (pu t) 2))) (sqrt (2 * m_Re m * (x / 2)))).
    { apply (tv_sqrt k v t0 (fun t => fscal (2 * m_Re m) (fdivc (pu t) 2))); [apply tv_scal; apply tv_divc; exact P|]. rewrite mR. apply Rmult_lt_0_compat; lra. }
    assert (X : 0 < x / m_dy m) by (rewrite mdy; apply Rdiv_lt_0_compat; assumption).
    set (c := 2 * m_Re m * (PI * hard_C (m_poisson m) * m_Sys m / (2 * 2 * m_Estar m))). set (B := 14/100 * exp (23 * m_Sys m / (2 * m_Estar m))).
    set (ae := fun t => fsqrt (fscal (2 * m_Re m) (fdivc (pu t) 2))) in *.
    set (sq := fun t => fmul (fdivc (pu t) (m_dy m)) (fpow (fdivc (fdivc (pu t) (m_dy m)) (19/10)) B)).
    assert (Q : tv sq (x / m_dy m * Rpower (x / m_dy m / (19/10)) B)).
    { apply (tv_mul k v t0 (fun t => fdivc (pu t) (m_dy m))); [apply tv_divc; exact P|]. apply (tv_pow k v t0 (fun t => fdivc (fdivc (pu t) (m_dy m)) (19/10))); [apply tv_divc; apply tv_divc; exact P|]. apply Rdiv_lt_0_compat; lra. }
    assert (Q0 : 0 < x / m_dy m * Rpower (x / m_dy m / (19/10)) B) by (apply Rmult_lt_0_compat; [exact X|apply Rpower_pos]).
    eexists. exact (tv_add k v t0 ae _ _ _ A (tv_mul k v t0 _ _ _ _ (tv_sub k v t0 _ ae _ _ (tv_scal k v t0 c _ _ (tv_sqrt k v t0 sq _ Q Q0)) A) (tv_exp k v t0 _ _ Hup))).
  Qed.
  Lemma pl_tv un x : tv un x -> 0 < x -> exists f a, tv (fun t => n_fn (normal_pl m (un t))) f /\ tv (fun t => n_a (normal_pl m (un t))) a.
  Proof.
    intros Hu Hx. destruct (pl_radius un x Hu Hx) as (a & Ha). cbn [normal_pl n_fn n_a]. pose proof (tv_pos_part k v t0 un x Hu Hx) as P. set (pu := fun t => fwhere (fle (fconst 0) (un t)) (un t) (fconst 0)) in *.
    assert (X : tv (fun t => fdivc (pu t) (m_dy m)) (x / m_dy m)) by (apply tv_divc; exact P). assert (X0 : 0 < x / m_dy m) by (rewrite mdy; apply Rdiv_lt_0_compat; assumption).
    set (xx := fun t => fdivc (pu t) (m_dy m)) in *.
    assert (FP : exists b, tv (fun t => fscal (4/3 * (2 * m_Re m / (2 * m_Estar m)) ^ 2 * (hard_C (m_poisson m) * PI * m_Sys m / 2) ^ 3)
      (fadd (fmul (fexp (fscal (- (25/100)) (fpow (xx t) (5/12)))) (fpow (xx t) (3/2)))
            (fmul (fmul (fdivc (fscal 4 (fsub (fconst (284/100)) (fscal (92/100) (fsub (fconst 1) (fcos (fdivc (fscal PI (plastic_radius m (un t))) (2 * m_Re m))))))) (hard_C (m_poisson m)))
               (fsub (fconst 1) (fexp (fscal (- (1/25)) (fpow (xx t) (5/9)))))) (xx t)))) b).
    { eexists. apply tv_scal. apply (tv_add k v t0 (fun t => fmul (fexp (fscal (- (25/100)) (fpow (xx t) (5/12)))) (fpow (xx t) (3/2)))).
      - apply (tv_mul k v t0 (fun t => fexp (fscal (- (25/100)) (fpow (xx t) (5/12))))); [apply tv_exp; apply tv_scal; exact (tv_pow k v t0 xx _ _ X X0)|exact (tv_pow k v t0 xx _ _ X X0)].
      - apply (tv_mul k v t0 (fun t => fmul (fdivc (fscal 4 (fsub (fconst (284/100)) (fscal (92/100) (fsub (fconst 1) (fcos (fdivc (fscal PI (plastic_radius m (un t))) (2 * m_Re m))))))) (hard_C (m_poisson m)))
               (fsub (fconst 1) (fexp (fscal (- (1/25)) (fpow (xx t) (5/9)))))) xx); [|exact X].
        apply (tv_mul k v t0 (fun t => fdivc (fscal 4 (fsub (fconst (284/100)) (fscal (92/100) (fsub (fconst 1) (fcos (fdivc (fscal PI (plastic_radius m (un t))) (2 * m_Re m))))))) (hard_C (m_poisson m)))
               (fun t => fsub (fconst 1) (fexp (fscal (- (1/25)) (fpow (xx t) (5/9)))))).
        + apply tv_divc. apply tv_scal. apply (tv_sub k v t0 (fun _ => fconst (284/100))); [apply tv_const|]. apply tv_scal. apply (tv_sub k v t0 (fun _ => fconst 1)); [apply tv_const|]. apply tv_cos. apply tv_divc. apply tv_scal. exact Ha.
        + apply (tv_sub k v t0 (fun _ => fconst 1)); [apply tv_const|]. apply tv_exp. apply tv_scal. exact (tv_pow k v t0 xx _ _ X X0). }
    destruct FP as (b & FP).
    do 2 eexists. split; [|exact Ha].
    eapply (tv_add k v t0 _ (fun t => fscal _ (fsub (fscal _ (fpow (fdivc (un t) 2) (3/2))) _))); [exact FP|]. apply tv_scal.
    eapply (tv_sub k v t0 (fun t => fscal _ (fpow (fdivc (un t) 2) (3/2)))); [|exact FP]. apply tv_scal. apply (tv_pow k v t0 (fun t => fdivc (un t) 2)); [apply tv_divc; exact Hu|lra].
  Qed.

  (** ---- unloading ---- *)
  Section Un.
    Variables (un deltam Fm : R -> fdual) (x d F : R).
    Hypothesis Hu : tv un x.
    Hypothesis Hd : tv deltam d.
    Hypothesis HF : tv Fm F.
    Let db := permanent E Re d F.

    Lemma un_bar : 0 < d -> tv (fun t => n_deltabar (normal_un m (un t) (deltam t) (Fm t))) db.
    Proof.
      intros Hdp. cbn [normal_un n_deltabar]. unfold db, permanent. apply (tv_mul k v t0 deltam); [exact Hd|]. apply (tv_sub k v t0 (fun _ => fconst 1)); [apply tv_const|].
      pose proof (hertz_power m d Hdp) as HP. rewrite mE, mR in HP. pose proof (hertz_pos E Re d HE HR Hdp) as H0.
      apply (tv_div k v t0 Fm); [exact HF| |lra]. rewrite <- HP. rewrite mE, mR. apply tv_scal. apply (tv_pow k v t0 deltam); assumption.
    Qed.
    Lemma un_open : 0 < d -> x < db -> still (fun t => n_fn (normal_un m (un t) (deltam t) (Fm t))) 0 /\ still (fun t => n_a (normal_un m (un t) (deltam t) (Fm t))) 0.
    Proof.
      intros Hdp Hx. pose proof (un_bar Hdp) as B. cbn [normal_un n_fn n_a n_deltabar] in *. set (b := fun t => fmul (deltam t) _) in B. change (tv b db) in B.
      assert (D : tv (fun t => fsub (un t) (b t)) (x - db)) by (apply (tv_sub k v t0 un b); assumption).
      pose proof (neg_part k v t0 _ _ D ltac:(lra)) as P. split; (eapply (still_near t0 (fun _ => fconst 0)); [|apply still_const]); (eapply near_impl; [|exact P]); intros t Ht; fold (b t); rewrite Ht;
        rewrite (flt_v _ _ 0 0 (fv_const 0) (fv_const 0)), (proj2 (Rltb_false 0 0)) by lra; reflexivity.
    Qed.
    Lemma un_never : d < 0 -> still (fun t => n_fn (normal_un m (un t) (deltam t) (Fm t))) 0 /\ still (fun t => n_a (normal_un m (un t) (deltam t) (Fm t))) 0.
    Proof.
      intros Hdn. assert (N : near (fun t => n_fn (normal_un m (un t) (deltam t) (Fm t)) = fconst 0 /\ n_a (normal_un m (un t) (deltam t) (Fm t)) = fconst 0)).
      { eapply near_impl; [|exact (tv_below k v t0 deltam (fun _ => fconst 0) d 0 Hd (tv_const k v t0 0) Hdn)]. intros t (p & q & A & B & C). apply (fv_unique _ 0 q (fv_const 0)) in B. subst q.
        cbn [normal_un n_fn n_a].
        assert (Z : fval (fmul (deltam t) (fsub (fconst 1) (fdiv (Fm t) (fscal (4/3 * m_Estar m * sqrt (m_Re m)) (fpow (deltam t) (3/2)))))) = None).
        { rewrite (fpow_neg (deltam t) p (3/2) A C). cbn [fscal fun1 fnan fval]. unfold fdiv, fun2. cbn [fval fnan]. destruct (fval (Fm t)); cbn [fval fnan]; unfold fsub, fmul, fun2; cbn; destruct (fval (deltam t)); reflexivity. }
        set (b := fmul (deltam t) _) in *. clearbody b. assert (L : fle (fconst 0) (fsub (un t) b) = false) by (unfold fle, fsub, fun2; rewrite Z; destruct (fval (un t)); reflexivity).
        rewrite L. cbn [fwhere]. rewrite (flt_v _ _ 0 0 (fv_const 0) (fv_const 0)), (proj2 (Rltb_false 0 0)) by lra. cbn [fwhere]. split; reflexivity. }
      split; (eapply (still_near t0 (fun _ => fconst 0)); [|apply still_const]); (eapply near_impl; [|exact N]); intros t [A B]; symmetry; assumption.
    Qed.
    Lemma un_closed : 0 < d -> 0 < F -> db < x -> exists f a, tv (fun t => n_fn (normal_un m (un t) (deltam t) (Fm t))) f /\ tv (fun t => n_a (normal_un m (un t) (deltam t) (Fm t))) a /\ 0 < a.
    Proof.
      intros Hdp HFp Hx. pose proof (un_bar Hdp) as B. destruct (permanent_gap m Hm d F Hdp HFp) as [_ G]. rewrite mE, mR in G. fold db in G. pose proof (flat_radius_pos m Hm d F Hdp HFp) as FR. unfold flat_radius in FR. rewrite mE, mR in FR. fold db in FR.
      cbn [normal_un n_fn n_a n_deltabar] in *. set (b := fun t => fmul (deltam t) _) in B. change (tv b db) in B.
      assert (D : tv (fun t => fsub (un t) (b t)) (x - db)) by (apply (tv_sub k v t0 un b); assumption).
      assert (D' : tv (fun t => fsub (deltam t) (b t)) (d - db)) by (apply (tv_sub k v t0 deltam b); assumption).
      pose proof (tv_pos_part k v t0 _ _ D ltac:(lra)) as P. pose proof (tv_pos_part k v t0 _ _ D' ltac:(lra)) as P'.
      set (pu := fun t => fwhere (fle (fconst 0) (fsub (un t) (b t))) (fsub (un t) (b t)) (fconst 0)) in *. set (pd := fun t => fwhere (fle (fconst 0) (fsub (deltam t) (b t))) (fsub (deltam t) (b t)) (fconst 0)) in *.
      assert (Rb : tv (fun t => fdiv (fipow (Fm t) 2) (fscal ((4/3 * m_Estar m) ^ 2) (fipow (pd t) 3))) (F ^ 2 / ((4/3 * E) ^ 2 * (d - db) ^ 3))).
      { rewrite mE. apply (tv_div k v t0 (fun t => fipow (Fm t) 2)); [apply tv_ipow; exact HF|apply tv_scal; apply tv_ipow; exact P'|]. apply Rgt_not_eq. apply Rmult_lt_0_compat; apply pow_lt; lra. }
      set (rb := fun t => fdiv (fipow (Fm t) 2) (fscal ((4/3 * m_Estar m) ^ 2) (fipow (pd t) 3))) in *.
      pose proof (tv_lt k v t0 (fun _ => fconst 0) pu 0 (x - db) (tv_const k v t0 0) P ltac:(lra)) as L.
      assert (PA : 0 < F ^ 2 / ((4/3 * E) ^ 2 * (d - db) ^ 3) * (x - db)) by (apply Rmult_lt_0_compat; [exact FR|lra]).
      eexists. exists (sqrt (F ^ 2 / ((4/3 * E) ^ 2 * (d - db) ^ 3) * (x - db))). split; [|split; [|apply sqrt_lt_R0; exact PA]].
      - eapply (tv_near k v t0 (fun t => fmul (fscal (4/3 * m_Estar m) (fsqrt (rb t))) (fpow (pu t) (3/2)))); [eapply near_impl; [|exact L]; intros t Ht; change (fwhere (fle (fconst 0) (fsub (un t) _)) _ (fconst 0)) with (pu t); rewrite Ht; reflexivity|].
        apply (tv_mul k v t0 (fun t => fscal (4/3 * m_Estar m) (fsqrt (rb t)))); [apply tv_scal; exact (tv_sqrt k v t0 rb _ Rb FR)|apply (tv_pow k v t0 pu _ _ P); lra].
      - eapply (tv_near k v t0 (fun t => fsqrt (fmul (rb t) (pu t)))); [eapply near_impl; [|exact L]; intros t Ht; change (fwhere (fle (fconst 0) (fsub (un t) _)) _ (fconst 0)) with (pu t); rewrite Ht; reflexivity|].
        apply (tv_sqrt k v t0 (fun t => fmul (rb t) (pu t))); [apply (tv_mul k v t0 rb); [exact Rb|exact P]|exact PA].
    Qed.
  End Un.

  (** values and derivatives of one asperity; it does not move if its contact is open *)
  Definition carried (fn a : R -> fdual) (f r : R) : Prop := tv fn f /\ tv a r /\ (r = 0 -> still fn 0 /\ still a 0).

  Lemma carried_still fn a f r : still fn 0 -> still a 0 -> fv (fn t0) f -> fv (a t0) r -> carried fn a f r.
  Proof.
    intros H1 H2 V1 V2. rewrite (fv_unique _ _ _ V1 (near_here t0 _ (proj1 H1))), (fv_unique _ _ _ V2 (near_here t0 _ (proj1 H2))).
    split; [apply still_tv; exact H1|]. split; [apply still_tv; exact H2|]. intros _. split; assumption.
  Qed.
  Lemma carried_tv fn a f r f' r' : tv fn f' -> tv a r' -> fv (fn t0) f -> fv (a t0) r -> r <> 0 -> carried fn a f r.
  Proof.
    intros H1 H2 V1 V2 Hr. rewrite (fv_unique _ _ _ V1 (tv_fv k v t0 _ _ H1)). pose proof (fv_unique _ _ _ V2 (tv_fv k v t0 _ _ H2)) as Er. rewrite Er in *.
    split; [exact H1|]. split; [exact H2|]. intros Z. contradiction.
  Qed.

  Lemma general_tv un x d F Fm : tv un x -> tv Fm F -> mem_ok s d F -> smooth_normal s d F x ->
    carried (fun t => n_fn (normal_general m (un t) (fconst d) (Fm t))) (fun t => n_a (normal_general m (un t) (fconst d) (Fm t))) (asperity_force s d F x) (asperity_radius s d F x).
  Proof.
    intros Hu HF Hok Hsm. destruct (general_value s Hs (un t0) (fconst d) (Fm t0) x d F (tv_fv k v t0 _ _ Hu) (fv_const d) (tv_fv k v t0 _ _ HF) Hok) as [Vf Va].
    assert (Edy : 19/10 * m_dy m = yl) by (rewrite mdy; reflexivity). pose proof (tv_const k v t0) as TC.
    destruct Hsm as [[Hmax Hx0]|[Hmax|(Hd & Hx & Hp)]].
    - pose proof (Rmax_l d x). pose proof (Rmax_r d x).
      assert (G : near (fun t => normal_el m (un t) = normal_general m (un t) (fconst d) (Fm t))).
      { eapply near_impl; [|exact (near_and t0 _ _ (tv_lt k v t0 un (fun _ => fconst yl) x yl Hu (TC yl) ltac:(fold yl in Hmax; lra)) (tv_not_lt k v t0 (fun _ => fconst yl) un yl x (TC yl) Hu ltac:(fold yl in Hmax; lra)))].
        intros t [A B]. unfold normal_general. rewrite Edy, A, B. rewrite (flt_v (fconst d) (fconst yl) d yl (fv_const d) (fv_const yl)), (proj2 (Rltb_true d yl)) by (fold yl in Hmax; lra). rewrite andb_false_r. cbn [andb]. unfold normal_where. cbn [fwhere]. destruct (normal_el m (un t)); reflexivity. }
      assert (G1 : near (fun t => n_fn (normal_el m (un t)) = n_fn (normal_general m (un t) (fconst d) (Fm t)))) by (eapply near_impl; [|exact G]; intros t ->; reflexivity).
      assert (G2 : near (fun t => n_a (normal_el m (un t)) = n_a (normal_general m (un t) (fconst d) (Fm t)))) by (eapply near_impl; [|exact G]; intros t ->; reflexivity).
      destruct (Rlt_or_le x 0) as [Hneg|Hge].
      + destruct (el_open un x Hu Hneg) as [S1 S2]. exact (carried_still _ _ _ _ (still_near t0 _ _ _ G1 S1) (still_near t0 _ _ _ G2 S2) Vf Va).
      + destruct (el_closed un x Hu ltac:(lra)) as (f' & a' & T1 & T2). apply (carried_tv _ _ _ _ _ _ (tv_near k v t0 _ _ _ G1 T1) (tv_near k v t0 _ _ _ G2 T2) Vf Va).
        unfold asperity_radius. destruct (Rlt_dec (Rmax d x) (yield_limit s)); [|contradiction]. destruct (Rlt_dec 0 x); [|lra]. apply Rgt_not_eq. apply sqrt_lt_R0. apply Rmult_lt_0_compat; [exact HR|lra].
    - pose proof (Rmax_l d (yield_limit s)). pose proof (Rmax_r d (yield_limit s)). fold yl in H0, Hmax, H.
      assert (G : near (fun t => normal_pl m (un t) = normal_general m (un t) (fconst d) (Fm t))).
      { eapply near_impl; [|exact (near_and t0 _ _ (tv_lt k v t0 (fun _ => fconst d) un d x (TC d) Hu ltac:(lra)) (tv_lt k v t0 (fun _ => fconst yl) un yl x (TC yl) Hu ltac:(lra)))].
        intros t [A B]. unfold normal_general. rewrite Edy, A, B. cbn [andb]. unfold normal_where. cbn [fwhere]. destruct (normal_pl m (un t)); reflexivity. }
      destruct (pl_tv un x Hu ltac:(lra)) as (f' & a' & T1 & T2).
      eapply carried_tv; [eapply tv_near; [|exact T1]; eapply near_impl; [|exact G]; intros t ->; reflexivity|eapply tv_near; [|exact T2]; eapply near_impl; [|exact G]; intros t ->; reflexivity|exact Vf|exact Va|].
      unfold asperity_radius. fold yl. destruct (Rlt_dec (Rmax d x) yl) as [Z|_]; [pose proof (Rmax_r d x); lra|]. destruct (Rlt_dec (Rmax d yl) x); [|contradiction].
      pose proof (plastic_radius_pos s Hs x ltac:(fold yl; lra)). lra.
    - fold yl in Hd. assert (Hdp : 0 < d) by lra.
      assert (G : near (fun t => normal_un m (un t) (fconst d) (Fm t) = normal_general m (un t) (fconst d) (Fm t))).
      { eapply near_impl; [|exact (tv_not_lt k v t0 (fun _ => fconst d) un d x (TC d) Hu Hx)].
        intros t A. unfold normal_general. rewrite Edy, A. rewrite (flt_v (fconst d) (fconst yl) d yl (fv_const d) (fv_const yl)), (proj2 (Rltb_false d yl)) by lra. rewrite andb_false_r. cbn [andb]. unfold normal_where. cbn [fwhere]. destruct (normal_un m (un t) (fconst d) (Fm t)); reflexivity. }
      assert (G1 : near (fun t => n_fn (normal_un m (un t) (fconst d) (Fm t)) = n_fn (normal_general m (un t) (fconst d) (Fm t)))) by (eapply near_impl; [|exact G]; intros t ->; reflexivity).
      assert (G2 : near (fun t => n_a (normal_un m (un t) (fconst d) (Fm t)) = n_a (normal_general m (un t) (fconst d) (Fm t)))) by (eapply near_impl; [|exact G]; intros t ->; reflexivity).
      destruct (Rlt_or_le x (permanent (effective_modulus s) (s_R s) d F)) as [Ho|Hc].
      + destruct (un_open un (fun _ => fconst d) Fm x d F Hu (TC d) HF Hdp Ho) as [S1 S2]. exact (carried_still _ _ _ _ (still_near t0 _ _ _ G1 S1) (still_near t0 _ _ _ G2 S2) Vf Va).
      + pose proof Hok as Hok'. destruct Hok as [HF0 _]. destruct (Rle_lt_or_eq_dec 0 F HF0) as [HFp|HFz].
        2:{ exfalso. assert (permanent (effective_modulus s) (s_R s) d F = d); [|lra]. unfold permanent. rewrite <- HFz. field. pose proof (hertz_pos E Re d HE HR Hdp) as Z. fold E Re. lra. }
        assert (Hpx : permanent E Re d F < x) by (destruct (Rle_lt_or_eq_dec _ _ Hc) as [Z|Z]; [exact Z|exfalso; apply Hp; symmetry; exact Z]).
        destruct (un_closed un (fun _ => fconst d) Fm x d F Hu (TC d) HF Hdp HFp Hpx) as (f' & a' & T1 & T2 & _).
        apply (carried_tv _ _ _ _ _ _ (tv_near k v t0 _ _ _ G1 T1) (tv_near k v t0 _ _ _ G2 T2) Vf Va).
        pose proof (radius_pos s Hs d F x Hok') as [_ RP]. apply Rgt_not_eq, RP.
        unfold asperity_force. fold yl. destruct (Rlt_dec (Rmax d x) yl) as [Z|_]; [pose proof (Rmax_l d x); lra|]. destruct (Rlt_dec (Rmax d yl) x) as [Z|_]; [pose proof (Rmax_l d yl); lra|].
        destruct (Rlt_dec 0 (Rmin d F)) as [_|Z]; [|exfalso; apply Z; apply Rmin_glb_lt; assumption].
        unfold solid_unloading, unloading. fold E Re in Hp, Hc |- *. destruct (Rlt_dec (permanent E Re d F) x) as [L|]; [|lra]. destruct (permanent_gap m Hm d F Hdp HFp) as [_ GG]. rewrite mE, mR in GG.
        assert (0 < (x - permanent E Re d F) / (d - permanent E Re d F)) by (apply Rdiv_lt_0_compat; lra). apply Rmult_lt_0_compat; [exact HFp|]. apply Rmult_lt_0_compat; [assumption|apply sqrt_lt_R0; assumption].
  Qed.

  (** the tangential force of one asperity, with a stored force f *)
  Definition moved (mu : R) (fxy : R -> fdual) (b r : R) : Prop := tv fxy b /\ (r = 0 \/ mu = 0 -> still fxy 0).

  Lemma tangential_tv mu uxy uxy0 fxy0 fn a u u0 f n r : tv uxy u -> tv uxy0 u0 -> tv fxy0 f -> carried fn a n r -> 0 <= mu -> near (fun t => exists c, fv (fn t) c /\ 0 <= c) ->
    let trial := f + 8 * mindlin_modulus s * r * (u - u0) in
    (r = 0 /\ (f <> 0 \/ still fxy0 f)) \/ (r <> 0 /\ trial <> mu * n /\ trial <> - (mu * n)) ->
    moved mu (fun t => tangential m mu (uxy t) (uxy0 t) (fxy0 t) (fn t) (a t)) (clamp (- (mu * n)) (mu * n) trial) r.
  Proof.
    intros Hu Hu0 Hf (Hn & Ha & Hst) Hmu Hpos trial Hc.
    assert (mG : m_Gstar m = mindlin_modulus s) by apply (mat_spec s Hs).
    assert (N0 : 0 <= mu * n). { destruct (near_here t0 _ Hpos) as (c & Hc' & C0). rewrite (fv_unique _ _ _ (tv_fv k v t0 _ _ Hn) Hc'). apply Rmult_le_pos; assumption. }
    pose proof (tangential_value m mu (uxy t0) (uxy0 t0) (fxy0 t0) (fn t0) (a t0) u u0 f n r (tv_fv k v t0 _ _ Hu) (tv_fv k v t0 _ _ Hu0) (tv_fv k v t0 _ _ Hf) (tv_fv k v t0 _ _ Hn) (tv_fv k v t0 _ _ Ha) N0) as V. rewrite mG in V. fold trial in V.
    pose proof (tv_sub k v t0 _ _ _ _ Hu Hu0) as Hdu. pose proof (tv_scal k v t0 (8 * m_Gstar m) a r Ha) as Hk.
    pose proof (tv_add k v t0 _ _ _ _ (tv_mul k v t0 _ _ _ _ Hk Hdu) Hf) as Ht. rewrite mG in Ht. replace (8 * mindlin_modulus s * r * (u - u0) + f) with trial in Ht by (unfold trial; ring).
    rewrite <- mG in Ht.
    assert (ST : still (fun t => tangential m mu (uxy t) (uxy0 t) (fxy0 t) (fn t) (a t)) 0 -> moved mu (fun t => tangential m mu (uxy t) (uxy0 t) (fxy0 t) (fn t) (a t)) (clamp (- (mu * n)) (mu * n) trial) r).
    { intros Z. rewrite (fv_unique _ _ _ V (near_here t0 _ (proj1 Z))). split; [apply still_tv; exact Z|intros _; exact Z]. }
    destruct Hc as [[Hr Hf0]|(Hr & N1 & N2)].
    - destruct (Hst Hr) as [S1 S2]. pose proof (still_scal t0 mu fn 0 S1) as S3. rewrite Rmult_0_r in S3. apply ST. destruct Hf0 as [Hf0|Sf].
      + apply (stopped_clamp k v t0 _ (fun t => fscal mu (fn t)) trial Ht); [|exact S3]. unfold trial. rewrite Hr. intros Z. apply Hf0. lra.
      + pose proof (still_scal t0 (8 * m_Gstar m) a 0 S2) as S4. rewrite Rmult_0_r in S4. pose proof (still_add t0 _ _ _ _ (still_mul0 k v t0 _ _ _ S4 Hdu) Sf) as S5.
        exact (still_clamp t0 _ (fun t => fscal mu (fn t)) _ S5 S3).
    - destruct (Req_dec mu 0) as [Z|NZ].
      + apply ST. subst mu. apply (stopped_clamp k v t0 _ (fun t => fscal 0 (fn t)) trial Ht); [intros Z; apply N1; rewrite Z; ring|]. exact (still_scal0 k v t0 fn n Hn).
      + split; [|intros [Z|Z]; contradiction]. eapply tv_eq.
        * apply (tv_clamp k v t0 _ (fun t => fscal mu (fn t)) trial (mu * n) Ht (tv_scal k v t0 mu fn n Hn)); [|exact N1|exact N2].
          eapply near_impl; [|exact Hpos]. intros t (c & A & B). exists (mu * c). split; [apply fv_scal; exact A|apply Rmult_le_pos; assumption].
        * unfold clamp. rewrite Rmax_comm, (Rmin_comm (mu * n)). reflexivity.
  Qed.
End Tangent.
