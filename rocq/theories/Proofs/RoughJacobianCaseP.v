(** Rough contact with friction switched off: the Jacobian has a tangential stiffness. *)
From Coq Require Import Reals Lra Lia Arith List Bool FunctionalExtensionality.
From Verif.Lib Require Import RSum Calc Py.
From Verif.Spec Require Import Calculus Slider Rough RoughCalls RoughTangent.
From Verif.Model Require Import Harmonic JaxDual JaxFloat RoughContact.
From Verif.Proofs Require Import JaxDualP JaxFloatP RoughNormalP RoughStaticP RoughCallsP RoughAftP RoughCasesP SliderP TracksP RoughTangentP RoughJacobianP.
Import ListNotations.
Open Scope R_scope.

Lemma tie_tangent m (c : vec) d fn a n Tn ra Ta : fv fn n -> ftan fn = Some Tn -> fv a ra -> ftan a = Some Ta ->
  exists T, ftan (tangential m 0 (fdual_of (dseed c d)) (fconst (c d)) (fconst 0) fn a) = Some T /\ T d = 8 * m_Gstar m * ra / 4.
Proof.
  intros H1 H2 H3 H4. unfold tangential.
  set (fxy := fadd (fmul (fscal (8 * m_Gstar m) a) (fsub (fdual_of (dseed c d)) (fconst (c d)))) (fconst 0)). set (fs := fscal 0 fn). set (fl := fscal (-1) fs).
  assert (A : fval fxy = Some 0 /\ exists T, ftan fxy = Some T /\ T d = 8 * m_Gstar m * ra).
  { unfold fv in H3. destruct a as [va ta]. cbn in H3, H4. subst va ta. cbn. split; [f_equal; ring|]. eexists. split; [reflexivity|]. cbv beta. rewrite Nat.eqb_refl. ring. }
  assert (B : fval fs = Some 0 /\ exists T, ftan fs = Some T /\ T d = 0).
  { unfold fv in H1. destruct fn as [va ta]. cbn in H1, H2. subst va ta. cbn. split; [f_equal; ring|]. eexists. split; [reflexivity|]. cbv beta. ring. }
  destruct A as [A1 (T1 & A2 & A3)], B as [B1 (T2 & B2 & B3)].
  assert (C : fval fl = Some 0 /\ exists T, ftan fl = Some T /\ T d = 0).
  { unfold fl. destruct fs as [va ta]. cbn in B1, B2. subst va ta. cbn. split; [f_equal; ring|]. eexists. split; [reflexivity|]. cbv beta. rewrite B3. ring. }
  destruct C as [C1 (T3 & C2 & C3)]. clearbody fl fs fxy.
  assert (E0 : Rltb 0 0 = false) by (apply Rltb_false; lra).
  assert (D : fmin fxy fs = mkF (Some 0) (Some (fun i => (T1 i + T2 i) / 2))).
  { unfold fmin, tmean. rewrite A1, B1, E0, A2, B2. reflexivity. }
  rewrite D. unfold fmax, tmean. cbn [fval ftan]. rewrite C1, E0, C2. cbn [ftan]. eexists. split; [reflexivity|]. cbv beta. rewrite A3, B3, C3. field.
Qed.

Definition one_asperity (s : solid) (mu : R) : rough := mkRough (new_material (s_E s) (s_nu s) (s_R s) (s_Et s) (s_Sy s)) 1 (fun _ => 0) (fun _ => 1) 0 TAN mu.
Definition eye : mat := fun i j => if Nat.eqb i j then 1 else 0.
Definition pressed (x : R) : vec := fun i => if Nat.eqb i 2 then x else 0.

Lemma frictionless_tie s x : physical s -> 0 < x < yield_limit s -> exists r u0 st Q T (X : vec) F J,
  let cs := [RSetPrestressMu] in
  let g := fun i => r_meso r + r_gaps r i in
  let M := fun i => memory_after s (g i) (rough_moves (r_mu r) 3 Q cs) in
  r_mat r = new_material (s_E s) (s_nu s) (s_R s) (s_Et s) (s_Sy s) /\ r_model r = TAN /\ 0 < r_mu r /\ rough_new r u0 = Ok st /\ r_n r = 1%nat /\ r_weights r O = 1 /\ g O = 0 /\
  (forall d, (d < 3)%nat -> rsum 3 (fun j => Q d j * X j) = if Nat.eqb d 2 then x else 0) /\
  smooth_normal s (mem_d (M O)) (mem_F (M O)) x /\
  (forall V upd, force_values T (snd (rough_force r 3 Q (rough_run r 3 Q st cs) V upd)) = Some (F V)) /\
  (forall V i, (i < 2)%nat -> F V i = 0) /\
  (forall upd, force_jacobian T Q (snd (rough_force r 3 Q (rough_run r 3 Q st cs) X upd)) = Some J) /\
  J O O = 8 * mindlin_modulus s * sqrt (s_R s * x) / 4 /\ 0 < J O O /\ ~ is_jacobian 3 3 F X J.
Proof.
  intros Hs Hx. set (r := one_asperity s (1/2)). destruct (rough_new r (U0Scalar 0)) as [st|] eqn:Hnew; [|discriminate].
  assert (Hmat : r_mat r = mat_of s) by reflexivity. assert (Hmodel : model_ok (r_model r)) by exact I.
  assert (Hgap : forall i, (i < r_n r)%nat -> 0 <= r_meso r + r_gaps r i) by (intros; cbn; lra). assert (Hmu : 0 <= r_mu r) by (cbn; lra).
  destruct (tracks_run s r 3 eye Hs Hmat Hgap Hmu Hmodel (U0Scalar 0) st [RSetPrestressMu] Hnew) as (Em & Hm & HM). cbv zeta in *.
  set (st' := rough_run r 3 eye st [RSetPrestressMu]) in *. change (rough_mu_after (r_mu r) [RSetPrestressMu]) with 0 in Em.
  change (rough_moves (r_mu r) 3 eye [RSetPrestressMu]) with (@nil (R * vec)) in HM.
  set (M := fun i => memory_after s (r_meso r + r_gaps r i) []). change (forall i, (i < r_n r)%nat -> holds s r st' i (M i)) in HM.
  set (X := pressed x).
  assert (El : forall V d, (d < 3)%nat -> matvec 3 eye V d = V d). { intros V d Hd. unfold matvec, eye. destruct d as [|[|[|d]]]; [| | |lia]; cbn [rsum Nat.eqb]; ring. }
  assert (M0 : mem_d (M O) = 0 /\ mem_F (M O) = 0 /\ (forall d, mem_u (M O) d = 0) /\ forall d, mem_f (M O) d = 0) by (unfold M, r, one_asperity; cbn; repeat split; try reflexivity; ring).
  destruct M0 as (Md & MF & Mu & Mf).
  assert (Sm : smooth_normal s 0 0 x). { left. split; [apply Rmax_lub_lt; lra|lra]. }
  set (res := fun V => static_force r st' (seeded_local 3 eye V)).
  assert (Fin : forall V, fv (st_f (res V) 2) (asperity_force s 0 0 (V 2%nat)) /\ forall d, (d < 2)%nat -> fv (st_f (res V) d) 0).
  { intros V. destruct (static_values s r Hs Hmat Hmodel st' (seeded_local 3 eye V) (matvec 3 eye V) M Hm (fun d => eq_refl) HM) as (_ & B & C). cbv zeta in B, C. fold (res V) in B, C. split.
    - eapply fv_eq; [exact B|]. unfold r, one_asperity. cbn [r_n rsum r_weights r_meso r_gaps]. rewrite Md, MF, El by lia. cbn [r_meso r_gaps]. replace (V 2%nat - (0 + 0)) with (V 2%nat) by ring. ring.
    - intros d Hd. destruct (C d Hd) as (f & Hf & Ef & _). eapply fv_eq; [exact Hf|]. rewrite (Ef eq_refl). unfold r, one_asperity. cbn [r_n rsum r_weights r_meso r_gaps]. rewrite Em. unfold asperity_friction. cbv zeta.
      rewrite !Rmult_0_l. unfold Slider.clamp. rewrite Ropp_0. match goal with |- context [Rmax 0 (Rmin 0 ?t)] => pose proof (Rmin_l 0 t); rewrite (Rmax_left 0 (Rmin 0 t)) by assumption end. ring. }
  set (nr := normal_general (mat_of s) (fsub (fsub (seeded_local 3 eye X 2%nat) (fconst 0)) (fconst 0)) (fconst (rs_unmax st' - 0 - 0)) (fstored (rs_Fm st' O))).
  assert (Nr : exists Tn Ta n, fv (n_fn nr) n /\ ftan (n_fn nr) = Some Tn /\ fv (n_a nr) (sqrt (s_R s * x)) /\ ftan (n_a nr) = Some Ta).
  { destruct (HM O ltac:(cbn; lia)) as (H1 & H2 & H3 & H4 & _).
    destruct (static_normal s r st' M Hs Hmat HM (fun _ => 0) 0 (fun _ => matvec 3 eye X)) with (i := O) as (K1 & K2 & _).
    - intros d Hd. apply dlim_const.
    - intros i Hi. assert (i = O) as -> by (cbn in Hi; lia). rewrite Md, MF, El by lia. unfold r, one_asperity. cbn [r_meso r_gaps]. replace (X 2%nat - (0 + 0)) with x by (unfold X, pressed; cbn; ring). exact Sm.
    - cbn; lia.
    - change (r_mat r) with (mat_of s) in K1, K2. unfold r, one_asperity in K1, K2. cbn [r_meso r_gaps] in K1, K2. fold nr in K1, K2.
      change (tv 3 (fun _ => 0) 0 (fun _ => n_fn nr) (asperity_force s (mem_d (M O)) (mem_F (M O)) (matvec 3 eye X 2%nat - (0 + 0)))) in K1.
      change (tv 3 (fun _ => 0) 0 (fun _ => n_a nr) (asperity_radius s (mem_d (M O)) (mem_F (M O)) (matvec 3 eye X 2%nat - (0 + 0)))) in K2.
      pose proof (tv_fv 3 _ 0 _ _ K1) as V1. pose proof (tv_fv 3 _ 0 _ _ K2) as V2. destruct K1 as (f1 & T1 & (_ & E1 & _) & _). destruct K2 as (f2 & T2 & (_ & E2 & _) & _).
      exists T1, T2. eexists. split; [exact V1|]. split; [exact E1|]. split; [|exact E2]. eapply fv_eq; [exact V2|].
      rewrite Md, MF, El by lia. replace (X 2%nat - (0 + 0)) with x by (unfold X, pressed; cbn; ring). unfold asperity_radius. destruct (Rlt_dec (Rmax 0 x) (yield_limit s)) as [_|N]; [|exfalso; apply N; apply Rmax_lub_lt; lra].
      destruct (Rlt_dec 0 x); [reflexivity|lra]. }
  destruct Nr as (Tn & Ta & n & N1 & N2 & N3 & N4).
  assert (Tt : forall d, (d < 2)%nat -> exists T, ftan (st_f (res X) d) = Some T /\ T d = 8 * mindlin_modulus s * sqrt (s_R s * x) / 4).
  { intros d Hd. destruct (HM O ltac:(cbn; lia)) as (H1 & H2 & H3 & H4 & H5). change (r_model r) with TAN in H5. cbv beta iota in H5.
    destruct (tie_tangent (mat_of s) (matvec 3 eye X) d (n_fn nr) (n_a nr) n Tn (sqrt (s_R s * x)) Ta N1 N2 N3 N4) as (T & ET & VT).
    assert (Ef : st_f (res X) d = fadd (fconst 0) (fscal 1 (tangential (mat_of s) 0 (fdual_of (dseed (matvec 3 eye X) d)) (fconst (matvec 3 eye X d)) (fconst 0) (n_fn nr) (n_a nr)))).
    { unfold res, static_force, tangential_part. unfold r, one_asperity. cbn [r_model st_f r_n JaxFloat.fsum r_weights r_mat r_meso r_gaps]. rewrite (proj2 (Nat.ltb_lt d 2)) by exact Hd. rewrite Em, H5, Mf, H3, Mu.
      rewrite (El X d) by lia. replace (X d) with 0 by (unfold X, pressed; destruct d as [|[|d]]; [reflexivity|reflexivity|lia]). reflexivity. }
    rewrite Ef. pose proof (tangential_value (mat_of s) 0 (fdual_of (dseed (matvec 3 eye X) d)) (fconst (matvec 3 eye X d)) (fconst 0) (n_fn nr) (n_a nr) _ _ 0 n _ eq_refl (fv_const _) (fv_const 0) N1 N3 ltac:(lra)) as V.
    set (tg := tangential _ _ _ _ _ _ _) in *. clearbody tg. destruct tg as [vt tt]. unfold fv in V. cbn in V, ET. subst vt tt. cbn. eexists. split; [reflexivity|]. cbv beta. rewrite VT. replace (m_Gstar (mat_of s)) with (mindlin_modulus s) by (symmetry; apply (mat_spec s Hs)). field. }
  destruct (Tt O ltac:(lia)) as (Tx & ETx & VTx). destruct (Tt 1%nat ltac:(lia)) as (Ty & ETy & _).
  assert (ETz : exists Tz, ftan (st_f (res X) 2) = Some Tz).
  { assert (Ef : st_f (res X) 2 = fadd (fconst 0) (fscal 1 (n_fn nr))) by reflexivity.
    rewrite Ef. clearbody nr. destruct (n_fn nr) as [vn tn]. unfold fv in N1. cbn in N1, N2. subst vn tn. cbn. eexists. reflexivity. }
  destruct ETz as (Tz & ETz).
  set (F := fun V i => matvec 3 eye (fun d => getR (fval (st_f (res V) d))) i). set (J := matmul 3 (matmul 3 eye (fun d e => getV (ftan (st_f (res X) d)) e)) eye).
  assert (F0 : forall V i, (i < 2)%nat -> F V i = 0). { intros V i Hi. unfold F. rewrite El by lia. rewrite (fv_get _ _ (proj2 (Fin V) i Hi)). reflexivity. }
  assert (J0 : J O O = 8 * mindlin_modulus s * sqrt (s_R s * x) / 4).
  { unfold J, matmul, eye. cbn [rsum Nat.eqb]. rewrite ETx. cbn [getV]. rewrite VTx. ring. }
  assert (JP : 0 < J O O).
  { rewrite J0. assert (0 < mindlin_modulus s) by (apply mindlin_modulus_pos; exact Hs). assert (0 < sqrt (s_R s * x)) by (apply sqrt_lt_R0; apply Rmult_lt_0_compat; [apply Hs|lra]).
    assert (0 < mindlin_modulus s * sqrt (s_R s * x)) by (apply Rmult_lt_0_compat; assumption). lra. }
  exists r, (U0Scalar 0), st, eye, eye, X, F, J. cbv zeta.
  split; [reflexivity|]. split; [reflexivity|]. split; [cbn; lra|]. split; [exact Hnew|]. split; [reflexivity|]. split; [reflexivity|]. split; [cbn; ring|]. split; [|split; [|split; [|split; [|split; [|split; [|split]]]]]].
  - intros d Hd. change (matvec 3 eye X d = if Nat.eqb d 2 then x else 0). rewrite El by exact Hd. reflexivity.
  - change (smooth_normal s (mem_d (M O)) (mem_F (M O)) x). rewrite Md, MF. exact Sm.
  - intros V upd. cbn [rough_force snd]. fold st'. fold (res V). unfold force_values. rewrite all_values_true; [reflexivity|]. intros d Hd. destruct (Nat.eq_dec d 2) as [->|]; eexists; [apply (proj1 (Fin V))|apply (proj2 (Fin V)); lia].
  - exact F0.
  - intros upd. cbn [rough_force snd]. fold st'. fold (res X). unfold force_jacobian. rewrite tangents_true; [reflexivity|]. intros d Hd. destruct d as [|[|[|d]]]; [eexists; exact ETx|eexists; exact ETy|eexists; exact ETz|lia].
  - exact J0.
  - exact JP.
  - intros HJ. assert (D : derivable_pt_lim (fun t => F (fun i => if Nat.eqb i 0 then t else X i) O) 0 (rsum 3 (fun j => J O j * (if Nat.eqb j 0 then 1 else 0)))).
    { apply (HJ (fun t i => if Nat.eqb i 0 then t else X i) (fun j => if Nat.eqb j 0 then 1 else 0) 0); [| |lia].
      - intros j Hj. destruct j; reflexivity.
      - intros j Hj. destruct j; cbn [Nat.eqb]; [apply dlim_id|apply dlim_const]. }
    assert (D0 : derivable_pt_lim (fun t => F (fun i => if Nat.eqb i 0 then t else X i) O) 0 0).
    { eapply dlim_ext; [|apply (dlim_const 0)]. intros t. rewrite F0 by lia. reflexivity. }
    pose proof (uniqueness_limite _ _ _ _ D D0) as U. cbn [rsum Nat.eqb] in U. lra.
Qed.


(** * Examples *)
Lemma stuck_case s x mu : physical s -> 0 < x -> x < yield_limit s -> 0 < mu ->
  smooth_normal s 0 0 x /\ smooth_friction s mu 0 0 x 0 0.
Proof.
  intros Hs Hx Hy Hmu. split; [left; split; [apply Rmax_lub_lt; lra|lra]|]. right. cbv zeta.
  assert (P : 0 < asperity_force s 0 0 x).
  { unfold asperity_force. destruct (Rlt_dec (Rmax 0 x) (yield_limit s)) as [_|N]; [|exfalso; apply N; apply Rmax_lub_lt; lra]. apply hertz_pos; [apply effective_pos; exact Hs|apply Hs|exact Hx]. }
  pose proof (Rmult_lt_0_compat mu _ Hmu P). rewrite Rmult_0_r, Rplus_0_r. split; lra.
Qed.

(** pressed beyond the yield limit to p, then further to q *)
Lemma reload_case s p q : physical s -> yield_limit s < p -> p < q ->
  let r := one_asperity s (1/2) in
  let cs := [RForce (pressed p) true] in
  let g := fun i => r_meso r + r_gaps r i in
  let M := fun i => memory_after s (g i) (rough_moves (r_mu r) 3 eye cs) in
  let u := fun d => rsum 3 (fun j => eye d j * pressed q j) in
  (forall i, (i < r_n r)%nat -> smooth_normal s (mem_d (M i)) (mem_F (M i)) (u 2%nat - g i)) /\
  (forall i d, (i < r_n r)%nat -> (d < 2)%nat -> smooth_friction s (rough_mu_after (r_mu r) cs) (mem_d (M i)) (mem_F (M i)) (u 2%nat - g i) (u d - mem_u (M i) d) (mem_f (M i) d)).
Proof.
  intros Hs Hp Hq. cbv zeta. pose proof (yield_pos s Hs) as Y. assert (YL : 0 < yield_limit s) by (unfold yield_limit; lra).
  set (M := memory_after s (0 + 0) (rough_moves (1/2) 3 eye [RForce (pressed p) true])).
  assert (U2 : forall z d, (d < 3)%nat -> rsum 3 (fun j => eye d j * pressed z j) = pressed z d). { intros z d Hd. unfold eye, pressed. destruct d as [|[|[|d]]]; [| | |lia]; cbn [rsum Nat.eqb]; ring. }
  assert (Md : mem_d M = p). { unfold M. cbn [rough_moves memory_after fold_left fst snd app remember mem_d mem_F mem_u mem_f]. rewrite U2 by lia. unfold pressed. cbn [Nat.eqb]. rewrite Rmax_right; lra. }
  assert (Mu : forall d, (d < 2)%nat -> mem_u M d = 0). { intros d Hd. unfold M. cbn [rough_moves memory_after fold_left fst snd app remember mem_d mem_F mem_u mem_f]. rewrite U2 by lia. destruct d as [|[|d]]; [reflexivity|reflexivity|lia]. }
  assert (Mf : forall d, (d < 2)%nat -> mem_f M d = 0).
  { intros d Hd. unfold M. cbn [rough_moves memory_after fold_left fst snd app remember mem_d mem_F mem_u mem_f]. rewrite !U2 by lia.
    replace (pressed p d) with 0 by (destruct d as [|[|d]]; [reflexivity|reflexivity|lia]). unfold asperity_friction. cbv zeta. set (f := asperity_force _ _ _ _).
    assert (P : 0 <= f) by (apply (force_nonneg s Hs); apply (mem_ok_start s); lra).
    unfold Slider.clamp. replace (0 + 8 * mindlin_modulus s * asperity_radius s (0 - (0 + 0)) 0 (pressed p 2%nat - (0 + 0)) * (0 - 0)) with 0 by ring. rewrite Rmin_right by lra. apply Rmax_right. lra. }
  split.
  - intros i Hi. right. left. unfold one_asperity. cbn [r_meso r_gaps r_mu]. fold M. rewrite Md, U2 by lia. unfold pressed. cbn [Nat.eqb]. apply Rmax_lub_lt; lra.
  - intros i d Hi Hd. right. unfold one_asperity. cbn [r_meso r_gaps r_mu]. fold M. cbv zeta. rewrite Md, Mf, Mu, !U2 by lia. replace (pressed q d) with 0 by (destruct d as [|[|d]]; [reflexivity|reflexivity|lia]).
    change (rough_mu_after (1/2) [RForce (pressed p) true]) with (1/2). assert (P : 0 < asperity_force s p (mem_F M) (pressed q 2%nat - (0 + 0))).
    { replace (pressed q 2%nat - (0 + 0)) with q by (unfold pressed; cbn [Nat.eqb]; ring). unfold asperity_force. destruct (Rlt_dec (Rmax p q) (yield_limit s)) as [Z|_]; [pose proof (Rmax_l p q); lra|].
      destruct (Rlt_dec (Rmax p (yield_limit s)) q) as [_|Z]; [apply plastic_pos; [exact Hs|unfold yield_limit in *; lra]|exfalso; apply Z; apply Rmax_lub_lt; lra]. }
    match goal with |- context [0 + ?a * (0 - 0)] => replace (0 + a * (0 - 0)) with 0 by ring end. split; lra.
Qed.
