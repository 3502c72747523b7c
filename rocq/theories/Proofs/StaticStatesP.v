(** Uniqueness of static states. *)
From Coq Require Import Reals List Arith Bool Lra Lia FunctionalExtensionality.
From Verif.Lib Require Import RSum Py.
From Verif.Spec Require Import Calculus Elements Slider StaticStates.
From Verif.Model Require Import Harmonic LocalForces Aft VibSys SysElements Jenkins Iwan JaxDual JaxFriction SysHistory.
From Verif.Proofs Require Import ElementsP JenkinsP IwanP EldryP EldryStaticP ContLoopP.
Import ListNotations.
Open Scope R_scope.

(** * Monotone functions *)
Definition rising (f : R -> R) : Prop := forall u v, u <= v -> f u <= f v.

Lemma rising_product f u v : rising f -> 0 <= (f u - f v) * (u - v).
Proof. intros H. destruct (Rle_dec u v) as [L|L]; [pose proof (H u v L); nra|pose proof (H v u ltac:(lra)); nra]. Qed.

Lemma rising_cube k : 0 <= k -> rising (fun u => k * u ^ 3).
Proof. intros Hk u v L. apply Rmult_le_compat_l; [exact Hk|]. assert (0 <= v ^ 3 - u ^ 3); [|lra].
  replace (v ^ 3 - u ^ 3) with ((v - u) * ((v + u / 2) ^ 2 + 3 / 4 * u ^ 2)) by field. apply Rmult_le_pos; [lra|]. pose proof (pow2_ge_0 (v + u / 2)). pose proof (pow2_ge_0 u). lra. Qed.

Lemma rising_fifth k : 0 <= k -> rising (fun u => k * u ^ 5).
Proof. intros Hk u v L. apply Rmult_le_compat_l; [exact Hk|]. assert (0 <= v ^ 5 - u ^ 5); [|lra].
  replace (v ^ 5 - u ^ 5) with ((v - u) * ((v ^ 2 + v * u / 2) ^ 2 + (u ^ 2 + v * u / 2) ^ 2 + (v * u) ^ 2 / 2)) by field.
  apply Rmult_le_pos; [lra|]. pose proof (pow2_ge_0 (v ^ 2 + v * u / 2)). pose proof (pow2_ge_0 (u ^ 2 + v * u / 2)). pose proof (pow2_ge_0 (v * u)). lra. Qed.

Lemma rising_clamp lo hi kt a b : 0 <= kt -> rising (fun u => Slider.clamp lo hi (kt * (u - a) + b)).
Proof. intros Hk u v L. unfold Slider.clamp. apply Rle_max_compat_l, Rle_min_compat_l. nra. Qed.

Lemma rising_contact kn gap : 0 <= kn -> rising (contact_force kn gap).
Proof. intros Hk u v L. unfold contact_force. destruct (Rlt_dec gap u), (Rlt_dec gap v); nra. Qed.

(** * Every element is separable *)
Definition separable (N : nat) (e : element) (n : nat) (Q T : mat) (f g : nat -> R -> R) : Prop :=
  aligned N n Q T /\ (forall d, (d < n)%nat -> rising (f d)) /\ (forall d u, (d < n)%nat -> 0 <= g d u) /\
  forall X, exists F J, element_force N e X false = Ok (e, (Some F, Some J)) /\
    (forall i, F i = rsum n (fun d => T i d * f d (matvec N Q X d))) /\
    forall i j, J i j = rsum n (fun d => T i d * g d (matvec N Q X d) * Q d j).

Lemma diag_jacobian n (T Q : mat) (v : vec) i j : matmul n (matmul n T (mdiag v)) Q i j = rsum n (fun d => T i d * v d * Q d j).
Proof.
  unfold matmul. apply rsum_ext. intros d Hd. f_equal. rewrite (rsum_single n d); [unfold mdiag; rewrite Nat.eqb_refl; reflexivity|exact Hd|].
  intros c Hc Hne. unfold mdiag. apply Nat.eqb_neq in Hne. rewrite Hne. ring.
Qed.

Lemma separable_law N n Q T (F : vec -> vec * mat) law (f g : nat -> R -> R) : aligned N n Q T -> (forall d, (d < n)%nat -> rising (f d)) -> (forall d u, (d < n)%nat -> 0 <= g d u) ->
  (forall X i, fst (F X) i = rsum n (fun d => T i d * f d (matvec N Q X d))) -> (forall X i j, snd (F X) i j = rsum n (fun d => T i d * g d (matvec N Q X d) * Q d j)) ->
  separable N (ElInstant (instantaneous_nl N n Q T F law)) n Q T f g.
Proof.
  intros A Hf Hg VF VJ. split; [exact A|]. split; [exact Hf|]. split; [exact Hg|]. intros X. exists (fst (F X)), (snd (F X)). split; [|split; [apply VF|apply VJ]].
  cbn [element_force instantaneous_nl nl_force]. destruct (F X). reflexivity.
Qed.

Lemma jenkins_separable N Q T s : resisting N (ElJenkins Q T s) -> exists f g, separable N (ElJenkins Q T s) 1 Q T f g.
Proof.
  intros (A & Hk & HF & _ & _ & Hh). destruct (j_hist s) as [[up fp]|] eqn:Eh; [|contradiction].
  exists (fun _ u => j_f (j_law (j_kt s) (j_Fs s) up fp u)), (fun _ u => let '(_, k, _, _) := j_law (j_kt s) (j_Fs s) up fp u in k).
  split; [exact A|]. split; [|split].
  - intros d _ u v L. rewrite !j_law_clamp by exact HF. apply (rising_clamp (- j_Fs s) (j_Fs s) (j_kt s) up fp Hk u v L).
  - intros d u _. unfold j_law. cbv zeta. destruct (Rltb _ _); lra.
  - intros X. cbn [element_force]. unfold j_force. rewrite Eh. unfold j_f.
    destruct (j_law (j_kt s) (j_Fs s) up fp (matvec N Q X O)) as [[[f k] a] b] eqn:E. cbn [bind fst snd]. do 2 eexists. split; [reflexivity|]. split.
    + intros i. cbn [rsum]. rewrite E. ring.
    + intros i j. cbn [rsum]. rewrite E. ring.
Qed.

Lemma iwan_separable N Q T s : resisting N (ElIwan Q T s) -> exists f g, separable N (ElIwan Q T s) 1 Q T f g.
Proof.
  intros [A H]. exists (fun _ u => rsum (iw_n s) (fun i => fst (iw_slider (iw_phi s i) (iw_up s) (iw_fs s i) u) * iw_w s i)),
    (fun _ u => rsum (iw_n s) (fun i => b2R (snd (iw_slider (iw_phi s i) (iw_up s) (iw_fs s i) u)) * iw_w s i)).
  split; [exact A|]. split; [|split].
  - intros d _ u v L. apply rsum_le. intros i Hi. destruct (H i Hi) as [H1 H2]. apply Rmult_le_compat_r; [exact H2|].
    rewrite (proj1 (iw_slider_clamp _ _ _ u H1)), (proj1 (iw_slider_clamp _ _ _ v H1)). apply (rising_clamp _ _ 1 (iw_up s) (iw_fs s i) ltac:(lra) u v L).
  - intros d u _. apply rsum_nonneg. intros i Hi. destruct (H i Hi) as [_ H2]. apply Rmult_le_pos; [|exact H2]. unfold b2R. destruct (snd _); lra.
  - intros X. cbn [element_force iw_force iw_instant_force]. do 2 eexists. split; [reflexivity|]. split; [intros i|intros i j]; cbn [rsum]; ring.
Qed.

Lemma eldry_separable N p n Q T s : resisting N (ElEldry p n Q T s) -> exists f g, separable N (ElEldry p n Q T s) (p * n) Q T f g.
Proof.
  intros (A & Hp & Hk & Hm & _). set (P := ed_pars s) in *.
  exists (fun d u => if is_normal p d then contact_force (ep_kn P) (ep_gap P) u else 0),
    (fun d u => if is_normal p d then (if Rltb 0 (ep_kn P * (u - ep_gap P)) then ep_kn P else if Rltb (ep_kn P * (u - ep_gap P)) 0 then 0 else ep_kn P / 2) else 0).
  split; [exact A|]. split; [|split].
  - intros d _. destruct (is_normal p d); [apply rising_contact; exact Hk|intros u v _; lra].
  - intros d u _. destruct (is_normal p d); [|lra]. destruct (Rltb _ _); [exact Hk|]. destruct (Rltb _ _); lra.
  - intros X. pose proof (fun i => ed_force_value p n N Q T s X false i Hp Hk ltac:(fold P; rewrite Hm; lra)) as V. fold P in V.
    assert (ES : fst (ed_force p n N Q T s X false) = s) by reflexivity.
    assert (VJ : forall i j, snd (snd (ed_force p n N Q T s X false)) i j = rsum (p * n) (fun d => T i d *
      (if is_normal p d then (if Rltb 0 (ep_kn P * (matvec N Q X d - ep_gap P)) then ep_kn P else if Rltb (ep_kn P * (matvec N Q X d - ep_gap P)) 0 then 0 else ep_kn P / 2) else 0) * Q d j)).
    { intros i j. unfold ed_force. cbn [fst snd]. rewrite <- diag_jacobian. unfold matmul. apply rsum_ext. intros d Hd. f_equal. apply rsum_ext. intros c Hc. f_equal.
      unfold ed_static. fold P. unfold mdiag. destruct (is_normal p c) eqn:Ec.
      - unfold dmax. cbn [dv dscal dsub dconst dseed]. destruct (Rltb 0 _) eqn:E1; [|destruct (Rltb _ 0) eqn:E2]; cbn [dt dscal dsub dconst dmean dseed].
        + rewrite (Nat.eqb_sym d c). destruct (Nat.eqb c d); ring.
        + destruct (Nat.eqb c d); ring.
        + rewrite (Nat.eqb_sym d c). destruct (Nat.eqb c d); field.
      - cbv zeta. rewrite Hm. match goal with |- context [dwhere (Rltb (dv ?nl) (dv ?fc)) ?fc ?nl] => assert (E : Rltb (dv nl) (dv fc) = false) end.
        { apply Rltb_false. unfold dwhere. cbn [dv dscal]. replace (0 * _) with 0 by ring. replace (- 0 * _) with 0 by ring.
          match goal with |- dv (if Rltb ?x 0 then _ else _) <= _ => destruct (Rltb x 0) eqn:E end; [apply Rltb_true in E; cbn [dv dscal dsub dconst dseed] in *; lra|cbn [dv dscal]; lra]. }
        rewrite E. cbn [dwhere dt dscal]. destruct (Nat.eqb c d); ring. }
    destruct (ed_force p n N Q T s X false) as [s' [F J]] eqn:Ef. cbn [fst snd] in *. subst s'. exists F, J. split; [cbn [element_force]; rewrite Ef; reflexivity|]. split; [|exact VJ].
    intros i. rewrite V. apply rsum_ext. intros d Hd. f_equal. unfold contact_history. rewrite <- is_normal_spec by exact Hp.
    destruct (is_normal p d) eqn:Ed.
    + rewrite is_normal_spec in Ed by exact Hp. apply Nat.eqb_eq in Ed. rewrite <- Ed. reflexivity.
    + unfold friction_law. cbn [slider]. rewrite Hm. unfold Slider.clamp. replace (0 * _) with 0 by ring. unfold Rmax, Rmin. repeat destruct (Rle_dec _ _); lra.
Qed.

Lemma element_separable N e : resisting N e -> exists n Q T f g, separable N e n Q T f g.
Proof.
  destruct e as [f|Q T s|Q T s|p n Q T s|Q T r s|Q T kt u0 Fs rf pf]; intros H.
  - destruct H as (n & Q & T & A & [(k & Hk & ->)|[(k & Hk & ->)|[(k & Hk & ->)|[(k & P & delta & Hk & ->)|(kt & Fs & chi & beta & H1 & H2 & H3 & H4 & ->)]]]]); exists n, Q, T.
    + exists (fun d u => k d * u ^ 3), (fun d u => 3 * k d * u ^ 2). apply separable_law; [exact A| | |reflexivity|intros; apply diag_jacobian].
      * intros d Hd. apply rising_cube, Hk, Hd.
      * intros d u Hd. specialize (Hk d Hd). pose proof (pow2_ge_0 u). nra.
    + exists (fun d u => k d * u ^ 5), (fun d u => 5 * k d * u ^ 4). apply separable_law; [exact A| | |reflexivity|intros; apply diag_jacobian].
      * intros d Hd. apply rising_fifth, Hk, Hd.
      * intros d u Hd. specialize (Hk d Hd). assert (0 <= u ^ 4) by (replace (u ^ 4) with ((u ^ 2) ^ 2) by ring; apply pow2_ge_0). nra.
    + exists (fun d u => k d * u ^ 3), (fun d u => 3 * k d * u ^ 2). apply separable_law; [exact A| | |reflexivity|intros; apply diag_jacobian].
      * intros d Hd. apply rising_cube, Hk, Hd.
      * intros d u Hd. specialize (Hk d Hd). pose proof (pow2_ge_0 u). nra.
    + exists (fun d u => Rmax (k d * (u - delta d) - P d) (- P d)), (fun d u => (if Rltb (- P d) (Rmax (k d * (u - delta d) - P d) (- P d)) then 1 else 0) * k d).
      apply separable_law; [exact A| | |reflexivity|intros; apply diag_jacobian].
      * intros d Hd u v L. specialize (Hk d Hd). unfold Rmax. repeat destruct (Rle_dec _ _); nra.
      * intros d u Hd. specialize (Hk d Hd). destruct (Rltb _ _); lra.
    + exists (fun d u => law_f (iwan_history kt Fs chi beta) d u 0), (fun d u => law_du (iwan_history kt Fs chi beta) d u 0).
      apply separable_law; [exact A| | |reflexivity|intros; apply diag_jacobian].
      * intros d Hd u v L. rewrite !iwan_value by assumption. apply iwan_mono; assumption.
      * intros d u Hd. rewrite iwan_du by assumption. destruct (Rlt_dec _ _); [apply dg_nonneg; try assumption; lra|lra].
  - destruct (jenkins_separable N Q T s H) as (f & g & Hs). do 5 eexists. exact Hs.
  - destruct (iwan_separable N Q T s H) as (f & g & Hs). do 5 eexists. exact Hs.
  - destruct (eldry_separable N p n Q T s H) as (f & g & Hs). do 5 eexists. exact Hs.
  - contradiction.
  - exists O, Q, T, (fun _ _ => 0), (fun _ _ => 0). split; [intros i d _ Hd; lia|]. split; [intros d Hd; lia|]. split; [intros d u Hd; lia|].
    intros X. exists vzero, mzero. split; [reflexivity|]. split; reflexivity.
Qed.

(** * Work of one element *)
Lemma aligned_work N n (Q T : mat) (x : vec) (c : vec) : aligned N n Q T ->
  rsum N (fun i => x i * rsum n (fun d => T i d * c d)) = rsum n (fun d => c d * matvec N Q x d).
Proof.
  intros A. transitivity (rsum N (fun i => rsum n (fun d => c d * (Q d i * x i)))).
  - apply rsum_ext. intros i Hi. rewrite <- rsum_scal_l. apply rsum_ext. intros d Hd. rewrite (A i d Hi Hd). ring.
  - rewrite rsum_swap. apply rsum_ext. intros d Hd. rewrite rsum_scal_l. reflexivity.
Qed.

Lemma work_nonneg N e n Q T f g U V : separable N e n Q T f g -> exists F JF G JG,
  element_force N e U false = Ok (e, (Some F, Some JF)) /\ element_force N e V false = Ok (e, (Some G, Some JG)) /\ 0 <= rsum N (fun i => (U i - V i) * (F i - G i)).
Proof.
  intros (A & Hf & _ & H). destruct (H U) as (F & JF & E1 & VF & _). destruct (H V) as (G & JG & E2 & VG & _).
  exists F, JF, G, JG. split; [exact E1|]. split; [exact E2|].
  rewrite (rsum_ext N _ (fun i => (U i - V i) * rsum n (fun d => T i d * (f d (matvec N Q U d) - f d (matvec N Q V d))))).
  - rewrite (aligned_work N n Q T (fun i => U i - V i) _ A). apply rsum_nonneg. intros d Hd. rewrite matvec_minus. apply rising_product, Hf, Hd.
  - intros i Hi. rewrite VF, VG, <- rsum_minus. f_equal. apply rsum_ext. intros d Hd. ring.
Qed.

Lemma tangent_nonneg N e n Q T f g U x : separable N e n Q T f g -> exists F J,
  element_force N e U false = Ok (e, (Some F, Some J)) /\ 0 <= rsum N (fun i => x i * rsum N (fun j => J i j * x j)).
Proof.
  intros (A & _ & Hg & H). destruct (H U) as (F & J & E1 & _ & VJ). exists F, J. split; [exact E1|].
  rewrite (rsum_ext N _ (fun i => x i * rsum n (fun d => T i d * (g d (matvec N Q U d) * matvec N Q x d)))).
  - rewrite (aligned_work N n Q T x _ A). apply rsum_nonneg. intros d Hd. specialize (Hg d (matvec N Q U d) Hd). nra.
  - intros i Hi. f_equal. transitivity (rsum N (fun j => rsum n (fun d => T i d * g d (matvec N Q U d) * (Q d j * x j)))).
    + apply rsum_ext. intros j Hj. rewrite VJ, <- rsum_scal_r. apply rsum_ext. intros d Hd. ring.
    + rewrite rsum_swap. apply rsum_ext. intros d Hd. rewrite rsum_scal_l. unfold matvec. ring.
Qed.

(** * The system *)
Lemma loop_work N U V : forall els, (forall e, In e els -> resisting N e) -> forall (F0 G0 : vec) (J0 K0 : mat), exists F JF G JG,
  element_loop N els U (Some F0) (Some J0) = Ok (Some F, Some JF) /\ element_loop N els V (Some G0) (Some K0) = Ok (Some G, Some JG) /\
  rsum N (fun i => (U i - V i) * (F0 i - G0 i)) <= rsum N (fun i => (U i - V i) * (F i - G i)).
Proof.
  induction els as [|e els IH]; intros H F0 G0 J0 K0; [exists F0, J0, G0, K0; split; [reflexivity|]; split; [reflexivity|lra]|].
  destruct (element_separable N e (H e (or_introl eq_refl))) as (n & Q & T & f & g & Hs). destruct (work_nonneg N e n Q T f g U V Hs) as (F & JF & G & JG & E1 & E2 & W).
  destruct (IH (fun e' He => H e' (or_intror He)) (vadd F0 F) (vadd G0 G) (madd J0 JF) (madd K0 JG)) as (F' & JF' & G' & JG' & L1 & L2 & L3).
  exists F', JF', G', JG'. cbn [element_loop]. rewrite E1, E2. cbn [bind fst snd oadd omadd]. split; [exact L1|]. split; [exact L2|].
  eapply Rle_trans; [|exact L3]. unfold vadd. rewrite (rsum_ext N (fun i => (U i - V i) * (F0 i + F i - (G0 i + G i))) (fun i => (U i - V i) * (F0 i - G0 i) + (U i - V i) * (F i - G i))) by (intros; ring).
  rewrite rsum_plus. lra.
Qed.

Lemma loop_tangent N U x : forall els, (forall e, In e els -> resisting N e) -> forall (F0 : vec) (J0 : mat), exists F J,
  element_loop N els U (Some F0) (Some J0) = Ok (Some F, Some J) /\
  rsum N (fun i => x i * rsum N (fun j => J0 i j * x j)) <= rsum N (fun i => x i * rsum N (fun j => J i j * x j)).
Proof.
  induction els as [|e els IH]; intros H F0 J0; [exists F0, J0; split; [reflexivity|lra]|].
  destruct (element_separable N e (H e (or_introl eq_refl))) as (n & Q & T & f & g & Hs). destruct (tangent_nonneg N e n Q T f g U x Hs) as (F & J & E & W).
  destruct (IH (fun e' He => H e' (or_intror He)) (vadd F0 F) (madd J0 J)) as (F' & J' & L1 & L2). exists F', J'. cbn [element_loop]. rewrite E. cbn [bind fst snd oadd omadd]. split; [exact L1|].
  eapply Rle_trans; [|exact L2]. unfold madd.
  rewrite (rsum_ext N (fun i => x i * rsum N (fun j => (J0 i j + J i j) * x j)) (fun i => x i * rsum N (fun j => J0 i j * x j) + x i * rsum N (fun j => J i j * x j))).
  - rewrite rsum_plus. lra.
  - intros i Hi. rewrite <- Rmult_plus_distr_l, <- rsum_plus. f_equal. apply rsum_ext. intros j Hj. ring.
Qed.

Lemma states_work N m K els U V Fu Fv : stiffness_at_least N m K -> (forall e, In e els -> resisting N e) -> exists R JR S JS,
  sys_static_res N K els U Fu = Ok (Some R, JR) /\ sys_static_res N K els V Fv = Ok (Some S, JS) /\
  m * length2 N (fun i => U i - V i) <= rsum N (fun i => (U i - V i) * (R i + Fu i - (S i + Fv i))).
Proof.
  intros [_ HK] H. destruct (loop_work N U V els H vzero vzero mzero mzero) as (F & JF & G & JG & L1 & L2 & L3).
  unfold sys_static_res. rewrite L1, L2. cbn [bind]. do 4 eexists. split; [reflexivity|]. split; [reflexivity|]. eapply Rle_trans; [apply HK|].
  rewrite (rsum_ext N (fun i => (U i - V i) * (matvec N K U i + F i - Fu i + Fu i - (matvec N K V i + G i - Fv i + Fv i)))
    (fun i => (U i - V i) * rsum N (fun j => K i j * (U j - V j)) + (U i - V i) * (F i - G i))).
  - rewrite rsum_plus. unfold vzero in L3. rewrite (rsum_zero N (fun i => (U i - V i) * (0 - 0))) in L3 by (intros; ring). lra.
  - intros i Hi. pose proof (matvec_minus N K U V i) as M. unfold matvec in M at 1. rewrite M. ring.
Qed.

Lemma work_distance N m (U V A B : vec) : 0 < m -> m * length2 N (fun i => U i - V i) <= rsum N (fun i => (U i - V i) * (A i - B i)) ->
  m * m * length2 N (fun i => U i - V i) <= length2 N (fun i => A i - B i) /\
  ((forall i, (i < N)%nat -> A i = B i) -> forall i, (i < N)%nat -> U i = V i).
Proof.
  intros Hm W. assert (D : m * m * length2 N (fun i => U i - V i) <= length2 N (fun i => A i - B i)).
  { pose proof (cauchy_schwarz N (fun i => U i - V i) (fun i => A i - B i)) as C. unfold dot in C. unfold length2 in *. cbv beta in *.
    set (a := rsum N (fun i => (U i - V i) * (U i - V i))) in *. set (b := rsum N (fun i => (A i - B i) * (A i - B i))) in *. set (c := rsum N (fun i => (U i - V i) * (A i - B i))) in *. clearbody c.
    assert (0 <= a) by (apply rsum_nonneg; intros i _; apply Rle_0_sqr). assert (0 <= b) by (apply rsum_nonneg; intros i _; apply Rle_0_sqr). clearbody a b.
    destruct (Req_dec a 0) as [->|Ha]; [lra|]. assert (m * a * (m * a) <= c * c) by (apply Rmult_le_compat; nra). apply (Rmult_le_reg_l a); [lra|]. nra. }
  split; [exact D|]. intros E i Hi. rewrite (rsum_zero N (fun i => _ * (A i - B i))) in W by (intros j Hj; rewrite (E j Hj); ring).
  assert (P : 0 <= length2 N (fun i => U i - V i)) by (apply rsum_nonneg; intros j _; apply Rle_0_sqr).
  assert (Q0 : length2 N (fun i => U i - V i) = 0) by nra. pose proof (dot_self_zero N (fun i => U i - V i) Q0 i Hi) as Z. cbv beta in Z. lra.
Qed.

Lemma states_distance N m K els U V Fu Fv : stiffness_at_least N m K -> (forall e, In e els -> resisting N e) -> exists R JR S JS,
  sys_static_res N K els U Fu = Ok (Some R, JR) /\ sys_static_res N K els V Fv = Ok (Some S, JS) /\
  m * m * length2 N (fun i => U i - V i) <= length2 N (fun i => R i + Fu i - (S i + Fv i)).
Proof.
  intros HK H. destruct (states_work N m K els U V Fu Fv HK H) as (R & JR & S & JS & E1 & E2 & W). exists R, JR, S, JS. split; [exact E1|]. split; [exact E2|].
  apply (work_distance N m U V (fun i => R i + Fu i) (fun i => S i + Fv i) (proj1 HK) W).
Qed.

Lemma one_state N m K els U V Fs R JR S JS : stiffness_at_least N m K -> (forall e, In e els -> resisting N e) ->
  sys_static_res N K els U Fs = Ok (Some R, JR) -> sys_static_res N K els V Fs = Ok (Some S, JS) ->
  (forall i, (i < N)%nat -> R i = 0) ->
  m * m * length2 N (fun i => V i - U i) <= length2 N S /\ ((forall i, (i < N)%nat -> S i = 0) -> forall i, (i < N)%nat -> V i = U i).
Proof.
  intros HK H E1 E2 HR. destruct (states_distance N m K els V U Fs Fs HK H) as (S' & JS' & R' & JR' & E2' & E1' & D). rewrite E1 in E1'. rewrite E2 in E2'. inversion E1'. inversion E2'. subst R' S' JR' JS'.
  assert (D' : m * m * length2 N (fun i => V i - U i) <= length2 N S).
  { eapply Rle_trans; [exact D|]. right. apply rsum_ext. intros i Hi. rewrite (HR i Hi). ring. }
  split; [exact D'|]. intros HS i Hi. destruct HK as [Hm _].
  assert (Z : length2 N S = 0) by (apply rsum_zero; intros j Hj; rewrite (HS j Hj); ring). rewrite Z in D'.
  assert (P : 0 <= length2 N (fun i => V i - U i)) by (apply rsum_nonneg; intros j _; apply Rle_0_sqr).
  assert (Q0 : length2 N (fun i => V i - U i) = 0) by (assert (0 < m * m) by nra; nra).
  pose proof (dot_self_zero N (fun i => V i - U i) Q0 i Hi) as E. cbv beta in E. lra.
Qed.

Lemma tangent_stiffness N m K els U Fs : stiffness_at_least N m K -> (forall e, In e els -> resisting N e) -> exists R J,
  sys_static_res N K els U Fs = Ok (Some R, Some J) /\ stiffness_at_least N m J /\
  forall x, (forall i, (i < N)%nat -> rsum N (fun j => J i j * x j) = 0) -> forall i, (i < N)%nat -> x i = 0.
Proof.
  intros [Hm HK] H. destruct (loop_tangent N U (fun _ => 0) els H vzero mzero) as (F & J & L1 & _).
  unfold sys_static_res. rewrite L1. cbn [bind]. do 2 eexists. split; [reflexivity|].
  assert (S : stiffness_at_least N m (madd K J)).
  { split; [exact Hm|]. intros x. destruct (loop_tangent N U x els H vzero mzero) as (F' & J' & L1' & L2). rewrite L1 in L1'. inversion L1'. subst F' J'.
    unfold mzero in L2. rewrite (rsum_zero N (fun i => x i * _)) in L2 by (intros i Hi; rewrite rsum_zero; [ring|intros; ring]). eapply Rle_trans; [apply HK|]. unfold madd.
    rewrite (rsum_ext N (fun i => x i * rsum N (fun j => (K i j + J i j) * x j)) (fun i => x i * rsum N (fun j => K i j * x j) + x i * rsum N (fun j => J i j * x j))).
    - rewrite rsum_plus. lra.
    - intros i Hi. rewrite <- Rmult_plus_distr_l, <- rsum_plus. f_equal. apply rsum_ext. intros j Hj. ring. }
  split; [exact S|]. intros x Hx i Hi. destruct S as [_ S]. specialize (S x). rewrite (rsum_zero N (fun i => x i * _)) in S by (intros k Hk; rewrite Hx by exact Hk; ring).
  assert (P : 0 <= length2 N x) by (apply rsum_nonneg; intros j _; apply Rle_0_sqr). assert (Q0 : length2 N x = 0) by nra. exact (dot_self_zero N x Q0 i Hi).
Qed.
