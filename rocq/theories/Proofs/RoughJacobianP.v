(** The Jacobian of the static forces of rough contact is their derivative. *)
From Coq Require Import Reals Lra Lia Arith List Bool FunctionalExtensionality.
From Verif.Lib Require Import RSum Calc Py.
From Verif.Spec Require Import Calculus Slider Rough RoughCalls RoughTangent.
From Verif.Model Require Import Harmonic JaxDual JaxFloat RoughContact.
From Verif.Proofs Require Import JaxDualP JaxFloatP RoughNormalP RoughStaticP RoughCallsP RoughAftP SliderP TracksP RoughTangentP.
Import ListNotations.
Open Scope R_scope.

Lemma tangents_true n x : (forall t, (t < n)%nat -> exists T, ftan (x t) = Some T) -> all_tangents n x = true.
Proof. intros H. apply forallb_forall. intros t Ht. apply in_seq in Ht. destruct (H t ltac:(lia)) as [T E]. rewrite E. reflexivity. Qed.

(** the seeds of the displacements *)
Lemma tv_seed n (v : vec) t0 (c : R -> vec) d : (d < n)%nat -> derivable_pt_lim (fun t => c t d) t0 (v d) -> tv n v t0 (fun t => fdual_of (dseed (c t) d)) (c t0 d).
Proof.
  intros Hd D. exists (fun t => c t d), (fun j => if Nat.eqb j d then 1 else 0). split; [|reflexivity]. split; [apply near_all; intros; reflexivity|]. split.
  - reflexivity.
  - eapply dlim_eq; [exact D|]. symmetry. rewrite (rsum_single n d) by (try exact Hd; intros j Hj Hne; apply Nat.eqb_neq in Hne; rewrite Hne; ring). rewrite Nat.eqb_refl. ring.
Qed.

Section Static.
  Variables (s : solid) (r : rough) (st : rough_state) (M : nat -> memory).
  Hypothesis Hs : physical s.
  Hypothesis Hmat : r_mat r = mat_of s.
  Hypothesis Htan : r_model r = TAN.
  Hypothesis Hmu : 0 <= rs_mu st.
  Let g := fun i => r_meso r + r_gaps r i.
  Hypothesis HM : forall i, (i < r_n r)%nat -> holds s r st i (M i).
  Variables (v : vec) (t0 : R) (c : R -> vec).
  Hypothesis Hc : forall d, (d < 3)%nat -> derivable_pt_lim (fun t => c t d) t0 (v d).
  Hypothesis Hn : forall i, (i < r_n r)%nat -> smooth_normal s (mem_d (M i)) (mem_F (M i)) (c t0 2%nat - g i).
  Hypothesis Hf : forall i d, (i < r_n r)%nat -> (d < 2)%nat ->
    smooth_friction s (rs_mu st) (mem_d (M i)) (mem_F (M i)) (c t0 2%nat - g i) (c t0 d - mem_u (M i) d) (mem_f (M i) d).
  Let U := fun t d => fdual_of (dseed (c t) d).

  Lemma stored_tv o a : o = Some a -> still t0 (fun _ => fstored o) a.
  Proof. intros ->. apply still_const. Qed.

  Lemma static_normal i : (i < r_n r)%nat -> carried 3 v t0
    (fun t => n_fn (normal_general (r_mat r) (fsub (fsub (U t 2%nat) (fconst (r_meso r))) (fconst (r_gaps r i))) (fconst (rs_unmax st - r_meso r - r_gaps r i)) (fstored (rs_Fm st i))))
    (fun t => n_a (normal_general (r_mat r) (fsub (fsub (U t 2%nat) (fconst (r_meso r))) (fconst (r_gaps r i))) (fconst (rs_unmax st - r_meso r - r_gaps r i)) (fstored (rs_Fm st i))))
    (asperity_force s (mem_d (M i)) (mem_F (M i)) (c t0 2%nat - g i)) (asperity_radius s (mem_d (M i)) (mem_F (M i)) (c t0 2%nat - g i)).
  Proof.
    intros Hi. destruct (HM i Hi) as (H1 & H2 & H3 & H4 & _). rewrite Hmat.
    replace (rs_unmax st - r_meso r - r_gaps r i) with (mem_d (M i)) by (rewrite <- H1; ring).
    apply (general_tv 3 v t0 s Hs (fun t => fsub (fsub (U t 2%nat) (fconst (r_meso r))) (fconst (r_gaps r i))) _ _ (mem_F (M i)) (fun _ => fstored (rs_Fm st i))); [|apply still_tv; apply stored_tv; exact H2|exact H4|apply Hn; exact Hi].
    eapply tv_eq; [apply (tv_sub 3 v t0 (fun t => fsub (U t 2%nat) (fconst (r_meso r))) (fun _ => fconst (r_gaps r i)) (c t0 2%nat - r_meso r) (r_gaps r i)); [|apply tv_const]|unfold g; ring].
    apply (tv_sub 3 v t0 (fun t => U t 2%nat) (fun _ => fconst (r_meso r))); [|apply tv_const]. apply tv_seed; [lia|apply Hc; lia].
  Qed.

  Lemma static_tv d : (d < 3)%nat -> exists b, tv 3 v t0 (fun t => st_f (static_force r st (U t)) d) b.
  Proof.
    intros Hd. assert (Ef : (fun t => st_f (static_force r st (U t)) d) = fun t => if Nat.ltb d 2
      then JaxFloat.fsum (r_n r) (fun i => fscal (r_weights r i) (st_fxy (static_force r st (U t)) i O d)) else JaxFloat.fsum (r_n r) (fun i => fscal (r_weights r i) (st_fn (static_force r st (U t)) i))).
    { extensionality t. unfold static_force, tangential_part. rewrite Htan. reflexivity. }
    rewrite Ef. destruct (Nat.ltb_spec d 2) as [Hd2|Hd2].
    - eexists. apply (tv_sum 3 v t0 (r_n r) (fun i t => fscal (r_weights r i) (st_fxy (static_force r st (U t)) i O d))
        (fun i => r_weights r i * Slider.clamp (- (rs_mu st * asperity_force s (mem_d (M i)) (mem_F (M i)) (c t0 2%nat - g i))) (rs_mu st * asperity_force s (mem_d (M i)) (mem_F (M i)) (c t0 2%nat - g i))
                     (mem_f (M i) d + 8 * mindlin_modulus s * asperity_radius s (mem_d (M i)) (mem_F (M i)) (c t0 2%nat - g i) * (c t0 d - mem_u (M i) d)))).
      intros i Hi. apply (tv_scal 3 v t0 (r_weights r i)). destruct (HM i Hi) as (H1 & H2 & H3 & H4 & H5). rewrite Htan in H5.
      assert (Ex : (fun t => st_fxy (static_force r st (U t)) i O d) = fun t => tangential (mat_of s) (rs_mu st) (U t d) (fconst (rs_u0 st d)) (fstored (rs_fxy st i O d)) (st_fn (static_force r st (U t)) i) (st_a (static_force r st (U t)) i)).
      { extensionality t. unfold static_force, tangential_part. rewrite Htan, Hmat. reflexivity. }
      rewrite Ex. assert (Sn : carried 3 v t0 (fun t => st_fn (static_force r st (U t)) i) (fun t => st_a (static_force r st (U t)) i) (asperity_force s (mem_d (M i)) (mem_F (M i)) (c t0 2%nat - g i)) (asperity_radius s (mem_d (M i)) (mem_F (M i)) (c t0 2%nat - g i))).
      { pose proof (static_normal i Hi) as K. unfold static_force, tangential_part. rewrite Htan. exact K. }
      refine (proj1 (tangential_tv 3 v t0 s Hs (rs_mu st) (fun t => U t d) (fun _ => fconst (rs_u0 st d)) (fun _ => fstored (rs_fxy st i O d)) _ _ (c t0 d) (mem_u (M i) d) (mem_f (M i) d) _ _ _ _ _ Sn Hmu _ _)).
      + apply tv_seed; [lia|apply Hc; lia].
      + rewrite H3. apply tv_const.
      + apply still_tv. apply stored_tv. apply H5.
      + apply near_all. intros t. assert (Hmod : model_ok (r_model r)) by (rewrite Htan; exact I).
        destruct (static_values s r Hs Hmat Hmod st (U t) (c t) M Hmu (fun d => eq_refl) HM) as [A _]. destruct (A i Hi) as (A1 & _). eexists. split; [exact A1|]. apply (force_nonneg s Hs). exact H4.
      + destruct (Req_dec (asperity_radius s (mem_d (M i)) (mem_F (M i)) (c t0 2%nat - g i)) 0) as [Z|NZ].
        * left. split; [exact Z|]. right. apply stored_tv. apply H5.
        * right. split; [exact NZ|]. destruct (Hf i d Hi Hd2) as [Z|Z]; [contradiction|exact Z].
    - eexists. apply (tv_sum 3 v t0 (r_n r) (fun i t => fscal (r_weights r i) (st_fn (static_force r st (U t)) i))
        (fun i => r_weights r i * asperity_force s (mem_d (M i)) (mem_F (M i)) (c t0 2%nat - g i))).
      intros i Hi. apply (tv_scal 3 v t0 (r_weights r i)). pose proof (proj1 (static_normal i Hi)) as K. unfold static_force, tangential_part. rewrite Htan. exact K.
  Qed.
End Static.

(** After any calls: the Jacobian exists and is the derivative. *)
Lemma static_jacobian s r N Q (T : mat) u0 st cs X : physical s -> r_mat r = mat_of s -> (forall i, (i < r_n r)%nat -> 0 <= r_meso r + r_gaps r i) -> 0 <= r_mu r -> r_model r = TAN ->
  rough_new r u0 = Ok st ->
  let st' := rough_run r N Q st cs in
  let mu := rough_mu_after (r_mu r) cs in
  let g := fun i => r_meso r + r_gaps r i in
  let M := fun i => memory_after s (g i) (rough_moves (r_mu r) N Q cs) in
  let u := fun d => rsum N (fun j => Q d j * X j) in
  (forall i, (i < r_n r)%nat -> smooth_normal s (mem_d (M i)) (mem_F (M i)) (u 2%nat - g i)) ->
  (forall i d, (i < r_n r)%nat -> (d < 2)%nat -> smooth_friction s mu (mem_d (M i)) (mem_F (M i)) (u 2%nat - g i) (u d - mem_u (M i) d) (mem_f (M i) d)) ->
  exists (F : vec -> vec) (J : mat),
    (forall V upd, force_values T (snd (rough_force r N Q st' V upd)) = Some (F V)) /\
    (forall upd, force_jacobian T Q (snd (rough_force r N Q st' X upd)) = Some J) /\ forall m, is_jacobian N m F X J.
Proof.
  intros Hs Hmat Hgap Hmu Htan Hnew. assert (Hmodel : model_ok (r_model r)) by (rewrite Htan; exact I).
  destruct (tracks_run s r N Q Hs Hmat Hgap Hmu Hmodel u0 st cs Hnew) as (Em & Hm & HM). cbv zeta in *. set (st' := rough_run r N Q st cs) in *. clearbody st'. intros Hn Hf.
  set (M := fun i => memory_after s (r_meso r + r_gaps r i) (rough_moves (r_mu r) N Q cs)) in *.
  set (res := fun V => static_force r st' (seeded_local N Q V)).
  assert (Fin : forall V d, (d < 3)%nat -> fv (st_f (res V) d) (getR (fval (st_f (res V) d)))).
  { intros V d Hd. destruct (static_values s r Hs Hmat Hmodel st' (seeded_local N Q V) (matvec N Q V) M Hm (fun d => eq_refl) HM) as (_ & B & C). fold (res V) in B, C.
    destruct (Nat.eq_dec d 2) as [->|]; [rewrite (fv_get _ _ B); exact B|]. destruct (C d ltac:(lia)) as (f & Hf' & _). rewrite (fv_get _ _ Hf'). exact Hf'. }
  assert (D : forall (g : R -> vec) (v : vec) t0, (forall j, (j < N)%nat -> g t0 j = X j) -> (forall j, (j < N)%nat -> derivable_pt_lim (fun t => g t j) t0 (v j)) -> forall d, (d < 3)%nat ->
    exists Td, ftan (st_f (res X) d) = Some Td /\ derivable_pt_lim (fun t => getR (fval (st_f (res (g t)) d))) t0 (rsum 3 (fun e => Td e * matvec N Q v e))).
  { intros g v t0 Hg Hv d Hd. assert (El : matvec N Q (g t0) = matvec N Q X). { extensionality e. apply rsum_ext. intros j Hj. rewrite Hg by exact Hj. reflexivity. }
    destruct (static_tv s r st' M Hs Hmat Htan Hm HM (matvec N Q v) t0 (fun t => matvec N Q (g t))) with (d := d) as [b Hb].
    - intros e He. apply dlim_rsum. intros j Hj. eapply dlim_eq; [apply dlim_scal; apply Hv; exact Hj|reflexivity].
    - intros i Hi. rewrite El. apply Hn. exact Hi.
    - intros i e Hi He. rewrite El, Em. apply Hf; assumption.
    - exact Hd.
    - destruct (tv_value 3 (matvec N Q v) t0 _ b (fun t => getR (fval (st_f (res (g t)) d))) Hb (fun t => Fin (g t) d Hd)) as (Td & E1 & E2). exists Td. split; [|exact E2].
      rewrite El in E1. exact E1. }
  exists (fun V i => matvec 3 T (fun d => getR (fval (st_f (res V) d))) i), (matmul 3 (matmul 3 T (fun d e => getV (ftan (st_f (res X) d)) e)) Q). split; [|split].
  - intros V upd. cbn [rough_force snd]. fold (res V). unfold force_values. rewrite all_values_true; [reflexivity|]. intros d Hd. eexists. apply (Fin V d Hd).
  - intros upd. cbn [rough_force snd]. fold (res X). unfold force_jacobian. rewrite tangents_true; [reflexivity|]. intros d Hd.
    destruct (D (fun _ => X) (fun _ => 0) 0 (fun _ _ => eq_refl) (fun j _ => dlim_const (X j) 0) d Hd) as (Td & E & _). exists Td. exact E.
  - intros m g v t0 Hg Hv i Hi.
    eapply dlim_eq; [apply (dlim_rsum 3 (fun d t => T i d * getR (fval (st_f (res (g t)) d))) t0 (fun d => T i d * rsum 3 (fun e => getV (ftan (st_f (res X) d)) e * matvec N Q v e)))|].
    + intros d Hd. apply dlim_scal. destruct (D g v t0 Hg Hv d Hd) as (Td & E & L). rewrite E. exact L.
    + unfold matmul, matvec. symmetry.
      transitivity (rsum N (fun j => rsum 3 (fun d => rsum 3 (fun e => T i d * getV (ftan (st_f (res X) d)) e * (Q e j * v j))))).
      * apply rsum_ext. intros j Hj. rewrite rsum_swap. rewrite <- rsum_scal_r. apply rsum_ext. intros e He. rewrite <- !rsum_scal_r. apply rsum_ext. intros d Hd. ring.
      * rewrite rsum_swap. apply rsum_ext. intros d Hd. rewrite rsum_swap. rewrite <- rsum_scal_l. apply rsum_ext. intros e He.
        rewrite <- !rsum_scal_l. apply rsum_ext. intros j Hj. ring.
Qed.
