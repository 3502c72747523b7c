From Coq Require Import Reals List Arith Bool ZArith Lia Lra Psatz FunctionalExtensionality.
From Verif.Lib Require Import RSum Calc Py.
From Verif.Spec Require Import Calculus Harmonic Elements System.
From Verif.Model Require Import Jenkins Harmonic LocalForces Aft VibSys.
From Verif.Proofs Require Import HarmonicP FourierP HarmonicOpsP AftP ElementsP VibSysP VibControlP.
Import ListNotations.
Open Scope R_scope.

(** ---- where harmonic k sits ---- *)
Lemma components_app a b : components (a ++ b) = components a ++ components b.
Proof. unfold components. apply flat_map_app. Qed.
Lemma components_pos k l : (0 < k)%nat -> components (k :: l) = Cos k :: Sin k :: components l.
Proof. destruct k; [lia|reflexivity]. Qed.

Lemma filter_low k low high : (forall x, In x low -> (x < k)%nat) -> (forall x, In x high -> (k < x)%nat) ->
  filter (fun x => Nat.ltb x k) (low ++ k :: high) = low.
Proof.
  intros Hl Hh. rewrite filter_app. cbn [filter]. rewrite Nat.ltb_irrefl.
  replace (filter (fun x => Nat.ltb x k) high) with (@nil nat).
  - rewrite app_nil_r. induction low as [|x l IH]; [reflexivity|]. cbn [filter]. rewrite ltb_t by (apply Hl; left; reflexivity).
    f_equal. apply IH. intros y Hy. apply Hl. right. exact Hy.
  - clear Hl low. induction high as [|x l IH]; [reflexivity|]. cbn [filter].
    rewrite ltb_f by (specialize (Hh x (or_introl eq_refl)); lia). apply IH. intros y Hy. apply Hh. right. exact Hy.
Qed.

Definition low_len (k : nat) (h : list nat) : nat := length (components (filter (fun x => Nat.ltb x k) h)).

Lemma low_split k h : ordered_at k h -> exists low high, h = low ++ k :: high /\ (0 < k)%nat /\ low_len k h = length (components low) /\
  ~ In k low /\ ~ In k high.
Proof.
  intros (low & high & -> & Hk & Hl & Hh). exists low, high. unfold low_len. rewrite filter_low by assumption.
  repeat split; auto; intros I; [apply Hl in I|apply Hh in I]; lia.
Qed.

Lemma low_len_bound k h : ordered_at k h -> (low_len k h + 2 <= length (components h))%nat.
Proof.
  intros H. destruct (low_split k h H) as (low & high & -> & Hk & -> & _). rewrite components_app, components_pos, app_length by exact Hk. cbn [length]. lia.
Qed.

Lemma harm_zero k l (U B : nat -> R) : ~ In k l ->
  rsum (length (components l)) (fun c => match nth c (components l) (Cos 0) with
     Cos m | Sin m => if Nat.eqb m k then U c * B c else 0 end) = 0.
Proof.
  intros H. apply rsum_zero. intros c Hc. pose proof (in_comp_harm l _ (nth_In _ (Cos O) Hc)) as I.
  destruct (nth c (components l) (Cos 0)) as [m|m]; (destruct (Nat.eqb_spec m k) as [->|]; [contradiction|reflexivity]).
Qed.

Lemma harmonic_part_k k N h U w j t : ordered_at k h ->
  harmonic_part k N h U w j t = U (low_len k h * N + j)%nat * cos (INR k * (w * t)) + U ((low_len k h + 1) * N + j)%nat * sin (INR k * (w * t)).
Proof.
  intros H. destruct (low_split k h H) as (low & high & -> & Hk & -> & N1 & N2). unfold harmonic_part.
  set (h := low ++ k :: high).
  assert (EC : components h = components low ++ Cos k :: Sin k :: components high).
  { unfold h. rewrite components_app, components_pos by exact Hk. reflexivity. }
  set (a := length (components low)).
  assert (EL : length (components h) = (a + S (S (length (components high))))%nat) by (rewrite EC, app_length; reflexivity).
  rewrite EL, rsum_split. rewrite !rsum_S_l.
  assert (R1 : forall c, (c < a)%nat -> nth c (components h) (Cos 0) = nth c (components low) (Cos 0))
    by (intros c Hc; rewrite EC; apply app_nth1; exact Hc).
  assert (R2 : forall c, nth (a + c) (components h) (Cos 0) = nth c (Cos k :: Sin k :: components high) (Cos 0)).
  { intros c. rewrite EC, app_nth2 by (unfold a; lia). f_equal. unfold a. lia. }
  rewrite (rsum_ext a _ (fun c => match nth c (components low) (Cos 0) with
     Cos m | Sin m => if Nat.eqb m k then U (c * N + j)%nat * basis h c (w * t) else 0 end)) by (intros c Hc; rewrite R1 by exact Hc; reflexivity).
  rewrite (harm_zero k low (fun c => U (c * N + j)%nat)) by exact N1.
  rewrite (rsum_ext (length (components high)) _ (fun c => match nth c (components high) (Cos 0) with
     Cos m | Sin m => if Nat.eqb m k then U ((a + S (S c)) * N + j)%nat * basis h (a + S (S c)) (w * t) else 0 end)) by (intros c Hc; rewrite R2; reflexivity).
  rewrite (harm_zero k high (fun c => U ((a + S (S c)) * N + j)%nat)) by exact N2.
  rewrite !R2. unfold basis. rewrite !R2. cbn [nth]. rewrite !Nat.eqb_refl. cbn [comp_fun].
  rewrite Nat.add_0_r. ring.
Qed.

Lemma harm_cos_k k N h U j : ordered_at k h -> harm_cos k N h U j = U (low_len k h * N + j)%nat.
Proof. intros H. unfold harm_cos. rewrite harmonic_part_k by exact H. rewrite !Rmult_0_r, cos_0, sin_0. ring. Qed.
Lemma harm_sin_k k N h U j : ordered_at k h -> harm_sin k N h U j = U ((low_len k h + 1) * N + j)%nat.
Proof.
  intros H. unfold harm_sin. rewrite harmonic_part_k by exact H.
  replace (INR k * (1 * (PI / 2 / INR k))) with (PI / 2).
  - rewrite cos_PI2, sin_PI2. ring.
  - field. destruct H as (_ & _ & _ & Hk & _). apply not_0_INR. lia.
Qed.

(** ---- normalised inner product ---- *)
Lemma norm2_nonneg m v : 0 <= norm2 m v. Proof. apply sqrt_pos. Qed.
Lemma norm2_sq m v : norm2 m v * norm2 m v = dot m v v.
Proof.
  unfold norm2. rewrite sqrt_sqrt.
  - unfold dot. apply rsum_ext. intros; ring.
  - apply rsum_nonneg. intros; apply pow2_ge_0.
Qed.

Lemma normalised_bound m F X : norm2 m F <> 0 -> norm2 m X <> 0 -> -1 <= dot m F X / (norm2 m X * norm2 m F) <= 1.
Proof.
  intros HF HX. pose proof (norm2_nonneg m F). pose proof (norm2_nonneg m X).
  set (p := norm2 m X * norm2 m F). assert (Hp : 0 < p) by (unfold p; nra).
  assert (CS : (dot m F X)² <= p²).
  { unfold Rsqr, p. replace (norm2 m X * norm2 m F * (norm2 m X * norm2 m F)) with ((norm2 m F * norm2 m F) * (norm2 m X * norm2 m X)) by ring.
    rewrite !norm2_sq. pose proof (cauchy_schwarz m F X) as C. nra. }
  assert (AB : - p <= dot m F X <= p) by (split; [apply Rsqr_neg_pos_le_0|apply Rsqr_incr_0_var]; auto; lra).
  split.
  - apply (Rmult_le_reg_r p); [exact Hp|]. unfold Rdiv. rewrite Rmult_assoc, Rinv_l by lra. lra.
  - apply (Rmult_le_reg_r p); [exact Hp|]. unfold Rdiv. rewrite Rmult_assoc, Rinv_l by lra. lra.
Qed.

Lemma norm2_pos m v : norm2 m v <> 0 -> 0 < rsum m (fun i => v i ^ 2).
Proof.
  intros H. assert (P : 0 <= rsum m (fun i => v i ^ 2)) by (apply rsum_nonneg; intros; apply pow2_ge_0).
  destruct P as [P|P]; [exact P|]. exfalso. apply H. unfold norm2. rewrite <- P. apply sqrt_0.
Qed.

Lemma norm2_deriv m (f : R -> vec) (f' : vec) t0 : norm2 m (f t0) <> 0 ->
  (forall i, (i < m)%nat -> derivable_pt_lim (fun t => f t i) t0 (f' i)) ->
  derivable_pt_lim (fun t => norm2 m (f t)) t0 (dot m f' (f t0) / norm2 m (f t0)).
Proof.
  intros Hn Hf. unfold norm2 at 1. eapply dlim_eq.
  - apply dlim_sqrt; [|apply norm2_pos; exact Hn].
    apply (dlim_rsum m (fun i t => f t i ^ 2) t0 (fun i => 2 * f t0 i * f' i)). intros i Hi.
    eapply dlim_eq; [apply dlim_pow; apply Hf; exact Hi|]. cbn. ring.
  - cbv beta. fold (norm2 m (f t0)).
    rewrite (rsum_ext m _ (fun i => 2 * (f' i * f t0 i))) by (intros; ring). rewrite rsum_scal_l.
    change (rsum m (fun i => f' i * f t0 i)) with (dot m f' (f t0)). field. exact Hn.
Qed.

Lemma normalised_deriv m (f x : R -> vec) (f' x' : vec) t0 : norm2 m (f t0) <> 0 -> norm2 m (x t0) <> 0 ->
  (forall i, (i < m)%nat -> derivable_pt_lim (fun t => f t i) t0 (f' i)) ->
  (forall i, (i < m)%nat -> derivable_pt_lim (fun t => x t i) t0 (x' i)) ->
  let nf := norm2 m (f t0) in let nx := norm2 m (x t0) in let fx := dot m (f t0) (x t0) in
  derivable_pt_lim (fun t => dot m (f t) (x t) / (norm2 m (x t) * norm2 m (f t))) t0
   ((dot m f' (x t0) / (nx * nf) - fx / (nx * nf ^ 3) * dot m f' (f t0))
    + (dot m (f t0) x' / (nx * nf) - fx / (nx ^ 3 * nf) * dot m (x t0) x')).
Proof.
  intros Hf Hx Df Dx nf nx fx.
  eapply dlim_eq.
  - apply (dlim_div (fun t => dot m (f t) (x t)) (fun t => norm2 m (x t) * norm2 m (f t))).
    + fold nf nx in Hf, Hx. fold nx nf. nra.
    + apply (dlim_dot m f x t0 f' x' Df Dx).
    + apply (dlim_mult (fun t => norm2 m (x t)) (fun t => norm2 m (f t))); [exact (norm2_deriv m x x' t0 Hx Dx)|exact (norm2_deriv m f f' t0 Hf Df)].
  - cbv beta. fold nf nx fx. replace (dot m x' (x t0)) with (dot m (x t0) x') by (unfold dot; apply rsum_ext; intros; ring).
    fold nf nx in Hf, Hx. unfold Rsqr. field. split; assumption.
Qed.

(** ---- the linear maps of the filter ---- *)
Definition sel_F (N : nat) (flt : option vec) (v : vec) : vec := match flt with None => v | Some phi => filter2 N phi v end.
Definition sel_X (N : nat) (M : mat) (flt : option vec) (v : vec) : vec := match flt with None => v | Some phi => filter2 N (vecmat N phi M) v end.
Definition sel_m (N : nat) (flt : option vec) : nat := match flt with None => (2 * N)%nat | Some _ => 2%nat end.
Definition sel_back (N : nat) (M : mat) (flt : option vec) (v : vec) : vec := match flt with None => v | Some phi => unfilter2 N (vecmat N phi M) v end.

Lemma filter2_deriv N phi (f : R -> vec) (f' : vec) t0 :
  (forall i, (i < 2 * N)%nat -> derivable_pt_lim (fun t => f t i) t0 (f' i)) ->
  forall i, (i < 2)%nat -> derivable_pt_lim (fun t => filter2 N phi (f t) i) t0 (filter2 N phi f' i).
Proof.
  intros H i Hi. unfold filter2. destruct (Nat.eqb i 0).
  - apply dlim_dot_l. intros j Hj. apply H. lia.
  - apply (dlim_dot_l N phi (fun t k => f t (N + k)%nat) (fun k => f' (N + k)%nat)). intros j Hj. apply H. lia.
Qed.
Lemma sel_F_deriv N flt (f : R -> vec) (f' : vec) t0 : (forall i, (i < 2 * N)%nat -> derivable_pt_lim (fun t => f t i) t0 (f' i)) ->
  forall i, (i < sel_m N flt)%nat -> derivable_pt_lim (fun t => sel_F N flt (f t) i) t0 (sel_F N flt f' i).
Proof. destruct flt as [phi|]; cbn [sel_F sel_m]; intros H; [apply filter2_deriv; exact H|exact H]. Qed.
Lemma sel_X_deriv N M flt (f : R -> vec) (f' : vec) t0 : (forall i, (i < 2 * N)%nat -> derivable_pt_lim (fun t => f t i) t0 (f' i)) ->
  forall i, (i < sel_m N flt)%nat -> derivable_pt_lim (fun t => sel_X N M flt (f t) i) t0 (sel_X N M flt f' i).
Proof. destruct flt as [phi|]; cbn [sel_X sel_m]; intros H; [apply filter2_deriv; exact H|exact H]. Qed.

Lemma sel_F_ext N flt v v' i : (forall i, (i < 2 * N)%nat -> v i = v' i) -> (i < sel_m N flt)%nat -> sel_F N flt v i = sel_F N flt v' i.
Proof.
  intros H Hi. destruct flt as [phi|]; cbn [sel_F sel_m] in *; [|apply H; exact Hi].
  unfold filter2, dot. destruct (Nat.eqb i 0); apply rsum_ext; intros j Hj; rewrite H by lia; reflexivity.
Qed.
Lemma sel_X_ext N M flt v v' i : (forall i, (i < 2 * N)%nat -> v i = v' i) -> (i < sel_m N flt)%nat -> sel_X N M flt v i = sel_X N M flt v' i.
Proof.
  intros H Hi. destruct flt as [phi|]; cbn [sel_X sel_m] in *; [|apply H; exact Hi].
  unfold filter2, dot. destruct (Nat.eqb i 0); apply rsum_ext; intros j Hj; rewrite H by lia; reflexivity.
Qed.

Lemma dot_rsum N b phi (A : nat -> vec) (v : vec) (c : vec) dom :
  dot N phi (fun i => rsum b (fun j => A j i * v j) + c i * dom) = rsum b (fun j => dot N phi (A j) * v j) + dot N phi c * dom.
Proof.
  unfold dot. rewrite (rsum_ext N _ (fun i => rsum b (fun j => phi i * A j i * v j) + phi i * c i * dom)).
  2:{ intros i Hi. rewrite Rmult_plus_distr_l, <- rsum_scal_l. f_equal; [apply rsum_ext; intros|]; ring. }
  rewrite rsum_plus, rsum_swap, rsum_scal_r. f_equal. apply rsum_ext. intros j Hj. rewrite <- rsum_scal_r. reflexivity.
Qed.

Lemma sel_F_lin N flt b (A : nat -> vec) (v c : vec) dom i :
  sel_F N flt (fun i => rsum b (fun j => A j i * v j) + c i * dom) i = rsum b (fun j => sel_F N flt (A j) i * v j) + sel_F N flt c i * dom.
Proof.
  destruct flt as [phi|]; cbn [sel_F]; [|reflexivity]. unfold filter2. destruct (Nat.eqb i 0).
  - apply dot_rsum.
  - apply (dot_rsum N b phi (fun j k => A j (N + k)%nat) v (fun k => c (N + k)%nat) dom).
Qed.

Lemma dot_lin_l m b (A : nat -> vec) (v c : vec) dom y :
  dot m (fun i => rsum b (fun j => A j i * v j) + c i * dom) y = rsum b (fun j => dot m (A j) y * v j) + dot m c y * dom.
Proof.
  unfold dot. rewrite (rsum_ext m _ (fun i => rsum b (fun j => A j i * y i * v j) + c i * y i * dom)).
  2:{ intros i Hi. rewrite Rmult_plus_distr_r, <- rsum_scal_r. f_equal; [apply rsum_ext; intros|]; ring. }
  rewrite rsum_plus, rsum_swap, rsum_scal_r. f_equal. apply rsum_ext. intros j Hj. rewrite <- rsum_scal_r. reflexivity.
Qed.

Lemma sel_back_dot N M flt y (x' : vec) :
  dot (sel_m N flt) y (sel_X N M flt x') = rsum (2 * N) (fun k => sel_back N M flt y k * x' k).
Proof.
  destruct flt as [phi|]; cbn [sel_m sel_X sel_back]; [|reflexivity].
  unfold dot at 1. rewrite !rsum_S. cbn [rsum]. unfold filter2. cbn [Nat.eqb]. unfold unfilter2.
  replace (2 * N)%nat with (N + N)%nat by lia. rewrite rsum_split. unfold dot.
  rewrite <- !rsum_scal_l. rewrite Rplus_0_l. f_equal; apply rsum_ext; intros k Hk.
  - rewrite ltb_t by exact Hk. ring.
  - rewrite ltb_f by lia. replace (N + k - N)%nat with k by lia. ring.
Qed.

(** ---- the VPRNM equation ---- *)
Definition vp_fun (N : nat) (M : mat) (flt : option vec) (b : nat) (F : vec -> R -> vec) (U : vec) (w : R) : R :=
  let f := sel_F N flt (fun i => - F (clear_from b U) w (b + i)%nat) in
  let x := sel_X N M flt (fun i => U (b + i)%nat) in
  dot (sel_m N flt) f x / (norm2 (sel_m N flt) x * norm2 (sel_m N flt) f).

Lemma dot_ext m a a' c c' : (forall i, (i < m)%nat -> a i = a' i) -> (forall i, (i < m)%nat -> c i = c' i) -> dot m a c = dot m a' c'.
Proof. intros H K. unfold dot. apply rsum_ext. intros i Hi. rewrite H, K by exact Hi. reflexivity. Qed.
Lemma norm2_ext m a a' : (forall i, (i < m)%nat -> a i = a' i) -> norm2 m a = norm2 m a'.
Proof. intros H. unfold norm2. f_equal. apply rsum_ext. intros i Hi. rewrite H by exact Hi. reflexivity. Qed.

Lemma clear_from_ext b v v' : (forall i, (i < b)%nat -> v i = v' i) -> clear_from b v = clear_from b v'.
Proof. intros H. apply vec_ext. intros i. unfold clear_from. destruct (Nat.ltb_spec i b); auto. Qed.

Lemma vp_fun_ext N M flt b F U U' w : (forall i, (i < b + 2 * N)%nat -> U i = U' i) -> vp_fun N M flt b F U w = vp_fun N M flt b F U' w.
Proof.
  intros H. unfold vp_fun. rewrite (clear_from_ext b U U') by (intros i Hi; apply H; lia).
  assert (X : forall i, (i < sel_m N flt)%nat -> sel_X N M flt (fun i => U (b + i)%nat) i = sel_X N M flt (fun i => U' (b + i)%nat) i)
    by (intros i Hi; apply sel_X_ext; [intros j Hj; apply H; lia|exact Hi]).
  rewrite (dot_ext _ _ _ _ _ (fun i _ => eq_refl) X), (norm2_ext _ _ _ X). reflexivity.
Qed.

Lemma below_clear k N h U : below k N h U = clear_from (low_len k h * N) U.
Proof. reflexivity. Qed.

Lemma rhi_index_ok h rhi : admissible h -> vprnm_rhi_index h rhi = Ok (low_len rhi h).
Proof.
  intros (_ & Hd & _). unfold vprnm_rhi_index, low_len. apply (proj1 (Nhc_spec _)). apply NoDup_filter. exact Hd.
Qed.

Definition vp_grad (N : nat) (M : mat) (flt : option vec) (b n : nat) (f x : vec) (dU : mat) (dw : vec) : vec :=
  let m := sel_m N flt in
  let dF : nat -> vec := fun j => sel_F N flt (fun i => - dU (b + i)%nat j) in
  let dFw := sel_F N flt (fun i => - dw (b + i)%nat) in
  let nf := norm2 m f in let nx := norm2 m x in let fx := dot m f x in
  fun j =>
      if Nat.ltb j b then dot m (dF j) x / (nx * nf) - fx / (nx * nf ^ 3) * dot m (dF j) f
      else if Nat.ltb j (b + 2 * N) then sel_back N M flt f (j - b)%nat / (nx * nf) - fx / (nx ^ 3 * nf) * sel_back N M flt x (j - b)%nat
      else if Nat.eqb j n then dot m dFw x / (nx * nf) - fx / (nx * nf ^ 3) * dot m dFw f
      else 0.

Lemma vprnm_shape s h rhi Nt U w flt : admissible h -> ordered_at rhi h ->
  let N := vs_N s in
  let n := (length (components h) * N)%nat in
  let b := (low_len rhi h * N)%nat in
  Forall (aft_smooth n h Nt (below rhi N h U) w) (vs_forces s) ->
  exists (F : vec -> R -> vec) (gv : vec),
    (forall U' w', exists G, vprnm_single_eqn s U' w' h rhi Nt true flt = Ok (vp_fun N (vs_M s) flt b F U' w', Some G)) /\
    vprnm_single_eqn s U w h rhi Nt true flt = Ok (vp_fun N (vs_M s) flt b F U w, Some gv) /\
    (forall U' w', exists dU' dw', total_aft s U' w' h Nt true = Ok (F U' w', Some (dU', dw'))) /\
    (norm2 (sel_m N flt) (sel_F N flt (fun i => - F (clear_from b U) w (b + i)%nat)) <> 0 ->
     norm2 (sel_m N flt) (sel_X N (vs_M s) flt (fun i => U (b + i)%nat)) <> 0 ->
     is_joint_gradient n (vp_fun N (vs_M s) flt b F) U w gv (gv n)).
Proof.
  intros Ha Ho N n b H. destruct (total_aft_ok s n h Nt (below rhi N h U) w Ha H) as (F & dU & dw & A & B & C).
  rewrite below_clear in B, C. fold b in B, C.
  set (f0 := sel_F N flt (fun i => - F (clear_from b U) w (b + i)%nat)).
  set (x0 := sel_X N (vs_M s) flt (fun i => U (b + i)%nat)).
  assert (Hb : (b + 2 * N <= n)%nat) by (pose proof (low_len_bound rhi h Ho); unfold b, n; nia).
  exists F, (vp_grad N (vs_M s) flt b n f0 x0 dU dw). split; [|split; [|split]].
  - intros U' w'. unfold vprnm_single_eqn. rewrite (proj1 (Nhc_spec h) (proj1 (proj2 Ha))). cbn [bind].
    rewrite (rhi_index_ok h rhi Ha). cbn [bind]. cbv zeta. fold N. rewrite (Nat.mul_comm N (low_len rhi h)). fold b.
    destruct (A (clear_from b U') w') as (d & e & E). rewrite E. cbn [bind].
    eexists. reflexivity.
  - unfold vprnm_single_eqn. rewrite (proj1 (Nhc_spec h) (proj1 (proj2 Ha))). cbn [bind].
    rewrite (rhi_index_ok h rhi Ha). cbn [bind]. cbv zeta. fold N. rewrite (Nat.mul_comm N (low_len rhi h)). fold b. fold n.
    rewrite B. cbn [bind]. unfold vp_fun, vp_grad, f0, x0. destruct flt; reflexivity.
  - exact A.
  - intros Hf Hx. fold f0 in Hf. fold x0 in Hx. intros g v om dom t0 Hg Hom Hv Hd.
    set (g' := fun t j => if Nat.ltb j n then g t j else U j).
    set (v' := fun j => if Nat.ltb j n then v j else 0).
    assert (G0 : g' t0 = U) by (apply vec_ext; intros j; unfold g'; destruct (Nat.ltb_spec j n); auto).
    assert (D' : forall j, derivable_pt_lim (fun t => g' t j) t0 (v' j)).
    { intros j. unfold g', v'. destruct (Nat.ltb_spec j n); [apply Hv; assumption|apply dlim_const]. }
    apply (dlim_ext (fun t => vp_fun N (vs_M s) flt b F (g' t) (om t))).
    { intros t. apply vp_fun_ext. intros i Hi. unfold g'. rewrite ltb_t by lia. reflexivity. }
    set (cv := fun j => if Nat.ltb j b then v' j else 0).
    assert (DF : forall i, (i < 2 * N)%nat -> derivable_pt_lim (fun t => - F (clear_from b (g' t)) (om t) (b + i)%nat) t0
              (rsum b (fun j => - dU (b + i)%nat j * v j) + - dw (b + i)%nat * dom)).
    { intros i Hi. eapply dlim_eq.
      - apply dlim_opp. apply (C (fun t => clear_from b (g' t)) cv om dom t0); auto.
        + intros j Hj. rewrite G0. reflexivity.
        + intros j Hj. unfold clear_from, cv. destruct (Nat.ltb j b); [apply D'|apply dlim_const].
        + lia.
      - replace n with (b + (n - b))%nat by lia. rewrite rsum_split. 
        rewrite (rsum_zero (n - b)) by (intros j Hj; unfold cv; rewrite ltb_f by lia; ring).
        rewrite (rsum_ext b (fun j => - dU (b + i)%nat j * v j) (fun j => (-1) * (dU (b + i)%nat j * cv j))).
        + rewrite rsum_scal_l. ring.
        + intros j Hj. unfold cv, v'. rewrite ltb_t by lia. rewrite ltb_t by lia. ring. }
    assert (DX : forall i, (i < 2 * N)%nat -> derivable_pt_lim (fun t => g' t (b + i)%nat) t0 (v (b + i)%nat)).
    { intros i Hi. eapply dlim_eq; [apply D'|]. unfold v'. rewrite ltb_t by lia. reflexivity. }
    pose proof (sel_F_deriv N flt (fun t i => - F (clear_from b (g' t)) (om t) (b + i)%nat)
       (fun i => rsum b (fun j => - dU (b + i)%nat j * v j) + - dw (b + i)%nat * dom) t0 DF) as SF.
    pose proof (sel_X_deriv N (vs_M s) flt (fun t i => g' t (b + i)%nat) (fun i => v (b + i)%nat) t0 DX) as SX.
    unfold vp_fun. cbv zeta. eapply dlim_eq.
    + apply (normalised_deriv (sel_m N flt) (fun t => sel_F N flt (fun i => - F (clear_from b (g' t)) (om t) (b + i)%nat))
        (fun t => sel_X N (vs_M s) flt (fun i => g' t (b + i)%nat))
        (sel_F N flt (fun i => rsum b (fun j => - dU (b + i)%nat j * v j) + - dw (b + i)%nat * dom)) (sel_X N (vs_M s) flt (fun i => v (b + i)%nat)) t0); [| |exact SF|exact SX]; cbv beta; rewrite G0, ?Hom; assumption.
    + cbv beta zeta. rewrite G0, Hom. fold f0 x0.
      rewrite !sel_back_dot.
      rewrite (vec_ext _ _ (sel_F_lin N flt b (fun j k => - dU (b + k)%nat j) v (fun k => - dw (b + k)%nat) dom)).
      rewrite !(dot_lin_l (sel_m N flt) b (fun j => sel_F N flt (fun k => - dU (b + k)%nat j)) v (sel_F N flt (fun k => - dw (b + k)%nat)) dom).
      assert (GN : vp_grad N (vs_M s) flt b n f0 x0 dU dw n =
         dot (sel_m N flt) (sel_F N flt (fun i => - dw (b + i)%nat)) x0 / (norm2 (sel_m N flt) x0 * norm2 (sel_m N flt) f0)
         - dot (sel_m N flt) f0 x0 / (norm2 (sel_m N flt) x0 * norm2 (sel_m N flt) f0 ^ 3) * dot (sel_m N flt) (sel_F N flt (fun i => - dw (b + i)%nat)) f0).
      { unfold vp_grad. cbv zeta. rewrite !ltb_f, Nat.eqb_refl by lia. reflexivity. }
      rewrite GN.
      replace n with (b + (2 * N + (n - b - 2 * N)))%nat at 1 by lia. rewrite !rsum_split.
      rewrite (rsum_zero (n - b - 2 * N)).
      2:{ intros j Hj. unfold vp_grad. cbv zeta. rewrite !ltb_f by lia. rewrite (proj2 (Nat.eqb_neq _ _)) by lia. ring. }
      set (q := norm2 (sel_m N flt) x0 * norm2 (sel_m N flt) f0).
      set (c1 := dot (sel_m N flt) f0 x0 / (norm2 (sel_m N flt) x0 * norm2 (sel_m N flt) f0 ^ 3)).
      set (c2 := dot (sel_m N flt) f0 x0 / (norm2 (sel_m N flt) x0 ^ 3 * norm2 (sel_m N flt) f0)).
      rewrite (rsum_ext b (fun i => vp_grad N (vs_M s) flt b n f0 x0 dU dw i * v i)
        (fun j => / q * (dot (sel_m N flt) (sel_F N flt (fun k => - dU (b + k)%nat j)) x0 * v j)
                  - c1 * (dot (sel_m N flt) (sel_F N flt (fun k => - dU (b + k)%nat j)) f0 * v j))).
      2:{ intros j Hj. unfold vp_grad. cbv zeta. rewrite ltb_t by exact Hj. fold q c1. unfold Rdiv. ring. }
      rewrite (rsum_ext (2 * N) (fun i => vp_grad N (vs_M s) flt b n f0 x0 dU dw (b + i)%nat * v (b + i)%nat)
        (fun k => / q * (sel_back N (vs_M s) flt f0 k * v (b + k)%nat) - c2 * (sel_back N (vs_M s) flt x0 k * v (b + k)%nat))).
      2:{ intros j Hj. unfold vp_grad. cbv zeta. rewrite ltb_f, ltb_t by lia. fold q c2. replace (b + j - b)%nat with j by lia. unfold Rdiv. ring. }
      rewrite !rsum_minus, !rsum_scal_l. unfold Rdiv. ring.
Qed.

Lemma sel_dot k N h M flt Fv U : ordered_at k h ->
  dot (sel_m N flt) (sel_F N flt (fun i => - Fv (low_len k h * N + i)%nat)) (sel_X N M flt (fun i => U (low_len k h * N + i)%nat))
  = - vprnm_product k N h M flt Fv U.
Proof.
  intros Ho. set (b := (low_len k h * N)%nat).
  assert (HC : forall V j, harm_cos k N h V j = V (b + j)%nat) by (intros V j; apply harm_cos_k; exact Ho).
  assert (HS : forall V j, harm_sin k N h V j = V (b + (N + j))%nat).
  { intros V j. rewrite harm_sin_k by exact Ho. f_equal. unfold b. lia. }
  destruct flt as [phi|]; cbn [sel_m sel_F sel_X vprnm_product].
  - unfold filtered_product. cbv zeta. unfold dot at 1. rewrite !rsum_S. cbn [rsum]. unfold filter2. cbn [Nat.eqb].
    rewrite (dot_ext N phi phi (fun i => - Fv (b + i)%nat) (fun j => (-1) * harm_cos k N h Fv j)) by (auto; intros j Hj; rewrite HC; ring).
    rewrite (dot_ext N phi phi (fun i => - Fv (b + (N + i))%nat) (fun j => (-1) * harm_sin k N h Fv j)) by (auto; intros j Hj; rewrite HS; ring).
    rewrite (dot_ext N (vecmat N phi M) (fun j => rsum N (fun i => phi i * M i j)) (fun i => U (b + i)%nat) (harm_cos k N h U)) by (intros j Hj; rewrite ?HC; reflexivity).
    rewrite (dot_ext N (vecmat N phi M) (fun j => rsum N (fun i => phi i * M i j)) (fun i => U (b + (N + i))%nat) (harm_sin k N h U)) by (intros j Hj; rewrite ?HS; reflexivity).
    assert (L : forall p q, dot N p (fun j => (-1) * q j) = - dot N p q).
    { intros p q. unfold dot. rewrite (rsum_ext N _ (fun j => (-1) * (p j * q j))) by (intros; ring). rewrite rsum_scal_l. ring. }
    rewrite !L. ring.
  - unfold harmonic_product, dot. replace (2 * N)%nat with (N + N)%nat by lia. rewrite rsum_split, rsum_plus.
    rewrite (rsum_ext N (fun i => - Fv (b + i)%nat * U (b + i)%nat) (fun j => (-1) * (harm_cos k N h Fv j * harm_cos k N h U j))) by (intros j Hj; rewrite !HC; ring).
    rewrite (rsum_ext N (fun i => - Fv (b + (N + i))%nat * U (b + (N + i))%nat) (fun j => (-1) * (harm_sin k N h Fv j * harm_sin k N h U j))) by (intros j Hj; rewrite !HS; ring).
    rewrite !rsum_scal_l. ring.
Qed.

Lemma sel_F_norm k N h flt Fv : ordered_at k h ->
  norm2 (sel_m N flt) (sel_F N flt (fun i => - Fv (low_len k h * N + i)%nat)) = sqrt (superharmonic_force k N h flt Fv).
Proof.
  intros Ho. set (b := (low_len k h * N)%nat). unfold norm2. f_equal.
  assert (HC : forall V j, harm_cos k N h V j = V (b + j)%nat) by (intros V j; apply harm_cos_k; exact Ho).
  assert (HS : forall V j, harm_sin k N h V j = V (b + (N + j))%nat).
  { intros V j. rewrite harm_sin_k by exact Ho. f_equal. unfold b. lia. }
  destruct flt as [phi|]; cbn [sel_m sel_F superharmonic_force].
  - rewrite !rsum_S. cbn [rsum]. unfold filter2. cbn [Nat.eqb].
    rewrite (dot_ext N phi phi (fun i => - Fv (b + i)%nat) (fun j => (-1) * harm_cos k N h Fv j)) by (auto; intros j Hj; rewrite HC; ring).
    rewrite (dot_ext N phi phi (fun i => - Fv (b + (N + i))%nat) (fun j => (-1) * harm_sin k N h Fv j)) by (auto; intros j Hj; rewrite HS; ring).
    assert (L : forall p q, dot N p (fun j => (-1) * q j) = - dot N p q).
    { intros p q. unfold dot. rewrite (rsum_ext N _ (fun j => (-1) * (p j * q j))) by (intros; ring). rewrite rsum_scal_l. ring. }
    rewrite !L. ring.
  - unfold harmonic_product. replace (2 * N)%nat with (N + N)%nat by lia. rewrite rsum_split, rsum_plus.
    f_equal; apply rsum_ext; intros j Hj; rewrite ?HC, ?HS; ring.
Qed.

Lemma sel_X_norm k N h M flt U : ordered_at k h ->
  norm2 (sel_m N flt) (sel_X N M flt (fun i => U (low_len k h * N + i)%nat)) = sqrt (superharmonic_response k N h M flt U).
Proof.
  intros Ho. set (b := (low_len k h * N)%nat). unfold norm2. f_equal.
  assert (HC : forall V j, harm_cos k N h V j = V (b + j)%nat) by (intros V j; apply harm_cos_k; exact Ho).
  assert (HS : forall V j, harm_sin k N h V j = V (b + (N + j))%nat).
  { intros V j. rewrite harm_sin_k by exact Ho. f_equal. unfold b. lia. }
  destruct flt as [phi|]; cbn [sel_m sel_X superharmonic_response].
  - rewrite !rsum_S. cbn [rsum]. unfold filter2. cbn [Nat.eqb]. cbv zeta.
    rewrite (dot_ext N (vecmat N phi M) (fun j => rsum N (fun i => phi i * M i j)) (fun i => U (b + i)%nat) (harm_cos k N h U)) by (intros j Hj; rewrite ?HC; reflexivity).
    rewrite (dot_ext N (vecmat N phi M) (fun j => rsum N (fun i => phi i * M i j)) (fun i => U (b + (N + i))%nat) (harm_sin k N h U)) by (intros j Hj; rewrite ?HS; reflexivity).
    ring.
  - unfold harmonic_product. replace (2 * N)%nat with (N + N)%nat by lia. rewrite rsum_split, rsum_plus.
    f_equal; apply rsum_ext; intros j Hj; rewrite ?HC, ?HS; ring.
Qed.

Lemma hp_nonneg k N h F : 0 <= harmonic_product k N h F F.
Proof. apply rsum_nonneg. intros j Hj. nra. Qed.
Lemma sup_force_nonneg k N h flt F : 0 <= superharmonic_force k N h flt F.
Proof. destruct flt; cbn [superharmonic_force]; [nra|apply hp_nonneg]. Qed.
Lemma sup_resp_nonneg k N h M flt U : 0 <= superharmonic_response k N h M flt U.
Proof. destruct flt; cbn [superharmonic_response]; [cbv zeta; nra|apply hp_nonneg]. Qed.
Lemma sqrt_nz x : 0 <= x -> x <> 0 -> sqrt x <> 0.
Proof. intros H N E. apply N. rewrite <- (sqrt_sqrt x H), E. ring. Qed.

Lemma vprnm_value s h rhi Nt U w flt outs : admissible h -> ordered_at rhi h ->
  let N := vs_N s in
  Forall2 (fun f o => nl_aft f (below rhi N h U) w h Nt = Ok o) (vs_forces s) outs ->
  exists Rr G, vprnm_single_eqn s U w h rhi Nt true flt = Ok (Rr, Some G) /\
    Rr = - vprnm_product rhi N h (vs_M s) flt (total_coefs outs) U
           / (sqrt (superharmonic_response rhi N h (vs_M s) flt U) * sqrt (superharmonic_force rhi N h flt (total_coefs outs))).
Proof.
  intros Ha Ho N H. destruct (total_aft_sum s h Nt _ w outs Ha H) as (d & e & E).
  unfold vprnm_single_eqn. rewrite (proj1 (Nhc_spec h) (proj1 (proj2 Ha))). cbn [bind].
  rewrite (rhi_index_ok h rhi Ha). cbn [bind]. cbv zeta. fold N. rewrite (Nat.mul_comm N (low_len rhi h)).
  rewrite below_clear in E. rewrite E. cbn [bind]. eexists _, _. split; [reflexivity|].
  change (fun i => lsum (fun o => fst (fst o) i) outs) with (total_coefs outs).
  rewrite <- (sel_dot rhi N h (vs_M s) flt (total_coefs outs) U Ho), <- (sel_F_norm rhi N h flt (total_coefs outs) Ho), <- (sel_X_norm rhi N h (vs_M s) flt U Ho).
  reflexivity.
Qed.

Lemma vprnm_bound k N h M flt Fv U : ordered_at k h ->
  superharmonic_force k N h flt Fv <> 0 -> superharmonic_response k N h M flt U <> 0 ->
  -1 <= - vprnm_product k N h M flt Fv U / (sqrt (superharmonic_response k N h M flt U) * sqrt (superharmonic_force k N h flt Fv)) <= 1.
Proof.
  intros Ho Hf Hx. rewrite <- (sel_dot k N h M flt Fv U Ho), <- (sel_F_norm k N h flt Fv Ho), <- (sel_X_norm k N h M flt U Ho).
  apply normalised_bound; [rewrite sel_F_norm by exact Ho|rewrite sel_X_norm by exact Ho]; apply sqrt_nz; auto using sup_force_nonneg, sup_resp_nonneg.
Qed.

Lemma vprnm_value_zero k N h M flt Fv U :
  superharmonic_force k N h flt Fv <> 0 -> superharmonic_response k N h M flt U <> 0 ->
  (- vprnm_product k N h M flt Fv U / (sqrt (superharmonic_response k N h M flt U) * sqrt (superharmonic_force k N h flt Fv)) = 0
   <-> vprnm_product k N h M flt Fv U = 0).
Proof.
  intros Hf Hx. pose proof (sqrt_nz _ (sup_force_nonneg k N h flt Fv) Hf) as A. pose proof (sqrt_nz _ (sup_resp_nonneg k N h M flt U) Hx) as B.
  set (q := sqrt (superharmonic_response k N h M flt U) * sqrt (superharmonic_force k N h flt Fv)).
  assert (Hq : q <> 0) by (unfold q; intros E; apply Rmult_integral in E; tauto).
  split; intros E.
  - assert (Z : - vprnm_product k N h M flt Fv U = - vprnm_product k N h M flt Fv U / q * q) by (field; exact Hq).
    rewrite E in Z. lra.
  - rewrite E. unfold Rdiv. ring.
Qed.

Lemma vprnm_spec s h rhi Nt U w flt outs : admissible h -> ordered_at rhi h ->
  let N := vs_N s in
  Forall2 (fun f o => nl_aft f (below rhi N h U) w h Nt = Ok o) (vs_forces s) outs ->
  superharmonic_force rhi N h flt (total_coefs outs) <> 0 ->
  superharmonic_response rhi N h (vs_M s) flt U <> 0 ->
  exists Rr G, vprnm_single_eqn s U w h rhi Nt true flt = Ok (Rr, Some G) /\
    Rr = - vprnm_product rhi N h (vs_M s) flt (total_coefs outs) U
           / (sqrt (superharmonic_response rhi N h (vs_M s) flt U) * sqrt (superharmonic_force rhi N h flt (total_coefs outs))) /\
    -1 <= Rr <= 1 /\ (Rr = 0 <-> vprnm_product rhi N h (vs_M s) flt (total_coefs outs) U = 0).
Proof.
  intros Ha Ho N H Hf Hx. destruct (vprnm_value s h rhi Nt U w flt outs Ha Ho H) as (Rr & G & E & V). fold N in V.
  exists Rr, G. split; [exact E|]. split; [exact V|]. rewrite V. split; [apply vprnm_bound; assumption|apply vprnm_value_zero; assumption].
Qed.

(** harmonics above rhi have no influence *)
Lemma below_S k N h U : ordered_at k h -> below (k + 1) N h U = clear_from ((low_len k h + 2) * N) U.
Proof.
  intros Ho. unfold below, clear_from. apply vec_ext. intros r.
  replace (length (components (filter (fun x => Nat.ltb x (k + 1)) h))) with (low_len k h + 2)%nat; [reflexivity|].
  destruct Ho as (low & high & -> & Hk & Hl & Hh). unfold low_len. rewrite filter_low by assumption.
  rewrite filter_app. cbn [filter]. rewrite ltb_t by lia.
  replace (filter (fun x => Nat.ltb x (k + 1)) low) with low.
  - replace (filter (fun x => Nat.ltb x (k + 1)) high) with (@nil nat).
    + rewrite components_app, components_pos by exact Hk. rewrite app_length. reflexivity.
    + clear Hl. induction high as [|x l IH]; [reflexivity|]. cbn [filter].
      rewrite ltb_f by (specialize (Hh x (or_introl eq_refl)); lia). apply IH. intros y Hy. apply Hh. right. exact Hy.
  - clear Hh. induction low as [|x l IH]; [reflexivity|]. cbn [filter]. rewrite ltb_t by (specialize (Hl x (or_introl eq_refl)); lia).
    f_equal. apply IH. intros y Hy. apply Hl. right. exact Hy.
Qed.

Lemma vprnm_independent s h rhi Nt U U' w flt outs : admissible h -> ordered_at rhi h ->
  let N := vs_N s in
  Forall2 (fun f o => nl_aft f (below rhi N h U) w h Nt = Ok o) (vs_forces s) outs ->
  below (rhi + 1) N h U = below (rhi + 1) N h U' ->
  exists Rr G G', vprnm_single_eqn s U w h rhi Nt true flt = Ok (Rr, Some G) /\ vprnm_single_eqn s U' w h rhi Nt true flt = Ok (Rr, Some G').
Proof.
  intros Ha Ho N H HU. rewrite !below_S in HU by exact Ho.
  assert (EU : forall i, (i < (low_len rhi h + 2) * N)%nat -> U i = U' i).
  { intros i Hi. pose proof (f_equal (fun f : vec => f i) HU) as E. cbv beta in E. unfold clear_from in E. rewrite ltb_t in E by exact Hi. exact E. }
  assert (EB : below rhi N h U = below rhi N h U') by (rewrite !below_clear; apply clear_from_ext; intros i Hi; apply EU; nia).
  destruct (vprnm_value s h rhi Nt U w flt outs Ha Ho H) as (Rr & G & E & V).
  fold N in V. assert (H' := H). rewrite EB in H'.
  destruct (vprnm_value s h rhi Nt U' w flt outs Ha Ho H') as (Rr' & G' & E' & V'). fold N in V'.
  exists Rr, G, G'. split; [exact E|]. rewrite E'. f_equal. f_equal. rewrite V, V'.
  rewrite <- !(sel_dot rhi N h (vs_M s) flt (total_coefs outs) _ Ho), <- !(sel_X_norm rhi N h (vs_M s) flt _ Ho).
  assert (X : forall i, (i < sel_m N flt)%nat -> sel_X N (vs_M s) flt (fun i => U' (low_len rhi h * N + i)%nat) i
     = sel_X N (vs_M s) flt (fun i => U (low_len rhi h * N + i)%nat) i)
    by (intros i Hi; apply sel_X_ext; [intros j Hj; symmetry; apply EU; nia|exact Hi]).
  rewrite (dot_ext _ _ _ _ _ (fun i _ => eq_refl) X), (norm2_ext _ _ _ X). reflexivity.
Qed.

Lemma vprnm_shape_nz s h rhi Nt U w flt outs : admissible h -> ordered_at rhi h ->
  let N := vs_N s in
  let n := (length (components h) * N)%nat in
  let b := (low_len rhi h * N)%nat in
  Forall (aft_smooth n h Nt (below rhi N h U) w) (vs_forces s) ->
  Forall2 (fun f o => nl_aft f (below rhi N h U) w h Nt = Ok o) (vs_forces s) outs ->
  superharmonic_force rhi N h flt (total_coefs outs) <> 0 ->
  superharmonic_response rhi N h (vs_M s) flt U <> 0 ->
  exists (f : vec -> R -> R) (gv : vec),
    (forall U' w', exists G, vprnm_single_eqn s U' w' h rhi Nt true flt = Ok (f U' w', Some G)) /\
    vprnm_single_eqn s U w h rhi Nt true flt = Ok (f U w, Some gv) /\
    is_joint_gradient n f U w gv (gv n).
Proof.
  intros Ha Ho N n b H H2 Hf Hx. destruct (vprnm_shape s h rhi Nt U w flt Ha Ho H) as (F & gv & A & B & C & D). fold N n b in A, B, D.
  exists (vp_fun N (vs_M s) flt b F), gv. split; [exact A|]. split; [exact B|]. apply D.
  - destruct (total_aft_sum s h Nt _ w outs Ha H2) as (d & e & E). destruct (C (below rhi N h U) w) as (d' & e' & E').
    fold N in E. rewrite E in E'. injection E' as E' _ _. rewrite below_clear in E'. fold b in E'. rewrite <- E'.
    change (norm2 (sel_m N flt) (sel_F N flt (fun i => - total_coefs outs (b + i)%nat)) <> 0).
    unfold b. rewrite (sel_F_norm rhi N h flt (total_coefs outs) Ho). apply sqrt_nz; [apply sup_force_nonneg|exact Hf].
  - unfold b. rewrite sel_X_norm by exact Ho. apply sqrt_nz; [apply sup_resp_nonneg|exact Hx].
Qed.

Lemma hbm_res_ext s X X' Fl h Nt g :
  let n := (length (components h) * vs_N s)%nat in
  (forall i, (i <= n)%nat -> X i = X' i) -> hbm_res s X Fl h Nt g = hbm_res s X' Fl h Nt g.
Proof.
  intros n H. unfold hbm_res. rewrite nhc_aft. fold n.
  rewrite (H n (le_n n)), (take_ext n X X') by (intros i Hi; apply H; lia).
  assert (M : forall A i, matvec n A X i = matvec n A X' i) by (intros A i; apply matvec_ext; intros j Hj; apply H; lia).
  destruct (harmonic_stiffness _ _ _ _ _ _ _ _) as [[E dE]|]; [|reflexivity]. cbn [bind].
  destruct (total_aft _ _ _ _ _ _) as [[F G]|]; [|reflexivity]. cbn [bind].
  assert (V : (fun i => matvec n E X i + F i - Fl i) = (fun i => matvec n E X' i + F i - Fl i)) by (apply vec_ext; intros i; rewrite M; reflexivity).
  rewrite V. destruct dE as [dE|]; [|reflexivity]. destruct G as [[dF dw]|]; [|reflexivity].
  repeat f_equal. apply vec_ext. intros i. rewrite M. reflexivity.
Qed.

Lemma hbm_res_self s X Fl h Nt g :
  let n := (length (components h) * vs_N s)%nat in
  hbm_res s (with_entry n X (X n)) Fl h Nt g = hbm_res s X Fl h Nt g.
Proof.
  intros n. apply hbm_res_ext. fold n. intros i Hi. unfold with_entry. destruct (Nat.ltb_spec i n); [reflexivity|]. f_equal. lia.
Qed.

(** ---- vprnm_res ---- *)
Lemma vprnm_exact s h rhi Nt X Fl flt cs outs : admissible h -> ordered_at rhi h ->
  let N := vs_N s in
  let n := (length (components h) * N)%nat in
  Forall (aft_smooth n h Nt (take n X) (X n)) (vs_forces s) ->
  Forall (aft_smooth n h Nt (below rhi N h X) (X n)) (vs_forces s) ->
  Forall2 (fun f o => nl_aft f (below rhi N h X) (X n) h Nt = Ok o) (vs_forces s) outs ->
  superharmonic_force rhi N h flt (total_coefs outs) <> 0 ->
  superharmonic_response rhi N h (vs_M s) flt X <> 0 ->
  exact_residual (n + 1) (n + 1) (fun X => vprnm_res s X h rhi Fl Nt true flt cs) X.
Proof.
  intros Ha Ho N n H H' H2 Hf Hx.
  destruct (vprnm_shape_nz s h rhi Nt X (X n) flt outs Ha Ho H' H2 Hf Hx) as (f & gv & P & Q & D).
  destruct (hbm_shape_at s h Nt X (X n) Ha H) as (E & dE & F & dU & dw & HE & HF & A & B & _). fold N in A, B, HF, D, P, Q. fold n in A, B, HF, D.
  set (z := (zi h * N)%nat). assert (Hz : (z <= n)%nat).
  { unfold z, n. destruct Ha as (Hne & _). destruct h as [|[|k] l]; [congruence| |]; unfold zi; cbn [hd Nat.eqb]; [|nia].
    change (components (0%nat :: l)) with (Cos O :: components l). cbn [length]. nia. }
  eexists (fun X' i => if Nat.ltb i n then matvec n (E (X' n)) X' i + F X' (X' n) i - (if Nat.ltb i z then Fl i else Fl i * X' (n + 1)%nat) else cs * f X' (X' n)), _, _.
  split; [|split].
  - intros X'. unfold vprnm_res. rewrite nhc_aft, (nonempty_match h _ _ (proj1 Ha)). cbv zeta. fold N. fold n.
    rewrite (proj1 (Nhc_spec h) (proj1 (proj2 Ha))). cbn [bind].
    destruct (A X' (X' n) (fun i => if Nat.ltb i z then Fl i else Fl i * X' (n + 1)%nat)) as [[J l] HG].
    rewrite (hbm_res_self s X' _ h Nt true) in HG. fold z. rewrite HG. cbn [bind]. destruct (P X' (X' n)) as [G2 EG]. rewrite EG. cbn [bind]. eexists. reflexivity.
  - unfold vprnm_res. rewrite nhc_aft, (nonempty_match h _ _ (proj1 Ha)). cbv zeta. fold N. fold n.
    rewrite (proj1 (Nhc_spec h) (proj1 (proj2 Ha))). cbn [bind].
    pose proof (B (fun i => if Nat.ltb i z then Fl i else Fl i * X (n + 1)%nat)) as HG.
    rewrite (hbm_res_self s X _ h Nt true) in HG. fold z. rewrite HG. cbn [bind]. rewrite Q. cbn [bind]. reflexivity.
  - intros g v t0 Hg Hv i Hi. rewrite rsum_hcat, rsum_p1.
    destruct (Nat.ltb_spec i n) as [Hin|Hin].
    + rewrite (ltb_f n n) by lia.
      rewrite (rsum_ext n _ (fun j => madd (E (X n)) dU i j * v j)) by (intros j Hj; rewrite ltb_t by exact Hj; reflexivity).
      eapply dlim_eq; [apply (hbm_along n E dE F X (X n) dU dw HE HF g v (fun t => g t n) (v n)
         (fun t => if Nat.ltb i z then Fl i else Fl i * g t (n + 1)%nat) (if Nat.ltb i z then 0 else Fl i * v (n + 1)%nat) t0 i)|].
      * intros j Hj. apply Hg. lia.
      * apply Hg. lia.
      * intros j Hj. apply Hv. lia.
      * apply Hv. lia.
      * destruct (Nat.ltb i z); [apply dlim_const|apply dlim_scal; apply Hv; lia].
      * exact Hin.
      * rewrite (Nat.mul_comm N (zi h)). fold z. destruct (Nat.ltb i z); ring.
    + eapply dlim_eq.
      * apply dlim_scal. apply (D g v (fun t => g t n) (v n) t0); [intros j Hj; apply Hg; lia|apply Hg; lia|intros j Hj; apply Hv; lia|apply Hv; lia].
      * rewrite (Nat.mul_comm N (zi h)). fold z. rewrite (ltb_f i z) by lia. rewrite Rmult_plus_distr_l, <- rsum_scal_l.
        rewrite (rsum_ext n (fun j => cs * (gv j * v j)) (fun j => cs * gv j * v j)) by (intros; ring). ring.
Qed.

Lemma vprnm_zero s h rhi Nt X Fl flt cs outs outs' : admissible h -> ordered_at rhi h ->
  let N := vs_N s in
  let n := (length (components h) * N)%nat in
  X n <> 0 -> cs <> 0 ->
  Forall2 (fun f o => nl_aft f (take n X) (X n) h Nt = Ok o) (vs_forces s) outs ->
  Forall2 (fun f o => nl_aft f (below rhi N h X) (X n) h Nt = Ok o) (vs_forces s) outs' ->
  superharmonic_force rhi N h flt (total_coefs outs') <> 0 ->
  superharmonic_response rhi N h (vs_M s) flt X <> 0 ->
  exists Rr G, vprnm_res s X h rhi Fl Nt true flt cs = Ok (Rr, Some G) /\
    ((forall i, (i < n + 1)%nat -> Rr i = 0) <->
     equation_of_motion N h (vs_M s) (vs_C s) (vs_K s) X (X n) (total_motion N h outs (X n))
       (fun i t => static_part h Fl i + X (n + 1)%nat * (motion N h Fl (X n) i t - static_part h Fl i)) /\
     vprnm_product rhi N h (vs_M s) flt (total_coefs outs') X = 0).
Proof.
  intros Ha Ho N n Hw Hcs H H2 Hf Hx. set (z := (zi h * N)%nat).
  assert (Hz : (z <= n)%nat).
  { unfold z, n. destruct Ha as (Hne & _). destruct h as [|[|k] l]; [congruence| |]; unfold zi; cbn [hd Nat.eqb]; [|nia].
    change (components (0%nat :: l)) with (Cos O :: components l). cbn [length]. nia. }
  destruct (hbm_zero_at s h Nt X (X n) (fun i => if Nat.ltb i z then Fl i else Fl i * X (n + 1)%nat) outs
     (fun i t => static_part h Fl i + X (n + 1)%nat * (motion N h Fl (X n) i t - static_part h Fl i)) Ha Hw H) as (Rr & [J l] & HR & HZ).
  - intros i t Hi. rewrite <- (Rmult_1_l (static_part h Fl i)) at 1. rewrite <- static_split by assumption.
    apply motion_ext; [exact Hi|]. intros r Hr. fold N z. unfold clear_from, clear_to. destruct (Nat.ltb r z); ring.
  - fold N in HR, HZ. fold n in HR, HZ. rewrite (hbm_res_self s X _ h Nt true) in HR.
    destruct (vprnm_spec s h rhi Nt X (X n) flt outs' Ha Ho H2 Hf Hx) as (Rv & Gv & EV & _ & _ & ZV). fold N in ZV.
    unfold vprnm_res. rewrite nhc_aft, (nonempty_match h _ _ (proj1 Ha)). cbv zeta. fold N. fold n.
    rewrite (proj1 (Nhc_spec h) (proj1 (proj2 Ha))). cbn [bind]. fold z. rewrite HR. cbn [bind]. rewrite EV. cbn [bind].
    eexists _, _. split; [reflexivity|]. cbv beta. rewrite <- HZ, <- ZV. split.
    + intros R0. split.
      * intros i Hi. specialize (R0 i ltac:(lia)). rewrite ltb_t in R0 by exact Hi. exact R0.
      * specialize (R0 n ltac:(lia)). rewrite ltb_f in R0 by lia. apply Rmult_integral in R0. destruct R0; [contradiction|assumption].
    + intros [R1 R2] i Hi. destruct (Nat.ltb_spec i n); [apply R1; assumption|]. rewrite R2. ring.
Qed.

(** ---- vprnm_amp_phase_res ---- *)
Lemma vprnm_ap_exact s h rhi Nt X Fl recov order flt cs outs : admissible h -> starts_with_1 h -> ordered_at rhi h ->
  let N := vs_N s in
  let n := (length (components h) * N)%nat in
  let w := X (n + 2)%nat in
  w <> 0 ->
  Forall (aft_smooth n h Nt (take n X) w) (vs_forces s) ->
  Forall (aft_smooth n h Nt (below rhi N h X) w) (vs_forces s) ->
  Forall2 (fun f o => nl_aft f (below rhi N h X) w h Nt = Ok o) (vs_forces s) outs ->
  superharmonic_force rhi N h flt (total_coefs outs) <> 0 ->
  superharmonic_response rhi N h (vs_M s) flt X <> 0 ->
  exact_residual (n + 3) (n + 3) (fun X => vprnm_amp_phase_res s X Fl h rhi recov order Nt true flt cs) X.
Proof.
  intros Ha H1 Ho N n w Hw H H' H2 Hf Hx.
  destruct (vprnm_shape_nz s h rhi Nt X w flt outs Ha Ho H' H2 Hf Hx) as (f & gv & P & Q & D).
  destruct (amp_phase_shape s h Nt X w Fl recov order Ha H1 Hw H) as (E & F & J & l & A & B & _ & DA).
  fold N in A, B, DA, D. fold n in A, B, DA, D.
  eexists (fun X' i => if Nat.ltb i (n + 2) then ap_fun N n h E F Fl recov order X' (X' (n + 2)%nat) (X' (n + 3)%nat) i else cs * f X' (X' (n + 2)%nat)), _, _.
  split; [|split].
  - intros X'. unfold vprnm_amp_phase_res. rewrite nhc_aft. cbv zeta. fold N. fold n.
    destruct (A X' (X' (n + 3)%nat)) as [[J' l'] HG]. rewrite HG. cbn [bind].
    destruct (P X' (X' (n + 2)%nat)) as [G2 EG]. rewrite EG. cbn [bind]. eexists. reflexivity.
  - unfold vprnm_amp_phase_res. rewrite nhc_aft. cbv zeta. fold N. fold n. fold w.
    rewrite (B X (X (n + 3)%nat) (fun i _ => eq_refl) eq_refl). cbn [bind]. rewrite Q. cbn [bind]. reflexivity.
  - intros g v t0 Hg Hv i Hi. rewrite rsum_hcat. replace (n + 3)%nat with ((n + 2) + 1)%nat by lia. rewrite rsum_p1.
    rewrite (ltb_f (n + 2) (n + 2)) by lia.
    destruct (Nat.ltb_spec i (n + 2)) as [Hin|Hin].
    + rewrite (rsum_ext (n + 2) _ (fun j => J i j * v j)) by (intros j Hj; rewrite ltb_t by exact Hj; reflexivity).
      replace (n + 2 + 1)%nat with (n + 3)%nat by lia.
      eapply dlim_eq; [apply (DA g v (fun t => g t (n + 2)%nat) (fun t => g t (n + 3)%nat) (v (n + 2)%nat) (v (n + 3)%nat) t0 i)|].
      * intros j Hj. apply Hg. lia.
      * apply Hg. lia.
      * intros j Hj. apply Hv. lia.
      * apply Hv. lia.
      * apply Hv. lia.
      * exact Hin.
      * destruct (Nat.eqb i n); ring.
    + rewrite (proj2 (Nat.eqb_neq i n)) by lia.
      rewrite (ltb_f (n + 2) n) by lia.
      rewrite (rsum_split n 2).
      rewrite (rsum_ext n _ (fun j => cs * (gv j * v j))) by (intros j Hj; rewrite ltb_t by exact Hj; ring).
      rewrite (rsum_zero 2) by (intros j Hj; rewrite ltb_f, ltb_t by lia; ring).
      eapply dlim_eq.
      * apply dlim_scal. apply (D g v (fun t => g t (n + 2)%nat) (v (n + 2)%nat) t0); [intros j Hj; apply Hg; lia|apply Hg; lia|intros j Hj; apply Hv; lia|apply Hv; lia].
      * rewrite rsum_scal_l. ring.
Qed.

Lemma vprnm_ap_zero s h rhi Nt X Fl recov order flt cs outs outs' : admissible h -> starts_with_1 h -> ordered_at rhi h ->
  let N := vs_N s in
  let n := (length (components h) * N)%nat in
  let w := X (n + 2)%nat in
  w <> 0 -> cs <> 0 ->
  Forall2 (fun f o => nl_aft f (take n X) w h Nt = Ok o) (vs_forces s) outs ->
  Forall2 (fun f o => nl_aft f (below rhi N h X) w h Nt = Ok o) (vs_forces s) outs' ->
  superharmonic_force rhi N h flt (total_coefs outs') <> 0 ->
  superharmonic_response rhi N h (vs_M s) flt X <> 0 ->
  exists Rr G, vprnm_amp_phase_res s X Fl h rhi recov order Nt true flt cs = Ok (Rr, Some G) /\
    ((forall i, (i < n + 3)%nat -> Rr i = 0) <->
     (equation_of_motion N h (vs_M s) (vs_C s) (vs_K s) X w (total_motion N h outs w)
       (fun i t => static_part h Fl i + (X n * cos (w * t) + X (n + 1)%nat * sin (w * t)) * first_cos N h Fl i) /\
      (forall t, w ^ order * recovered N h recov X w t = X (n + 3)%nat * cos (w * t))) /\
     vprnm_product rhi N h (vs_M s) flt (total_coefs outs') X = 0).
Proof.
  intros Ha H1 Ho N n w Hw Hcs H H2 Hf Hx.
  destruct (amp_phase_zero s h Nt X Fl recov (X (n + 3)%nat) order outs Ha H1 Hw H) as (Rr & [J l] & HR & HZ).
  destruct (vprnm_spec s h rhi Nt X w flt outs' Ha Ho H2 Hf Hx) as (Rv & Gv & EV & _ & _ & ZV). fold N in ZV, HZ. fold n in HZ. fold w in HZ.
  unfold vprnm_amp_phase_res. rewrite nhc_aft. cbv zeta. fold N. fold n. rewrite HR. cbn [bind]. fold w. rewrite EV. cbn [bind].
  eexists _, _. split; [reflexivity|]. cbv beta. rewrite <- HZ, <- ZV. split.
  - intros R0. split.
    + intros i Hi. specialize (R0 i ltac:(lia)). rewrite ltb_t in R0 by exact Hi. exact R0.
    + specialize (R0 (n + 2)%nat ltac:(lia)). rewrite ltb_f in R0 by lia. apply Rmult_integral in R0. destruct R0; [contradiction|assumption].
  - intros [R1 R2] i Hi. destruct (Nat.ltb_spec i (n + 2)); [apply R1; assumption|]. rewrite R2. ring.
Qed.
