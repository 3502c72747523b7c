(** The laws of the instantaneous elements and their derivatives. *)
From Coq Require Import Reals Lra Lia Arith List Bool FunctionalExtensionality.
From Verif.Lib Require Import RSum Calc Py.
From Verif.Spec Require Import Calculus Harmonic Elements.
From Verif.Model Require Import LocalForces Aft.
From Verif.Proofs Require Import AftP.
Import ListNotations.
Open Scope R_scope.

(** ---- force = T f(Q X) ---- *)
Lemma mdiag_jacobian n (phi : nat -> R -> R) (dphi : vec) (u : vec) :
  (forall d, (d < n)%nat -> derivable_pt_lim (phi d) (u d) (dphi d)) ->
  is_jacobian n n (fun u d => phi d (u d)) u (mdiag dphi).
Proof.
  intros H g v t0 Hg Hv d Hd. eapply dlim_eq.
  - apply (dlim_comp (fun t => g t d) (phi d) t0 (v d) (dphi d)); [apply Hv; exact Hd|].
    rewrite Hg by exact Hd. apply H. exact Hd.
  - rewrite (rsum_single n d _ Hd).
    + unfold mdiag. rewrite Nat.eqb_refl. reflexivity.
    + intros j Hj Hne. unfold mdiag. destruct (Nat.eqb_spec d j); [lia|ring].
Qed.

Lemma element_jacobian N nnl (Q T : mat) (phi : nat -> R -> R) (dphi : vec) (X : vec) :
  (forall d, (d < nnl)%nat -> derivable_pt_lim (phi d) (matvec N Q X d) (dphi d)) ->
  is_jacobian N N (fun X => matvec nnl T (fun d => phi d (matvec N Q X d))) X
     (matmul nnl (matmul nnl T (mdiag dphi)) Q).
Proof.
  intros H. apply (jacobian_linear_chain nnl nnl T Q (fun u d => phi d (u d)) X (mdiag dphi) N).
  apply mdiag_jacobian. exact H.
Qed.

Lemma mdiag_ext_matmul n (T Q : mat) (a b : vec) i j :
  (forall d, (d < n)%nat -> a d = b d) ->
  matmul n (matmul n T (mdiag a)) Q i j = matmul n (matmul n T (mdiag b)) Q i j.
Proof.
  intros H. unfold matmul. apply rsum_ext. intros d Hd. f_equal. apply rsum_ext. intros e He. f_equal.
  unfold mdiag. destruct (Nat.eqb e d); [apply H; exact He|reflexivity].
Qed.

Lemma d_power k n u : derivable_pt_lim (fun u => k * u ^ S n) u (INR (S n) * k * u ^ n).
Proof.
  eapply dlim_eq; [apply dlim_scal; apply dlim_pow; apply dlim_id|]. cbn [Nat.sub].
  rewrite Nat.sub_0_r. ring.
Qed.

Lemma cubic_d k u : derivable_pt_lim (fun u => k * u ^ 3) u (3 * k * u ^ 2).
Proof. eapply dlim_eq; [apply (d_power k 2)|]. simpl INR. ring. Qed.
Lemma quintic_d k u : derivable_pt_lim (fun u => k * u ^ 5) u (5 * k * u ^ 4).
Proof. eapply dlim_eq; [apply (d_power k 4)|]. simpl INR. ring. Qed.

Lemma cubic_force_jacobian N nnl Q T kalpha X :
  is_jacobian N N (fun X => fst (cubic_force N nnl Q T kalpha X)) X (snd (cubic_force N nnl Q T kalpha X)).
Proof.
  apply (element_jacobian N nnl Q T (fun d u => kalpha d * u ^ 3) (fun d => 3 * kalpha d * matvec N Q X d ^ 2) X).
  intros d Hd. apply cubic_d.
Qed.
Lemma quintic_force_jacobian N nnl Q T kalpha X :
  is_jacobian N N (fun X => fst (quintic_force N nnl Q T kalpha X)) X (snd (quintic_force N nnl Q T kalpha X)).
Proof.
  apply (element_jacobian N nnl Q T (fun d u => kalpha d * u ^ 5) (fun d => 5 * kalpha d * matvec N Q X d ^ 4) X).
  intros d Hd. apply quintic_d.
Qed.
Lemma damping_force_jacobian N nnl Q T calpha X :
  is_jacobian N N (fun X => fst (damping_force N nnl Q T calpha X)) X (snd (damping_force N nnl Q T calpha X)).
Proof.
  apply (element_jacobian N nnl Q T (fun d u => calpha d * u ^ 3) (fun d => 3 * calpha d * matvec N Q X d ^ 2) X).
  intros d Hd. apply cubic_d.
Qed.

(** ---- polynomials ---- *)
Lemma monomial_rprod n e u : monomial n e u = rprod n (fun j => u j ^ e j).
Proof.
  unfold monomial. induction n as [|n IH]; [reflexivity|].
  rewrite seq_S, map_app, fold_right_app. cbn [map fold_right rprod Nat.add].
  rewrite <- IH. clear IH. generalize (u n ^ e n). intros x.
  induction (map (fun j => u j ^ e j) (seq 0 n)) as [|y l IH]; cbn [fold_right]; [ring|rewrite IH; ring].
Qed.

Lemma rprod_ext n f g : (forall j, (j < n)%nat -> f j = g j) -> rprod n f = rprod n g.
Proof. induction n as [|n IH]; intros H; [reflexivity|]. cbn [rprod]. rewrite IH, H by auto. reflexivity. Qed.

(** replacing the factor i by its derivative *)
Definition dterm (e : nat -> nat) (u : vec) (i : nat) (j : nat) : R :=
  if Nat.eqb j i then INR (e j) * u j ^ (e j - 1) else u j ^ e j.

Lemma dlim_rprod n (e : nat -> nat) (g : R -> vec) v t0 :
  (forall j, (j < n)%nat -> derivable_pt_lim (fun t => g t j) t0 (v j)) ->
  derivable_pt_lim (fun t => rprod n (fun j => g t j ^ e j)) t0
    (rsum n (fun i => rprod n (dterm e (g t0) i) * v i)).
Proof.
  induction n as [|n IH]; intros H.
  - cbn [rprod rsum]. exact (dlim_const 1 t0).
  - cbn [rprod rsum].
    eapply dlim_eq.
    + apply dlim_mult; [apply IH; intros; apply H; lia|]. apply dlim_pow. apply H. lia.
    + rewrite <- rsum_scal_r. f_equal.
      * apply rsum_ext. intros i Hi. unfold dterm at 3. destruct (Nat.eqb_spec n i); [lia|]. ring.
      * unfold dterm at 2. rewrite Nat.eqb_refl.
        rewrite (rprod_ext n (dterm e (g t0) n) (fun j => g t0 j ^ e j)).
        { ring. }
        intros j Hj. unfold dterm. destruct (Nat.eqb_spec j n); [lia|reflexivity].
Qed.

Lemma rprod_pull n i (x : R) f : (i < n)%nat ->
  rprod n (fun j => if Nat.eqb j i then x * f j else f j) = x * rprod n f.
Proof.
  intros Hi. induction n as [|n IH]; [lia|]. cbn [rprod]. destruct (Nat.eqb_spec n i) as [->|Hne].
  - rewrite (rprod_ext i _ f).
    + ring.
    + intros j Hj. destruct (Nat.eqb_spec j i); [lia|reflexivity].
  - rewrite IH by lia. ring.
Qed.

Lemma poly_dterms_dterm nnl qq u c i : (i < nnl)%nat ->
  poly_dterms nnl qq u c i = rprod nnl (dterm (qq c) u i).
Proof.
  intros Hi. unfold poly_dterms. rewrite <- (rprod_pull nnl i (INR (qq c i)) (fun j => u j ^ poly_qd qq i c j) Hi).
  apply rprod_ext. intros j Hj. unfold dterm, poly_qd. destruct (Nat.eqb_spec j i) as [->|]; [|reflexivity].
  destruct (Nat.eqb_spec (qq c i) 0) as [E|E]; [rewrite E; simpl; ring|reflexivity].
Qed.

Lemma poly_terms_jacobian nnl cnl qq u :
  is_jacobian nnl cnl (poly_terms nnl qq) u (poly_dterms nnl qq u).
Proof.
  intros g v t0 Hg Hv c Hc. unfold poly_terms.
  eapply dlim_eq; [apply (dlim_rprod nnl (qq c) g v t0 Hv)|]. apply rsum_ext. intros i Hi. f_equal.
  rewrite poly_dterms_dterm by exact Hi. apply rprod_ext. intros j Hj. unfold dterm. rewrite Hg by exact Hj. reflexivity.
Qed.

Lemma poly_history_value nnl cnl E qq u d :
  fst (poly_history nnl cnl E qq u) d = rsum cnl (fun c => E d c * monomial nnl (qq c) u).
Proof. cbn. unfold matvec, poly_terms. apply rsum_ext. intros c Hc. rewrite monomial_rprod. reflexivity. Qed.

Lemma poly_history_jacobian nnl cnl E qq u :
  is_jacobian nnl nnl (fun u => fst (poly_history nnl cnl E qq u)) u (snd (poly_history nnl cnl E qq u)).
Proof.
  intros g v t0 Hg Hv d Hd. cbn [fst snd poly_history].
  eapply dlim_eq; [apply dlim_matvec; intros c Hc; apply (poly_terms_jacobian nnl cnl qq u g v t0 Hg Hv c Hc)|].
  change (rsum nnl (fun j => matmul cnl E (poly_dterms nnl qq u) d j * v j))
    with (matvec nnl (matmul cnl E (poly_dterms nnl qq u)) v d).
  rewrite matvec_matmul. reflexivity.
Qed.

Lemma poly_history_ext nnl cnl E qq u u' : (forall d, (d < nnl)%nat -> u d = u' d) ->
  (forall d, (d < nnl)%nat -> fst (poly_history nnl cnl E qq u) d = fst (poly_history nnl cnl E qq u') d) /\
  (forall d e, (d < nnl)%nat -> (e < nnl)%nat -> snd (poly_history nnl cnl E qq u) d e = snd (poly_history nnl cnl E qq u') d e).
Proof.
  intros H. cbn [fst snd poly_history]. split.
  - intros d Hd. apply matvec_ext. intros c Hc. unfold poly_terms. apply rprod_ext. intros j Hj. rewrite H by exact Hj. reflexivity.
  - intros d e Hd He. unfold matmul. apply rsum_ext. intros c Hc. f_equal. unfold poly_dterms. f_equal.
    apply rprod_ext. intros j Hj. rewrite H by exact Hj. reflexivity.
Qed.

Lemma matmul_assoc_pt n m A B C i j :
  matmul m (matmul n A B) C i j = matmul n A (matmul m B C) i j.
Proof.
  unfold matmul.
  rewrite (rsum_ext m _ (fun k => rsum n (fun l => A i l * (B l k * C k j))))
    by (intros; rewrite <- rsum_scal_r; apply rsum_ext; intros; ring).
  rewrite rsum_swap. apply rsum_ext. intros l Hl. rewrite rsum_scal_l. reflexivity.
Qed.

Lemma poly_force_jacobian N nnl cnl Q T E qq X :
  is_jacobian N N (fun X => fst (poly_force N nnl cnl Q T E qq X)) X (snd (poly_force N nnl cnl Q T E qq X)).
Proof.
  pose proof (jacobian_linear_chain nnl nnl T Q (fun u => fst (poly_history nnl cnl E qq u)) X
                (snd (poly_history nnl cnl E qq (matvec N Q X))) N (poly_history_jacobian nnl cnl E qq _)) as J.
  eapply is_jacobian_ext; [reflexivity| |exact J]. intros i j Hi Hj.
  cbn [fst snd poly_history poly_force]. unfold matmul at 1 4. apply rsum_ext. intros d Hd. f_equal.
  symmetry. apply (matmul_assoc_pt nnl cnl).
Qed.

(** ---- local histories ---- *)
Lemma exact_of_du (l : local_law) d u v :
  (forall u1 v1 v2, law_f l d u1 v1 = law_f l d u1 v2) -> law_dv l d u v = 0 ->
  derivable_pt_lim (fun u => law_f l d u v) u (law_du l d u v) ->
  exact_partials (law_f l d) u v (law_du l d u v) (law_dv l d u v).
Proof.
  intros Hc H0 HD x y t dx dy Ex Ey Dx Dy. subst u.
  eapply dlim_ext; [intros s; apply (Hc (x s) v (y s))|]. rewrite H0. eapply dlim_eq.
  - apply (dlim_comp x (fun u => law_f l d u v) t dx _ Dx HD).
  - ring.
Qed.

Lemma cubic_exact k d u v : exact_partials (law_f (cubic_history k) d) u v
   (law_du (cubic_history k) d u v) (law_dv (cubic_history k) d u v).
Proof. apply exact_of_du; [reflexivity|reflexivity|]. apply cubic_d. Qed.
Lemma quintic_exact k d u v : exact_partials (law_f (quintic_history k) d) u v
   (law_du (quintic_history k) d u v) (law_dv (quintic_history k) d u v).
Proof. apply exact_of_du; [reflexivity|reflexivity|]. apply quintic_d. Qed.
Lemma damping_exact c d u v : exact_partials (law_f (damping_history c) d) u v
   (law_du (damping_history c) d u v) (law_dv (damping_history c) d u v).
Proof.
  intros x y t dx dy Ex Ey Dx Dy. unfold law_f, law_du, law_dv. cbn [fst snd damping_history]. subst v.
  eapply dlim_eq; [apply (dlim_comp y (fun v => c d * v ^ 3) t dy _ Dy (cubic_d (c d) (y t)))|]. ring.
Qed.

(** ---- unilateral spring ---- *)
Lemma unilateral_value k Np delta d u v : 0 <= k d ->
  law_f (unilateral_history k Np delta) d u v = unilateral_law (k d) (Np d) (delta d) u.
Proof.
  intros Hk. unfold law_f, unilateral_law. cbn. destruct (Rle_dec u (delta d)).
  - apply Rmax_right. nra.
  - apply Rmax_left. nra.
Qed.

Lemma unilateral_du_out k Np delta d u v : 0 <= k d -> u <= delta d ->
  law_du (unilateral_history k Np delta) d u v = 0.
Proof.
  intros Hk Hu. unfold law_du. cbn. rewrite Rmax_right by nra.
  replace (Rltb (- Np d) (- Np d)) with false by (symmetry; apply Rltb_false; lra). ring.
Qed.
Lemma unilateral_du_in k Np delta d u v : 0 <= k d -> delta d < u ->
  law_du (unilateral_history k Np delta) d u v = k d.
Proof.
  intros Hk Hu. unfold law_du. cbn. rewrite Rmax_left by nra.
  destruct (Rltb _ _) eqn:E; [ring|]. apply Rltb_false in E. nra.
Qed.

Lemma unilateral_derivative k Np delta u : u <> delta ->
  derivable_pt_lim (unilateral_law k Np delta) u (if Rle_dec u delta then 0 else k).
Proof.
  intros Hne. destruct (Rle_dec u delta) as [H|H].
  - apply dlim_ext_loc with (fun _ => - Np); [|apply dlim_const].
    exists (delta - u). split; [lra|]. intros t Ht. unfold unilateral_law. destruct (Rle_dec t delta); [reflexivity|].
    apply Rabs_def2 in Ht. lra.
  - apply dlim_ext_loc with (fun u => k * (u - delta) - Np).
    + exists (u - delta). split; [lra|]. intros t Ht. unfold unilateral_law. destruct (Rle_dec t delta); [|reflexivity].
      apply Rabs_def2 in Ht. lra.
    + eapply dlim_eq; [apply dlim_minus; [apply dlim_scal; apply dlim_minus; [apply dlim_id|apply dlim_const]|apply dlim_const]|]. ring.
Qed.

Lemma unilateral_exact k Np delta d u v : 0 <= k d -> u <> delta d ->
  exact_partials (law_f (unilateral_history k Np delta) d) u v
   (law_du (unilateral_history k Np delta) d u v) (law_dv (unilateral_history k Np delta) d u v).
Proof.
  intros Hk Hne. apply exact_of_du; [reflexivity|reflexivity|].
  eapply dlim_ext; [intros t; symmetry; apply unilateral_value; exact Hk|].
  eapply dlim_eq; [apply unilateral_derivative; exact Hne|].
  destruct (Rle_dec u (delta d)); symmetry; [apply unilateral_du_out|apply unilateral_du_in]; lra.
Qed.

Lemma unilateral_mono k Np delta u u' : 0 <= k -> u <= u' -> unilateral_law k Np delta u <= unilateral_law k Np delta u'.
Proof. intros. unfold unilateral_law. destruct (Rle_dec u delta), (Rle_dec u' delta); nra. Qed.
Lemma unilateral_lower k Np delta u : 0 <= k -> - Np <= unilateral_law k Np delta u.
Proof. intros. unfold unilateral_law. destruct (Rle_dec u delta); nra. Qed.
Lemma unilateral_lipschitz k Np delta u u' : 0 <= k ->
  Rabs (unilateral_law k Np delta u - unilateral_law k Np delta u') <= k * Rabs (u - u').
Proof.
  intros Hk. unfold unilateral_law. destruct (Rle_dec u delta), (Rle_dec u' delta);
    unfold Rabs; repeat destruct Rcase_abs; nra.
Qed.
Lemma lipschitz_continuity L f x : 0 <= L -> (forall u u', Rabs (f u - f u') <= L * Rabs (u - u')) -> continuity_pt f x.
Proof.
  intros HL H eps He. exists (eps / (L + 1)). split; [apply Rdiv_lt_0_compat; lra|].
  intros y [_ Hy]. simpl in *. unfold R_dist in *. eapply Rle_lt_trans; [apply H|].
  assert (Rabs (y - x) * (L + 1) < eps).
  { apply (Rmult_lt_compat_r (L + 1)) in Hy; [|lra]. unfold Rdiv in Hy. rewrite Rmult_assoc, Rinv_l in Hy by lra. lra. }
  pose proof (Rabs_pos (y - x)). nra.
Qed.
Lemma unilateral_continuous k Np delta u : 0 <= k -> continuity_pt (unilateral_law k Np delta) u.
Proof. intros Hk. apply (lipschitz_continuity k); [exact Hk|]. intros. apply unilateral_lipschitz. exact Hk. Qed.

Lemma unilateral_kink k Np delta l : 0 < k -> ~ derivable_pt_lim (unilateral_law k Np delta) delta l.
Proof.
  intros Hk H. destruct (H (k / 4) ltac:(lra)) as [[e He] D]. simpl in D.
  pose proof (D (e / 2) ltac:(lra) ltac:(rewrite Rabs_right; lra)) as A.
  pose proof (D (- (e / 2)) ltac:(lra) ltac:(rewrite Rabs_left; lra)) as B.
  unfold unilateral_law in A, B.
  destruct (Rle_dec (delta + e / 2) delta); [lra|]. destruct (Rle_dec delta delta); [|lra].
  destruct (Rle_dec (delta + - (e / 2)) delta); [|lra].
  replace ((k * (delta + e / 2 - delta) - Np - - Np) / (e / 2)) with k in A by (field; lra).
  replace ((- Np - - Np) / - (e / 2)) with 0 in B by (field; lra).
  apply Rabs_def2 in A. apply Rabs_def2 in B. lra.
Qed.

Lemma unilateral_force_value N nnl Q T k Np delta X i : (forall d, (d < nnl)%nat -> 0 <= k d) ->
  fst (unilateral_force N nnl Q T k Np delta X) i
  = rsum nnl (fun d => T i d * unilateral_law (k d) (Np d) (delta d) (matvec N Q X d)).
Proof.
  intros Hk. cbn. unfold matvec at 1. apply rsum_ext. intros d Hd. f_equal.
  apply (unilateral_value k Np delta d (matvec N Q X d) 0). apply Hk. exact Hd.
Qed.
Lemma unilateral_force_jacobian N nnl Q T k Np delta X :
  (forall d, (d < nnl)%nat -> 0 <= k d) -> (forall d, (d < nnl)%nat -> matvec N Q X d <> delta d) ->
  is_jacobian N N (fun X => fst (unilateral_force N nnl Q T k Np delta X)) X (snd (unilateral_force N nnl Q T k Np delta X)).
Proof.
  intros Hk Hne.
  pose proof (element_jacobian N nnl Q T (fun d u => law_f (unilateral_history k Np delta) d u 0)
     (fun d => law_du (unilateral_history k Np delta) d (matvec N Q X d) 0) X) as J.
  eapply is_jacobian_ext; [| |apply J].
  - reflexivity.
  - intros i j Hi Hj. cbn [snd unilateral_force]. apply mdiag_ext_matmul. intros d Hd. unfold law_du. cbn. ring.
  - intros d Hd. eapply dlim_ext; [intros t; symmetry; apply unilateral_value; apply Hk; exact Hd|].
    eapply dlim_eq; [apply unilateral_derivative; apply Hne; exact Hd|].
    pose proof (Hk d Hd). destruct (Rle_dec (matvec N Q X d) (delta d)); symmetry; [apply unilateral_du_out|apply unilateral_du_in]; lra.
Qed.

(** ---- Iwan backbone ---- *)
Section Iwan.
  Variables (kt Fs chi beta : R).
  Hypothesis Hkt : 0 < kt.
  Hypothesis HFs : 0 < Fs.
  Hypothesis Hchi : -1 < chi.
  Hypothesis Hbeta : 0 <= beta.
  Let phi := macroslip kt Fs chi beta.
  Let K := kt / ((1 + beta) * (chi + 2)).

  Lemma iwan_q_pos : 0 < beta + (chi + 1) / (chi + 2).
  Proof. assert (0 < (chi + 1) / (chi + 2)) by (apply Rdiv_lt_0_compat; lra). lra. Qed.
  Lemma phi_pos : 0 < phi.
  Proof.
    pose proof iwan_q_pos. unfold phi, macroslip. apply Rdiv_lt_0_compat; apply Rmult_lt_0_compat; lra.
  Qed.
  Lemma K_pos : 0 < K.
  Proof. unfold K. apply Rdiv_lt_0_compat; [exact Hkt|]. apply Rmult_lt_0_compat; lra. Qed.

  (** relative power, zero at zero *)
  Definition P (a : R) : R := if Reqb a 0 then 0 else Rpower (a / phi) (1 + chi).

  Lemma P_nonneg a : 0 <= P a.
  Proof. unfold P. destruct (Reqb a 0); [lra|]. left. apply exp_pos. Qed.
  Lemma P_phi : P phi = 1.
  Proof.
    pose proof phi_pos. unfold P. destruct (Reqb phi 0) eqn:E; [apply Reqb_true in E; lra|].
    replace (phi / phi) with 1 by (field; lra). unfold Rpower. rewrite ln_1, Rmult_0_r. apply exp_0.
  Qed.
  Lemma P_mono a b : 0 <= a <= b -> P a <= P b.
  Proof.
    intros [H0 H]. pose proof phi_pos as Hp. unfold P at 1. destruct (Reqb a 0) eqn:Ea; [apply P_nonneg|].
    apply Reqb_false in Ea. unfold P. destruct (Reqb b 0) eqn:Eb; [apply Reqb_true in Eb; lra|].
    destruct H as [H|<-]; [|lra]. apply Rle_Rpower_l; [lra|]. split.
    - apply Rdiv_lt_0_compat; lra.
    - apply Rmult_le_compat_r; [left; apply Rinv_0_lt_compat; exact Hp|lra].
  Qed.

  Lemma coef_E_eq a : 0 < a -> iwan_coef_E kt Fs chi beta * npow a (1 + chi) = K * P a.
  Proof.
    intros Ha. pose proof phi_pos as Hp. pose proof iwan_q_pos as Hq. unfold iwan_coef_E.
    replace (kt * (beta + (chi + 1) / (chi + 2)) / (Fs * (1 + beta))) with (/ phi)
      by (unfold phi, macroslip; set (q := beta + (chi + 1) / (chi + 2)) in *; field; repeat split; lra).
    assert (0 < / phi) by (apply Rinv_0_lt_compat; exact Hp).
    unfold npow. destruct (Reqb (/ phi) 0) eqn:E1; [apply Reqb_true in E1; lra|].
    unfold P. destruct (Reqb a 0) eqn:E2; [apply Reqb_true in E2; lra|].
    unfold Rdiv at 2. rewrite (Rmult_comm a (/ phi)). rewrite <- Rpower_mult_distr by assumption.
    unfold K. field. lra.
  Qed.

  Lemma npow_S a : 0 < a -> npow a (2 + chi) = a * npow a (1 + chi).
  Proof.
    intros Ha. unfold npow. destruct (Reqb a 0) eqn:E; [apply Reqb_true in E; lra|].
    replace (2 + chi) with (1 + (1 + chi)) by ring. rewrite Rpower_plus, Rpower_1 by exact Ha. reflexivity.
  Qed.

  Lemma loading_eq a : 0 < a -> iwan_loading kt Fs chi beta a = if Rlt_dec a phi then a * (kt - K * P a) else Fs.
  Proof.
    intros Ha. unfold iwan_loading. fold phi. destruct (Rlt_dec a phi); [|reflexivity].
    unfold P. destruct (Reqb a 0) eqn:E; [apply Reqb_true in E; lra|]. unfold K. field. lra.
  Qed.

  Lemma Rsign_pos u : 0 < u -> Rsign u = 1.
  Proof. intros. unfold Rsign. destruct (Rlt_dec 0 u); lra. Qed.
  Lemma Rsign_neg u : u < 0 -> Rsign u = -1.
  Proof. intros. unfold Rsign. destruct (Rlt_dec 0 u); [lra|]. destruct (Rlt_dec u 0); lra. Qed.
  Lemma Rsign_0 : Rsign 0 = 0.
  Proof. unfold Rsign. destruct (Rlt_dec 0 0); [lra|]. destruct (Rlt_dec 0 0); lra. Qed.

  Lemma iwan_amp_value a : 0 < a ->
    ((kt * a - iwan_coef_E kt Fs chi beta * npow a (2 + chi)) * (if Rltb a (iwan_phi_max kt Fs chi beta) then 1 else 0)
      + Fs * (if Rleb (iwan_phi_max kt Fs chi beta) a then 1 else 0)) = iwan_loading kt Fs chi beta a.
  Proof.
    intros Ha. change (iwan_phi_max kt Fs chi beta) with phi. rewrite loading_eq by exact Ha.
    rewrite npow_S by exact Ha.
    replace (iwan_coef_E kt Fs chi beta * (a * npow a (1 + chi))) with (a * (K * P a)).
    2:{ rewrite <- coef_E_eq by exact Ha. ring. }
    destruct (Rlt_dec a phi) as [H|H].
    - rewrite (proj2 (Rltb_true a phi) H), (proj2 (Rleb_false phi a) H). ring.
    - rewrite (proj2 (Rltb_false a phi)) by lra. rewrite (proj2 (Rleb_true phi a)) by lra. ring.
  Qed.

  Lemma iwan_value d u v : law_f (iwan_history kt Fs chi beta) d u v = iwan_backbone kt Fs chi beta u.
  Proof.
    unfold law_f, iwan_backbone. cbn -[npow iwan_coef_E iwan_phi_max Rltb Rleb Rsign].
    destruct (Rlt_dec u 0) as [H|H].
    - rewrite Rsign_neg by exact H. replace (-1 * u) with (- u) by ring. rewrite iwan_amp_value by lra. ring.
    - destruct (Rlt_dec 0 u) as [H'|H'].
      + rewrite Rsign_pos by exact H'. replace (1 * u) with u by ring. rewrite iwan_amp_value by lra. ring.
      + replace u with 0 by lra. rewrite Rsign_0. ring.
  Qed.

  Lemma iwan_odd u : iwan_backbone kt Fs chi beta (- u) = - iwan_backbone kt Fs chi beta u.
  Proof.
    unfold iwan_backbone. destruct (Rlt_dec (- u) 0), (Rlt_dec u 0), (Rlt_dec 0 u), (Rlt_dec 0 (- u)); try lra.
    rewrite Ropp_involutive. reflexivity.
  Qed.

  (** the smooth curve a (kt - K P(|a|)), and its clamping at phi *)
  Definition g (u : R) : R := u * (kt - K * P (Rabs u)).
  Definition dg (u : R) : R := kt - (2 + chi) * K * P (Rabs u).

  Lemma g_phi : g phi = Fs.
  Proof.
    pose proof phi_pos as Hp. pose proof iwan_q_pos as Hq. unfold g. rewrite Rabs_right by lra. rewrite P_phi. unfold K, phi, macroslip.
    assert (HQ : 0 < (1 + beta) * (chi + 2) - 1) by nra.
    replace (beta + (chi + 1) / (chi + 2)) with (((1 + beta) * (chi + 2) - 1) / (chi + 2)) by (field; lra).
    field. repeat split; lra.
  Qed.

  Lemma g_odd u : g (- u) = - g u.
  Proof. unfold g. rewrite Rabs_Ropp. ring. Qed.

  Definition clamp (u : R) : R := Rmax (- phi) (Rmin phi u).

  Lemma backbone_clamp u : iwan_backbone kt Fs chi beta u = g (clamp u).
  Proof.
    pose proof phi_pos as Hp. unfold iwan_backbone, clamp.
    destruct (Rlt_dec u 0) as [H|H].
    - rewrite loading_eq by lra. destruct (Rlt_dec (- u) phi) as [H'|H'].
      + rewrite Rmin_right by lra. rewrite Rmax_right by lra. unfold g. rewrite Rabs_left by lra. ring.
      + rewrite Rmin_right by lra. rewrite Rmax_left by lra. rewrite g_odd, g_phi. reflexivity.
    - destruct (Rlt_dec 0 u) as [H'|H'].
      + rewrite loading_eq by lra. destruct (Rlt_dec u phi).
        * rewrite Rmin_right by lra. rewrite Rmax_right by lra. unfold g. rewrite Rabs_right by lra. reflexivity.
        * rewrite Rmin_left by lra. rewrite Rmax_right by lra. rewrite g_phi. reflexivity.
      + replace u with 0 by lra. rewrite Rmin_right by lra. rewrite Rmax_right by lra. unfold g. ring.
  Qed.

  Lemma P_lim0 eps : 0 < eps -> exists d, 0 < d /\ forall t, Rabs t < d -> P (Rabs t) < eps.
  Proof.
    intros He. pose proof phi_pos as Hp. exists (phi * Rpower eps (/ (1 + chi))).
    split; [apply Rmult_lt_0_compat; [exact Hp|apply exp_pos]|]. intros t Ht.
    unfold P. destruct (Reqb (Rabs t) 0) eqn:E; [exact He|]. apply Reqb_false in E.
    pose proof (Rabs_pos t) as H0. assert (Hq : 0 < Rabs t / phi) by (apply Rdiv_lt_0_compat; lra).
    replace eps with (Rpower (Rpower eps (/ (1 + chi))) (1 + chi)) at 1.
    - apply Rlt_Rpower_l; [lra|]. split; [exact Hq|]. apply (Rmult_lt_reg_r phi); [exact Hp|].
      unfold Rdiv. rewrite Rmult_assoc, Rinv_l by lra. lra.
    - rewrite Rpower_mult. replace (/ (1 + chi) * (1 + chi)) with 1 by (field; lra). apply Rpower_1. exact He.
  Qed.

  Lemma dlim_P a : 0 < a -> derivable_pt_lim (fun a => Rpower (a / phi) (1 + chi)) a ((1 + chi) * Rpower (a / phi) (1 + chi) / a).
  Proof.
    intros Ha. pose proof phi_pos as Hp. assert (Hq : 0 < a / phi) by (apply Rdiv_lt_0_compat; assumption).
    eapply dlim_eq.
    - apply (dlim_comp (fun a => a / phi) (fun x => Rpower x (1 + chi)) a (/ phi) ((1 + chi) * Rpower (a / phi) (1 + chi - 1))).
      + unfold Rdiv. eapply dlim_eq; [apply dlim_scal_r; apply dlim_id|ring].
      + apply derivable_pt_lim_power. exact Hq.
    - replace (Rpower (a / phi) (1 + chi)) with (Rpower (a / phi) (1 + chi - 1) * (a / phi)).
      + field. lra.
      + rewrite <- (Rpower_1 (a / phi) Hq) at 2. rewrite <- Rpower_plus. f_equal. ring.
  Qed.

  Lemma dlim_g_pos u : 0 < u -> derivable_pt_lim g u (dg u).
  Proof.
    intros Hu. pose proof phi_pos as Hp.
    apply dlim_ext_loc with (fun u => u * (kt - K * Rpower (u / phi) (1 + chi))).
    - exists u. split; [exact Hu|]. intros t Ht. apply Rabs_def2 in Ht. unfold g, P. rewrite Rabs_right by lra.
      destruct (Reqb t 0) eqn:E; [apply Reqb_true in E; lra|reflexivity].
    - eapply dlim_eq.
      + apply dlim_mult; [apply dlim_id|]. apply dlim_minus; [apply dlim_const|]. apply dlim_scal. apply dlim_P. exact Hu.
      + unfold dg, P. rewrite Rabs_right by lra. destruct (Reqb u 0) eqn:E; [apply Reqb_true in E; lra|]. field. lra.
  Qed.

  Lemma dlim_g_neg u : u < 0 -> derivable_pt_lim g u (dg u).
  Proof.
    intros Hu. apply dlim_ext with (fun u => - g (- u)); [intros t; rewrite g_odd; ring|].
    eapply dlim_eq.
    - apply dlim_opp. apply (dlim_comp (fun u => - u) g u (-1) (dg (- u))).
      + eapply dlim_eq; [apply dlim_opp; apply dlim_id|ring].
      + apply dlim_g_pos. lra.
    - unfold dg. rewrite Rabs_Ropp. ring.
  Qed.

  Lemma dlim_g_0 : derivable_pt_lim g 0 (dg 0).
  Proof.
    intros eps He. pose proof K_pos as HK. destruct (P_lim0 (eps / K)) as [d [Hd HP]]; [apply Rdiv_lt_0_compat; assumption|].
    exists (mkposreal d Hd). intros t Ht Hlt. simpl in Hlt. rewrite Rplus_0_l.
    unfold dg, g. rewrite Rabs_R0. replace (P 0) with 0 by (unfold P; rewrite (proj2 (Reqb_true 0 0)); reflexivity).
    replace ((t * (kt - K * P (Rabs t)) - 0 * (kt - K * 0)) / t - (kt - (2 + chi) * K * 0)) with (- (K * P (Rabs t))) by (field; exact Ht).
    rewrite Rabs_Ropp, Rabs_right.
    - specialize (HP t Hlt). apply (Rmult_lt_compat_l K) in HP; [|exact HK].
      replace (K * (eps / K)) with eps in HP by (field; lra). exact HP.
    - apply Rle_ge. apply Rmult_le_pos; [lra|apply P_nonneg].
  Qed.

  Lemma dlim_g u : derivable_pt_lim g u (dg u).
  Proof.
    destruct (Rtotal_order u 0) as [H|[->|H]]; [apply dlim_g_neg|apply dlim_g_0|apply dlim_g_pos]; assumption.
  Qed.

  Lemma dg_nonneg u : Rabs u <= phi -> 0 <= dg u.
  Proof.
    intros H. pose proof K_pos as HK. pose proof (P_mono (Rabs u) phi (conj (Rabs_pos u) H)) as HP. rewrite P_phi in HP.
    unfold dg. assert ((2 + chi) * K * P (Rabs u) <= (2 + chi) * K) by (assert (0 < (2 + chi) * K) by (apply Rmult_lt_0_compat; lra); nra).
    assert ((2 + chi) * K <= kt).
    { unfold K. replace ((2 + chi) * (kt / ((1 + beta) * (chi + 2)))) with (kt / (1 + beta)) by (field; lra).
      apply (Rmult_le_reg_r (1 + beta)); [lra|]. unfold Rdiv. rewrite Rmult_assoc, Rinv_l by lra. nra. }
    lra.
  Qed.

  Lemma g_mono u v : - phi <= u -> u <= v -> v <= phi -> g u <= g v.
  Proof.
    intros Hu [H|<-] Hv; [|lra]. destruct (MVT_cor2 g dg u v H) as [c [E Hc]].
    - intros c _. apply dlim_g.
    - assert (0 <= dg c) by (apply dg_nonneg; apply Rabs_le; lra). nra.
  Qed.

  Lemma clamp_range u : - phi <= clamp u <= phi.
  Proof.
    pose proof phi_pos. unfold clamp. split; [apply Rmax_l|]. apply Rmax_lub; [lra|apply Rmin_l].
  Qed.
  Lemma clamp_mono u v : u <= v -> clamp u <= clamp v.
  Proof. intros H. unfold clamp. apply Rle_max_compat_l. apply Rle_min_compat_l. exact H. Qed.

  Lemma iwan_mono u v : u <= v -> iwan_backbone kt Fs chi beta u <= iwan_backbone kt Fs chi beta v.
  Proof.
    intros H. rewrite !backbone_clamp. pose proof (clamp_range u). pose proof (clamp_range v).
    apply g_mono; [lra|apply clamp_mono; exact H|lra].
  Qed.
  Lemma iwan_macro u : phi <= u -> iwan_backbone kt Fs chi beta u = Fs.
  Proof.
    intros H. pose proof phi_pos. rewrite backbone_clamp. unfold clamp. rewrite Rmin_left by exact H.
    rewrite Rmax_right by lra. apply g_phi.
  Qed.
  Lemma iwan_bound u : Rabs (iwan_backbone kt Fs chi beta u) <= Fs.
  Proof.
    pose proof phi_pos. pose proof (clamp_range u). rewrite backbone_clamp.
    apply Rabs_le. rewrite <- g_phi, <- g_odd. split; apply g_mono; lra.
  Qed.
  Lemma clamp_continuous u : continuity_pt clamp u.
  Proof.
    apply (lipschitz_continuity 1); [lra|]. intros a b. pose proof phi_pos. unfold clamp, Rmax, Rmin.
    repeat destruct Rle_dec; unfold Rabs; repeat destruct Rcase_abs; lra.
  Qed.
  Lemma iwan_continuous u : continuity_pt (iwan_backbone kt Fs chi beta) u.
  Proof.
    assert (E : iwan_backbone kt Fs chi beta = Ranalysis1.comp g clamp)
      by (apply functional_extensionality; intros; apply backbone_clamp).
    rewrite E. apply continuity_pt_comp; [apply clamp_continuous|].
    apply derivable_continuous_pt. exists (dg (clamp u)). apply dlim_g.
  Qed.

  Lemma iwan_derivative u : Rabs u <> phi ->
    derivable_pt_lim (iwan_backbone kt Fs chi beta) u (if Rlt_dec (Rabs u) phi then dg u else 0).
  Proof.
    intros Hne. pose proof phi_pos as Hp. destruct (Rlt_dec (Rabs u) phi) as [H|H].
    - apply dlim_ext_loc with g; [|apply dlim_g]. exists (phi - Rabs u). split; [lra|]. intros t Ht.
      rewrite backbone_clamp. f_equal. assert (Rabs t < phi).
      { pose proof (Rabs_triang (t - u) u). replace (t - u + u) with t in H0 by ring. lra. }
      apply Rabs_def2 in H0. unfold clamp. rewrite Rmin_right by lra. rewrite Rmax_right by lra. reflexivity.
    - apply dlim_ext_loc with (fun _ => g (clamp u)); [|apply dlim_const].
      exists (Rabs u - phi). split; [lra|]. intros t Ht. rewrite backbone_clamp. f_equal. apply Rabs_def2 in Ht.
      unfold clamp. revert H Hne Ht. unfold Rabs. destruct (Rcase_abs u); intros.
      + rewrite (Rmin_right phi u) by lra. rewrite (Rmin_right phi t) by lra. rewrite !Rmax_left by lra. reflexivity.
      + rewrite (Rmin_left phi u) by lra. rewrite (Rmin_left phi t) by lra. reflexivity.
  Qed.

  Lemma iwan_du d u v : law_du (iwan_history kt Fs chi beta) d u v = if Rlt_dec (Rabs u) phi then dg u else 0.
  Proof.
    pose proof phi_pos as Hp.
    assert (E : Rsign u * u = Rabs u).
    { destruct (Rtotal_order u 0) as [H|[->|H]].
      - rewrite Rsign_neg, Rabs_left by exact H. ring.
      - rewrite Rabs_R0. ring.
      - rewrite Rsign_pos by exact H. rewrite Rabs_right by lra. ring. }
    unfold law_du. cbn -[npow iwan_coef_E iwan_phi_max Rltb Rleb Rsign]. rewrite E.
    change (iwan_phi_max kt Fs chi beta) with phi. destruct (Rlt_dec (Rabs u) phi) as [H|H].
    - rewrite (proj2 (Rltb_true (Rabs u) phi) H). rewrite Rmult_1_r. unfold dg.
      destruct (Req_dec (Rabs u) 0) as [H0|H0].
      + rewrite H0. unfold npow. rewrite (proj2 (Reqb_true 0 0) eq_refl). rewrite (proj2 (Reqb_false (1 + chi) 0)) by lra.
        unfold P. rewrite (proj2 (Reqb_true 0 0) eq_refl). ring.
      + assert (0 < Rabs u) by (pose proof (Rabs_pos u); lra).
        replace (iwan_coef_E kt Fs chi beta * (2 + chi) * npow (Rabs u) (1 + chi))
          with ((2 + chi) * (iwan_coef_E kt Fs chi beta * npow (Rabs u) (1 + chi))) by ring.
        rewrite coef_E_eq by assumption. ring.
    - rewrite (proj2 (Rltb_false (Rabs u) phi)) by lra. ring.
  Qed.

  Lemma iwan_exact d u v : Rabs u <> phi ->
    exact_partials (law_f (iwan_history kt Fs chi beta) d) u v
      (law_du (iwan_history kt Fs chi beta) d u v) (law_dv (iwan_history kt Fs chi beta) d u v).
  Proof.
    intros Hne. apply exact_of_du; [reflexivity|reflexivity|].
    eapply dlim_ext; [intros t; symmetry; apply iwan_value|]. rewrite iwan_du. apply iwan_derivative. exact Hne.
  Qed.

  Lemma iwan_initial_stiffness d v : law_du (iwan_history kt Fs chi beta) d 0 v = kt.
  Proof.
    pose proof phi_pos. rewrite iwan_du, Rabs_R0. destruct (Rlt_dec 0 phi); [|lra]. unfold dg. rewrite Rabs_R0. unfold P.
    rewrite (proj2 (Reqb_true 0 0) eq_refl). ring.
  Qed.

  Lemma iwan_force_value N nnl Q T X i :
    fst (iwan_force N nnl Q T kt Fs chi beta X) i
    = rsum nnl (fun d => T i d * iwan_backbone kt Fs chi beta (matvec N Q X d)).
  Proof.
    unfold iwan_force. cbn [fst]. unfold matvec at 1. apply rsum_ext. intros d Hd. f_equal.
    rewrite <- (iwan_value d (matvec N Q X d) 0). reflexivity.
  Qed.
  Lemma iwan_force_jacobian N nnl Q T X :
    (forall d, (d < nnl)%nat -> Rabs (matvec N Q X d) <> phi) ->
    is_jacobian N N (fun X => fst (iwan_force N nnl Q T kt Fs chi beta X)) X (snd (iwan_force N nnl Q T kt Fs chi beta X)).
  Proof.
    intros Hne.
    apply (element_jacobian N nnl Q T (fun d u => law_f (iwan_history kt Fs chi beta) d u 0)
       (fun d => law_du (iwan_history kt Fs chi beta) d (matvec N Q X d) 0) X).
    intros d Hd. rewrite iwan_du. eapply dlim_ext; [intros t; symmetry; apply iwan_value|]. apply iwan_derivative.
    apply Hne. exact Hd.
  Qed.
End Iwan.

(** ---- AFT of the elements ---- *)
Section ElementAft.
  Variables (N nnl : nat) (Q T : mat) (h : list nat) (Nt : nat).
  Hypothesis Ha : admissible h.
  Hypothesis HN : (2 * list_max h + 1 < Nt)%nat.
  Hypothesis Hev : Nat.even Nt = true.

  Lemma aft_generic (law : local_law) :
    aft_is_exact (fun U w => aft_instantaneous N nnl Q T law U w h Nt) N nnl Q T (law_f law) h Nt
      (exact_samples N nnl Q (law_f law) (law_du law) (law_dv law) h Nt).
  Proof. exact (aft_instantaneous_exact N nnl Q T law h Nt Ha HN Hev). Qed.

  Lemma aft_is_exact_weaken aft f f' (reg reg' : vec -> R -> Prop) :
    (forall d u v, (d < nnl)%nat -> f d u v = f' d u v) -> (forall U w, reg' U w -> reg U w) ->
    aft_is_exact aft N nnl Q T f h Nt reg -> aft_is_exact aft N nnl Q T f' h Nt reg'.
  Proof.
    intros Hf Hr (F & dU & dw & A & B & C & D). exists F, dU, dw. repeat split; auto.
    intros U w v Hv c i Hc Hi. rewrite (B U w v Hv c i Hc Hi).
    unfold fourier_coef. f_equal. apply rsum_ext. intros n Hn. f_equal. apply rsum_ext. intros d Hd. f_equal. apply Hf. exact Hd.
  Qed.

  Lemma aft_cubic k : aft_is_exact (fun U w => aft_instantaneous N nnl Q T (cubic_history k) U w h Nt)
    N nnl Q T (fun d u _ => k d * u ^ 3) h Nt (fun _ _ => True).
  Proof.
    eapply aft_is_exact_weaken; [| |apply aft_generic]; [reflexivity|].
    intros U w _ d n v Hd Hn Hv. apply cubic_exact.
  Qed.
  Lemma aft_quintic k : aft_is_exact (fun U w => aft_instantaneous N nnl Q T (quintic_history k) U w h Nt)
    N nnl Q T (fun d u _ => k d * u ^ 5) h Nt (fun _ _ => True).
  Proof.
    eapply aft_is_exact_weaken; [| |apply aft_generic]; [reflexivity|].
    intros U w _ d n v Hd Hn Hv. apply quintic_exact.
  Qed.
  Lemma aft_damping c : aft_is_exact (fun U w => aft_instantaneous N nnl Q T (damping_history c) U w h Nt)
    N nnl Q T (fun d _ v => c d * v ^ 3) h Nt (fun _ _ => True).
  Proof.
    eapply aft_is_exact_weaken; [| |apply aft_generic]; [reflexivity|].
    intros U w _ d n v Hd Hn Hv. apply damping_exact.
  Qed.
  Lemma aft_unilateral k Np delta : (forall d, (d < nnl)%nat -> 0 <= k d) ->
    aft_is_exact (fun U w => aft_instantaneous N nnl Q T (unilateral_history k Np delta) U w h Nt)
      N nnl Q T (fun d u _ => unilateral_law (k d) (Np d) (delta d) u) h Nt
      (fun U _ => forall d n, (d < nnl)%nat -> (n < Nt)%nat -> local_motion N Q h U d (sample_phase Nt n) <> delta d).
  Proof.
    intros Hk. eapply aft_is_exact_weaken; [| |apply aft_generic].
    - intros d u v Hd. apply unilateral_value. apply Hk. exact Hd.
    - intros U w H d n v Hd Hn Hv. apply unilateral_exact; [apply Hk; exact Hd|apply H; assumption].
  Qed.
  Lemma aft_iwan kt Fs chi beta : 0 < kt -> 0 < Fs -> -1 < chi -> 0 <= beta ->
    aft_is_exact (fun U w => aft_instantaneous N nnl Q T (iwan_history kt Fs chi beta) U w h Nt)
      N nnl Q T (fun _ u _ => iwan_backbone kt Fs chi beta u) h Nt
      (fun U _ => forall d n, (d < nnl)%nat -> (n < Nt)%nat ->
          Rabs (local_motion N Q h U d (sample_phase Nt n)) <> macroslip kt Fs chi beta).
  Proof.
    intros H1 H2 H3 H4. eapply aft_is_exact_weaken; [| |apply aft_generic].
    - intros d u v Hd. apply iwan_value; assumption.
    - intros U w H d n v Hd Hn Hv. apply iwan_exact; auto.
  Qed.
  Lemma aft_poly cnl E qq :
    exists (F : vec -> vec) (dU : vec -> mat),
      (forall U w, aft_coupled N nnl Q T (poly_history nnl cnl E qq) U w h Nt = Ok (F U, dU U, fun _ => 0)) /\
      (forall U c i, (c < length (components h))%nat -> (i < N)%nat ->
           F U (c * N + i)%nat = fourier_coef Nt (fun n => rsum nnl (fun d => T i d *
               rsum cnl (fun p => E d p * monomial nnl (qq p) (fun e => local_motion N Q h U e (sample_phase Nt n)))))
               (nth c (components h) (Cos O))) /\
      (forall U, is_jacobian (length (components h) * N) (length (components h) * N) F U (dU U)).
  Proof.
    destruct (aft_coupled_exact N nnl Q T (poly_history nnl cnl E qq) h Nt Ha HN Hev
       (poly_history_jacobian nnl cnl E qq) (poly_history_ext nnl cnl E qq)) as (F & dU & A & B & C).
    exists F, dU. repeat split; auto. intros U c i Hc Hi. rewrite (B U c i Hc Hi).
    unfold fourier_coef. f_equal. apply rsum_ext. intros n Hn. f_equal. apply rsum_ext. intros d Hd. f_equal.
    apply poly_history_value.
  Qed.
End ElementAft.

(** the force of an element without any history: documented values *)
Lemma cubic_force_value N nnl Q T k X i : fst (cubic_force N nnl Q T k X) i
  = rsum nnl (fun d => T i d * (k d * (rsum N (fun j => Q d j * X j)) ^ 3)).
Proof. reflexivity. Qed.
Lemma quintic_force_value N nnl Q T k X i : fst (quintic_force N nnl Q T k X) i
  = rsum nnl (fun d => T i d * (k d * (rsum N (fun j => Q d j * X j)) ^ 5)).
Proof. reflexivity. Qed.
Lemma poly_force_value N nnl cnl Q T E qq X i : fst (poly_force N nnl cnl Q T E qq X) i
  = rsum nnl (fun d => T i d * rsum cnl (fun p => E d p * monomial nnl (qq p) (fun e => rsum N (fun j => Q e j * X j)))).
Proof.
  cbn [fst poly_force]. unfold matvec at 1. apply rsum_ext. intros d Hd. f_equal. apply poly_history_value.
Qed.

(** cases *)
Lemma unilateral_case :
  let U := fun p : nat => match p with 1 => 2 | _ => 0 end in
  forall d n, (d < 1)%nat -> (n < 4)%nat ->
    local_motion 1 (fun _ _ => 1) [O; 1%nat] U d (sample_phase 4 n) <> 1.
Proof.
  intros U d n _ Hn.
  assert (E : local_motion 1 (fun _ _ => 1) [O; 1%nat] U d (sample_phase 4 n) = 2 * cos (sample_phase 4 n)).
  { unfold local_motion, series, components, dof_coefs, basis, U. cbn. ring_simplify (0 + 1). rewrite ?Rmult_1_l.  ring. }
  rewrite E. clear E. destruct n as [|[|[|[|n]]]]; [| | | |lia].
  - replace (sample_phase 4 0) with 0 by (unfold sample_phase; simpl; field). rewrite cos_0. lra.
  - replace (sample_phase 4 1) with (PI / 2) by (unfold sample_phase; simpl; field). rewrite cos_PI2. lra.
  - replace (sample_phase 4 2) with PI by (unfold sample_phase; simpl; field). rewrite cos_PI. lra.
  - replace (sample_phase 4 3) with (3 * (PI / 2)) by (unfold sample_phase; simpl; field). rewrite cos_3PI2. lra.
Qed.

Lemma aft_case :
  admissible [O; 1%nat] /\ (2 * list_max [O; 1%nat] + 1 < 4)%nat /\ Nat.even 4 = true /\
  (let U := fun p : nat => match p with 1 => 2 | _ => 0 end in
   forall d n, (d < 1)%nat -> (n < 4)%nat ->
     local_motion 1 (fun _ _ => 1) [O; 1%nat] U d (sample_phase 4 n) <> 1).
Proof.
  split; [|split; [cbn; lia|split; [reflexivity|exact unilateral_case]]].
  repeat split; [discriminate| |cbn; intuition discriminate].
  repeat constructor; cbn; intuition discriminate.
Qed.

Lemma unilateral_all k Np delta d v (stiff : 0 <= k d) :
  let f := fun u => law_f (unilateral_history k Np delta) d u v in
  (forall u, u <= delta d -> f u = - Np d) /\
  (forall u, delta d < u -> f u = k d * (u - delta d) - Np d) /\
  (forall u, - Np d <= f u) /\
  (forall u u', u <= u' -> f u <= f u') /\
  (forall u, continuity_pt f u).
Proof.
  intros f. assert (E : f = unilateral_law (k d) (Np d) (delta d))
    by (apply functional_extensionality; intros; apply unilateral_value; exact stiff).
  rewrite E. repeat split.
  - intros u Hu. unfold unilateral_law. destruct (Rle_dec u (delta d)); lra.
  - intros u Hu. unfold unilateral_law. destruct (Rle_dec u (delta d)); lra.
  - intros u. apply unilateral_lower. exact stiff.
  - intros u u' H. apply unilateral_mono; assumption.
  - intros u. apply unilateral_continuous. exact stiff.
Qed.

Lemma iwan_all kt Fs chi beta (H1 : 0 < kt) (H2 : 0 < Fs) (H3 : -1 < chi) (H4 : 0 <= beta) d v :
  let f := fun u => law_f (iwan_history kt Fs chi beta) d u v in
  let df := fun u => law_du (iwan_history kt Fs chi beta) d u v in
  (forall u, f (- u) = - f u) /\
  (forall u, continuity_pt f u) /\
  (forall u, Rabs (f u) <= Fs) /\
  (forall u u', u <= u' -> f u <= f u') /\
  (forall u, macroslip kt Fs chi beta <= u -> f u = Fs) /\
  (forall u, Rabs u <> macroslip kt Fs chi beta -> derivable_pt_lim f u (df u)) /\
  df 0 = kt.
Proof.
  intros f df. assert (E : f = iwan_backbone kt Fs chi beta)
    by (apply functional_extensionality; intros; apply iwan_value; assumption).
  rewrite E. repeat split.
  - intros u. apply iwan_odd.
  - intros u. apply iwan_continuous; assumption.
  - intros u. apply iwan_bound; assumption.
  - intros u u' H. apply iwan_mono; assumption.
  - intros u H. apply iwan_macro; assumption.
  - intros u H. unfold df. rewrite iwan_du by assumption. apply iwan_derivative; assumption.
  - apply iwan_initial_stiffness; assumption.
Qed.

Lemma iwan_case : macroslip 1 1 0 0 = 2 /\ iwan_backbone 1 1 0 0 1 = 3 / 4 /\ iwan_backbone 1 1 0 0 (-3) = -1.
Proof.
  assert (M : macroslip 1 1 0 0 = 2) by (unfold macroslip; field). split; [exact M|].
  unfold iwan_backbone, iwan_loading. rewrite !M. split.
  - destruct (Rlt_dec 1 0); [lra|]. destruct (Rlt_dec 0 1); [|lra]. destruct (Rlt_dec 1 2); [|lra].
    replace (1 + 0) with 1 by ring. rewrite Rpower_1 by lra. field.
  - destruct (Rlt_dec (-3) 0); [|lra]. destruct (Rlt_dec (- -3) 2); lra.
Qed.
