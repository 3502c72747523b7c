From Coq Require Import Reals List Arith Bool ZArith Lia Lra Psatz FunctionalExtensionality.
From Verif.Lib Require Import RSum Calc Py.
From Verif.Spec Require Import Calculus Harmonic Elements System.
From Verif.Model Require Import Jenkins Harmonic LocalForces Aft VibSys.
From Verif.Proofs Require Import HarmonicP FourierP HarmonicOpsP AftP ElementsP.
Import ListNotations.
Open Scope R_scope.

Lemma nonempty_match {A} (h : list nat) (a b : A) : h <> [] -> match h with [] => a | _ :: _ => b end = b.
Proof. destruct h; [congruence|reflexivity]. Qed.
Lemma vec_ext (u v : vec) : (forall i, u i = v i) -> u = v.
Proof. apply functional_extensionality. Qed.
Lemma mat_ext (A B : mat) : (forall i j, A i j = B i j) -> A = B.
Proof. intros H. apply functional_extensionality. intros i. apply functional_extensionality. apply H. Qed.

(** ---- calculus helpers ---- *)
Lemma dlim_matvec2 n (A : R -> mat) (A' : mat) (x : R -> vec) (x' : vec) t i :
  (forall j, (j < n)%nat -> derivable_pt_lim (fun s => A s i j) t (A' i j)) ->
  (forall j, (j < n)%nat -> derivable_pt_lim (fun s => x s j) t (x' j)) ->
  derivable_pt_lim (fun s => matvec n (A s) (x s) i) t (matvec n A' (x t) i + matvec n (A t) x' i).
Proof.
  intros HA Hx. unfold matvec. rewrite <- rsum_plus.
  apply (dlim_rsum n (fun j s => A s i j * x s j) t (fun j => A' i j * x t j + A t i j * x' j)).
  intros j Hj. apply (dlim_mult (fun s => A s i j) (fun s => x s j)); auto.
Qed.

Lemma rsum_hcat n (J : mat) (l v : vec) i :
  rsum (n + 1) (fun j => hcat n J l i j * v j) = rsum n (fun j => J i j * v j) + l i * v n.
Proof.
  rewrite Nat.add_1_r, rsum_S. unfold hcat. rewrite Nat.ltb_irrefl. f_equal.
  apply rsum_ext. intros j Hj. rewrite (proj2 (Nat.ltb_lt _ _) Hj). reflexivity.
Qed.

Lemma dlim_entry n (g : R -> vec) v t0 : (forall j, (j < n + 1)%nat -> derivable_pt_lim (fun t => g t j) t0 (v j)) ->
  forall j, (j < n)%nat -> derivable_pt_lim (fun t => g t j) t0 (v j).
Proof. intros H j Hj. apply H. lia. Qed.

(** ---- C48 ---- *)
Lemma static_loop_ok N fs : forall U, Forall (static_smooth N U) fs -> 
  exists F dF, (forall U' a, exists dF', static_loop fs U' a = Ok (fun i => fst a i + F U' i, dF')) /\
    (forall a, static_loop fs U a = Ok (fun i => fst a i + F U i, fun i j => snd a i j + dF i j)) /\ is_jacobian N N F U dF.
Proof.
  intros U. induction fs as [|f fs IH]; intros HF.
  - exists (fun _ => vzero), mzero. split; [|split].
    + intros U' a. exists (snd a). cbn. destruct a as [a b]. cbn [fst snd]. f_equal. f_equal.
      apply vec_ext. intros i. unfold vzero. ring.
    + intros a. cbn. destruct a as [a b]. cbn [fst snd]. f_equal. f_equal.
      * apply vec_ext. intros i. unfold vzero. ring.
      * apply mat_ext. intros i j. unfold mzero. ring.
    + intros g v t0 _ _ i _. eapply dlim_eq; [apply dlim_const|]. symmetry. apply rsum_zero. intros; unfold mzero; ring.
  - inversion HF as [|? ? (F1 & dF1 & A1 & B1 & C1) HF']; subst.
    destruct (IH HF') as (F & dF & A & B & C).
    exists (fun U i => F1 U i + F U i), (fun i j => dF1 i j + dF i j). split; [|split].
    + intros U' a. destruct (A1 U') as [d1 E1]. cbn [static_loop]. rewrite E1. cbn [bind].
      destruct (A U' (vadd (fst a) (F1 U'), madd (snd a) d1)) as [d2 E2]. rewrite E2. exists d2. f_equal. f_equal.
      apply vec_ext. intros i. cbn [fst]. unfold vadd. ring.
    + intros a. cbn [static_loop]. rewrite B1. cbn [bind]. rewrite B. f_equal. f_equal.
      * apply vec_ext. intros i. cbn [fst]. unfold vadd. ring.
      * apply mat_ext. intros i j. cbn [snd]. unfold madd. ring.
    + intros g v t0 Hg Hv i Hi. eapply dlim_eq.
      * apply dlim_plus; [apply (C1 g v t0 Hg Hv i Hi)|apply (C g v t0 Hg Hv i Hi)].
      * rewrite <- rsum_plus. apply rsum_ext. intros; ring.
Qed.

Lemma static_residual s U Fst : Forall (static_smooth (vs_N s) U) (vs_forces s) ->
  exists (Rf : vec -> vec) (J : mat),
    (forall U', exists J', static_res s U' Fst = Ok (Rf U', J')) /\
    static_res s U Fst = Ok (Rf U, J) /\ is_jacobian (vs_N s) (vs_N s) Rf U J.
Proof.
  intros H. destruct (static_loop_ok (vs_N s) (vs_forces s) U H) as (F & dF & A & B & C).
  exists (fun U i => matvec (vs_N s) (vs_K s) U i + F U i - Fst i), (madd (vs_K s) dF). split; [|split].
  - intros U'. destruct (A U' (vzero, mzero)) as [d E]. exists (madd (vs_K s) d). unfold static_res. rewrite E. cbn [bind fst].
    f_equal. f_equal. apply vec_ext. intros i. unfold vzero. ring.
  - unfold static_res. rewrite B. cbn [bind fst snd]. f_equal. f_equal.
    + apply vec_ext. intros i. unfold vzero. ring.
    + apply mat_ext. intros i j. unfold madd, mzero. ring.
  - intros g v t0 Hg Hv i Hi. eapply dlim_eq.
    + apply dlim_minus; [|apply dlim_const]. apply dlim_plus; [|apply (C g v t0 Hg Hv i Hi)].
      apply dlim_matvec. exact Hv.
    + unfold matvec, madd. rewrite Rminus_0_r, <- rsum_plus. apply rsum_ext. intros; ring.
Qed.

Lemma static_loop_sum fs outs U : Forall2 (fun f o => nl_force f U = Ok o) fs outs -> forall a,
  static_loop fs U a = Ok (fun i => fst a i + lsum (fun o => fst o i) outs, fun i j => snd a i j + lsum (fun o => snd o i j) outs).
Proof.
  intros H. induction H as [|f o fs outs E H IH]; intros a.
  - cbn. destruct a as [a b]. f_equal. f_equal; [apply vec_ext|apply mat_ext]; intros; cbn; ring.
  - cbn [static_loop]. rewrite E. destruct o as [F dF]. cbn [bind]. rewrite IH. f_equal. f_equal; [apply vec_ext|apply mat_ext];
    intros; cbn; unfold vadd, madd, lsum; ring.
Qed.

Lemma static_value s U Fst outs : Forall2 (fun f o => nl_force f U = Ok o) (vs_forces s) outs ->
  exists Rr J, static_res s U Fst = Ok (Rr, J) /\
    forall i, Rr i = rsum (vs_N s) (fun j => vs_K s i j * U j) + lsum (fun o => fst o i) outs - Fst i.
Proof.
  intros H. unfold static_res. rewrite (static_loop_sum _ _ _ H). cbn [bind fst snd]. eexists _, _. split; [reflexivity|].
  intros i. cbv beta. unfold vzero, matvec. ring.
Qed.

(** ---- the harmonic forces ---- *)
Lemma aft_loop_ok n h Nt fs U w : Forall (aft_smooth n h Nt U w) fs ->
  exists F dU dw, (forall U' w' a, exists dU' dw', aft_loop fs U' w' h Nt a = Ok (fun i => fst (fst a) i + F U' w' i, dU', dw')) /\
    (forall a, aft_loop fs U w h Nt a = Ok (fun i => fst (fst a) i + F U w i, fun i j => snd (fst a) i j + dU i j, fun i => snd a i + dw i)) /\
    is_joint_jacobian n n F U w dU dw.
Proof.
  induction fs as [|f fs IH]; intros HF.
  - exists (fun _ _ => vzero), mzero, vzero. split; [|split].
    + intros U' w' [[a b] c]. exists b, c. cbn. f_equal. f_equal. f_equal. apply vec_ext. intros i. unfold vzero. ring.
    + intros [[a b] c]. cbn. f_equal. f_equal; [f_equal|]; [apply vec_ext|apply mat_ext|apply vec_ext]; intros; unfold vzero, mzero; ring.
    + intros g v om dom t0 _ _ _ _ i _. eapply dlim_eq; [apply dlim_const|]. rewrite rsum_zero; unfold vzero, mzero; [ring|]. intros; ring.
  - inversion HF as [|? ? (F1 & dU1 & dw1 & A1 & B1 & C1) HF']; subst.
    destruct (IH HF') as (F & dU & dw & A & B & C).
    exists (fun U w i => F1 U w i + F U w i), (fun i j => dU1 i j + dU i j), (fun i => dw1 i + dw i). split; [|split].
    + intros U' w' a. destruct (A1 U' w') as [d1 [e1 E1]]. cbn [aft_loop]. rewrite E1. cbn [bind fst snd].
      destruct (A U' w' (vadd (fst (fst a)) (F1 U' w'), madd (snd (fst a)) d1, vadd (snd a) e1)) as [d2 [e2 E2]].
      rewrite E2. exists d2, e2. f_equal. f_equal. f_equal. apply vec_ext. intros i. cbn [fst]. unfold vadd. ring.
    + intros a. cbn [aft_loop]. rewrite B1. cbn [bind fst snd]. rewrite B. f_equal. f_equal; [f_equal|]; [apply vec_ext|apply mat_ext|apply vec_ext];
      intros; cbn [fst snd]; unfold vadd, madd; ring.
    + intros g v om dom t0 Hg Ho Hv Hd i Hi. eapply dlim_eq.
      * apply dlim_plus; [apply (C1 g v om dom t0 Hg Ho Hv Hd i Hi)|apply (C g v om dom t0 Hg Ho Hv Hd i Hi)].
      * rewrite (rsum_ext n (fun j => (dU1 i j + dU i j) * v j) (fun j => dU1 i j * v j + dU i j * v j)) by (intros; ring).
        rewrite rsum_plus. ring.
Qed.

Lemma total_aft_ok s n h Nt U w : admissible h -> Forall (aft_smooth n h Nt U w) (vs_forces s) ->
  exists F dU dw, (forall U' w', exists dU' dw', total_aft s U' w' h Nt true = Ok (F U' w', Some (dU', dw'))) /\
    total_aft s U w h Nt true = Ok (F U w, Some (dU, dw)) /\ is_joint_jacobian n n F U w dU dw.
Proof.
  intros Ha H. destruct (aft_loop_ok n h Nt (vs_forces s) U w H) as (F & dU & dw & A & B & C).
  exists F, dU, dw. split; [|split].
  - intros U' w'. unfold total_aft. rewrite (proj1 (Nhc_spec h) (proj1 (proj2 Ha))). cbn [bind].
    destruct (A U' w' (vzero, mzero, vzero)) as [d [e E]]. rewrite E. cbn [bind fst snd]. exists d, e. f_equal. f_equal.
    apply vec_ext. intros i. unfold vzero. ring.
  - unfold total_aft. rewrite (proj1 (Nhc_spec h) (proj1 (proj2 Ha))). cbn [bind].
    rewrite B. cbn [bind fst snd]. f_equal. f_equal; [|f_equal; f_equal]; [apply vec_ext|apply mat_ext|apply vec_ext];
    intros; unfold vzero, mzero; ring.
  - exact C.
Qed.

Lemma total_aft_sum s h Nt U w outs : admissible h -> Forall2 (fun f o => nl_aft f U w h Nt = Ok o) (vs_forces s) outs ->
  exists dU dw, total_aft s U w h Nt true = Ok (fun i => lsum (fun o => fst (fst o) i) outs, Some (dU, dw)).
Proof.
  intros Ha H. unfold total_aft. rewrite (proj1 (Nhc_spec h) (proj1 (proj2 Ha))). cbn [bind].
  assert (L : forall a, exists dU dw, aft_loop (vs_forces s) U w h Nt a = Ok (fun i => fst (fst a) i + lsum (fun o => fst (fst o) i) outs, dU, dw)).
  { induction H as [|f o fs outs E H IH]; intros a.
    - destruct a as [[a b] c]. exists b, c. cbn. f_equal. f_equal. f_equal. apply vec_ext. intros i. cbn. ring.
    - cbn [aft_loop]. rewrite E. destruct o as [[F dF] dw]. cbn [bind fst snd].
      destruct (IH (vadd (fst (fst a)) F, madd (snd (fst a)) dF, vadd (snd a) dw)) as [d [e E']]. rewrite E'.
      exists d, e. f_equal. f_equal. f_equal. apply vec_ext. intros i. cbn. unfold vadd, lsum. ring. }
  destruct (L (vzero, mzero, vzero)) as [d [e E]]. rewrite E. cbn [bind fst snd]. exists d, e. f_equal. f_equal.
  apply vec_ext. intros i. unfold vzero. ring.
Qed.

Lemma total_aft_F_sum s h Nt U w outs : admissible h -> Forall2 (fun f o => nl_aft_F f U w h Nt = Ok (fst (fst o))) (vs_forces s) outs ->
  total_aft s U w h Nt false = Ok (fun i => lsum (fun o : vec * mat * vec => fst (fst o) i) outs, None).
Proof.
  intros Ha H. unfold total_aft. rewrite (proj1 (Nhc_spec h) (proj1 (proj2 Ha))). cbn [bind].
  assert (L : forall a, aft_loop_F (vs_forces s) U w h Nt a = Ok (fun i => a i + lsum (fun o : vec * mat * vec => fst (fst o) i) outs)).
  { induction H as [|f o fs outs E H IH]; intros a.
    - cbn. f_equal. apply vec_ext. intros i. cbn. ring.
    - cbn [aft_loop_F]. rewrite E. cbn [bind]. rewrite IH. f_equal. apply vec_ext. intros i. cbn. unfold vadd, lsum. ring. }
  rewrite L. cbn [bind]. f_equal. f_equal. apply vec_ext. intros i. unfold vzero. ring.
Qed.

(** ---- hbm_res ---- *)
Lemma take_lt m v i : (i < m)%nat -> take m v i = v i.
Proof. intros H. unfold take, clear_from. rewrite (proj2 (Nat.ltb_lt _ _) H). reflexivity. Qed.
Lemma take_with n X w : take n (with_entry n X w) = take n X.
Proof. apply vec_ext. intros i. unfold take, clear_from, with_entry. destruct (Nat.ltb i n); reflexivity. Qed.
Lemma with_entry_n n X w : with_entry n X w n = w.
Proof. unfold with_entry. rewrite Nat.ltb_irrefl. reflexivity. Qed.
Lemma with_entry_lt n X w i : (i < n)%nat -> with_entry n X w i = X i.
Proof. intros H. unfold with_entry. rewrite (proj2 (Nat.ltb_lt _ _) H). reflexivity. Qed.
Lemma take_ext m v v' : (forall i, (i < m)%nat -> v i = v' i) -> take m v = take m v'.
Proof. intros H. apply vec_ext. intros i. unfold take, clear_from. destruct (Nat.ltb_spec i m); auto. Qed.
Lemma take_take m k v : (m <= k)%nat -> take m (take k v) = take m v.
Proof. intros H. apply take_ext. intros i Hi. apply take_lt. lia. Qed.

(** derivatives of truncated arguments *)
Lemma joint_take n m (F : vec -> R -> vec) X w J Jw :
  is_joint_jacobian n m F (take n X) w J Jw -> is_joint_jacobian n m (fun U w => F (take n U) w) X w J Jw.
Proof.
  intros H g v om dom t0 Hg Ho Hv Hd i Hi.
  apply (H (fun t => take n (g t)) v om dom t0); auto.
  - intros j Hj. rewrite !take_lt by exact Hj. apply Hg. exact Hj.
  - intros j Hj. apply (dlim_ext (fun t => g t j)); [intros t; symmetry; apply take_lt; exact Hj|]. apply Hv. exact Hj.
Qed.

Lemma hbm_shape s h Nt U w : admissible h ->
  let n := (length (components h) * vs_N s)%nat in
  Forall (aft_smooth n h Nt (take n U) w) (vs_forces s) ->
  exists (E : R -> mat) (dE : R -> mat) (F : vec -> R -> vec) dU dw,
    (forall w, harmonic_stiffness (vs_N s) (vs_M s) (vs_C s) (vs_K s) w h true false = Ok (E w, Some (dE w))) /\
    (forall r c w, derivable_pt_lim (fun t => E t r c) w (dE w r c)) /\
    is_joint_jacobian n n F U w dU dw /\
    (forall X' Fl', exists G, hbm_res s X' Fl' h Nt true = Ok (fun i => matvec n (E (X' n)) X' i + F X' (X' n) i - Fl' i, Some G)) /\
    (forall X' Fl', take n X' = take n U -> X' n = w -> hbm_res s X' Fl' h Nt true = Ok (fun i => matvec n (E w) X' i + F X' w i - Fl' i,
       Some (madd (E w) dU, fun i => matvec n (dE w) X' i + dw i))) /\
    (forall X' X'' w', take n X' = take n X'' -> F X' w' = F X'' w').
Proof.
  intros Ha n H. destruct (stiffness_derivative (vs_N s) (vs_M s) (vs_C s) (vs_K s) h false Ha) as (E & dE & E1 & _ & E3).
  destruct (total_aft_ok s n h Nt (take n U) w Ha H) as (F & dU & dw & A & B & C).
  exists E, dE, (fun U w => F (take n U) w), dU, dw. split; [exact E1|]. split; [exact E3|]. split; [apply joint_take; exact C|]. split; [|split].
  - intros X' Fl'. unfold hbm_res. rewrite nhc_aft. fold n. rewrite E1. cbn [bind].
    destruct (A (take n X') (X' n)) as [d [e Eq]]. rewrite Eq. cbn [bind]. eexists. reflexivity.
  - intros X' Fl' Ht <-. unfold hbm_res. rewrite nhc_aft. fold n. rewrite E1. cbn [bind]. rewrite Ht, B. reflexivity.
  - intros X' X'' w' ->. reflexivity.
Qed.

(** derivative of the harmonic balance residual along a curve in the unknowns, the frequency and the force *)
Lemma hbm_along n (E dE : R -> mat) (F : vec -> R -> vec) X w dU dw :
  (forall r c w, derivable_pt_lim (fun t => E t r c) w (dE w r c)) ->
  is_joint_jacobian n n F X w dU dw ->
  forall (g : R -> vec) (v : vec) (om : R -> R) (dom : R) (fl : R -> R) (dfl t0 : R) i,
  (forall j, (j < n)%nat -> g t0 j = X j) -> om t0 = w ->
  (forall j, (j < n)%nat -> derivable_pt_lim (fun t => g t j) t0 (v j)) -> derivable_pt_lim om t0 dom ->
  derivable_pt_lim fl t0 dfl -> (i < n)%nat ->
  derivable_pt_lim (fun t => matvec n (E (om t)) (g t) i + F (g t) (om t) i - fl t) t0
    (rsum n (fun j => madd (E w) dU i j * v j) + (matvec n (dE w) X i + dw i) * dom - dfl).
Proof.
  intros HE HF g v om dom fl dfl t0 i Hg Ho Hv Hd Hfl Hi. eapply dlim_eq.
  - apply dlim_minus; [|exact Hfl]. apply dlim_plus; [|apply (HF g v om dom t0 Hg Ho Hv Hd i Hi)].
    apply (dlim_matvec2 n (fun t => E (om t)) (fun r c => dE w r c * dom) g v t0 i).
    + intros j Hj. eapply dlim_eq; [apply (dlim_comp om (fun u => E u i j) t0 dom (dE w i j)); [exact Hd|rewrite Ho; apply HE]|reflexivity].
    + exact Hv.
  - rewrite Ho. rewrite (matvec_ext n (fun r c => dE w r c * dom) (g t0) X i Hg).
    unfold matvec, madd. rewrite (rsum_ext n (fun j => (E w i j + dU i j) * v j) (fun j => E w i j * v j + dU i j * v j)) by (intros; ring).
    rewrite rsum_plus. rewrite (rsum_ext n (fun j => dE w i j * dom * X j) (fun j => dE w i j * X j * dom)) by (intros; ring).
    rewrite rsum_scal_r. ring.
Qed.

Lemma hbm_exact s h Nt X Fl : admissible h ->
  let n := (length (components h) * vs_N s)%nat in
  Forall (aft_smooth n h Nt (take n X) (X n)) (vs_forces s) ->
  exact_residual n n (fun X => hbm_res s X Fl h Nt true) X.
Proof.
  intros Ha n H. destruct (hbm_shape s h Nt X (X n) Ha H) as (E & dE & F & dU & dw & _ & HE & HF & A & B & _).
  exists (fun X' i => matvec n (E (X' n)) X' i + F X' (X' n) i - Fl i), (madd (E (X n)) dU), (fun i => matvec n (dE (X n)) X i + dw i).
  split; [intros X'; apply A|]. split; [apply B; reflexivity|].
  intros g v t0 Hg Hv i Hi. rewrite rsum_hcat.
  eapply dlim_eq; [apply (hbm_along n E dE F X (X n) dU dw HE HF g v (fun t => g t n) (v n) (fun _ => Fl i) 0 t0 i)|].
  - intros j Hj. apply Hg. lia.
  - apply Hg. lia.
  - intros j Hj. apply Hv. lia.
  - apply Hv. lia.
  - apply dlim_const.
  - exact Hi.
  - ring.
Qed.

(** ---- when the residual vanishes ---- *)
Lemma series_lin h a b (X Y : vec) tau : series h (fun c => a * X c + b * Y c) tau = a * series h X tau + b * series h Y tau.
Proof. unfold series. rewrite <- !rsum_scal_l, <- rsum_plus. apply rsum_ext. intros; ring. Qed.

Lemma motion_ext N h X Y w i t : (i < N)%nat -> (forall r, (r < length (components h) * N)%nat -> X r = Y r) ->
  motion N h X w i t = motion N h Y w i t.
Proof.
  intros Hi H. unfold motion, series, dof_coefs. apply rsum_ext. intros c Hc. rewrite H by nia. reflexivity.
Qed.

Lemma motion_plus N h (X Y : vec) w i t : motion N h (fun r => X r + Y r) w i t = motion N h X w i t + motion N h Y w i t.
Proof. unfold motion, series, dof_coefs. rewrite <- rsum_plus. apply rsum_ext. intros; ring. Qed.
Lemma motion_minus N h (X Y : vec) w i t : motion N h (fun r => X r - Y r) w i t = motion N h X w i t - motion N h Y w i t.
Proof. unfold motion, series, dof_coefs. rewrite <- rsum_minus. apply rsum_ext. intros; ring. Qed.
Lemma motion_lsum N h (outs : list (vec * mat * vec)) w i t :
  motion N h (fun r => lsum (fun o => fst (fst o) r) outs) w i t = total_motion N h outs w i t.
Proof.
  unfold total_motion. induction outs as [|o outs IH].
  - unfold lsum, motion, series, dof_coefs. cbn. apply rsum_zero. intros; ring.
  - change (motion N h (fun r => fst (fst o) r + lsum (fun o => fst (fst o) r) outs) w i t
            = motion N h (fst (fst o)) w i t + lsum (fun o => motion N h (fst (fst o)) w i t) outs).
    rewrite motion_plus, IH. reflexivity.
Qed.

Lemma motion_zero_iff N h X w : admissible h -> w <> 0 ->
  (forall r, (r < length (components h) * N)%nat -> X r = 0) <-> (forall i t, (i < N)%nat -> motion N h X w i t = 0).
Proof.
  intros [Hne [Hd Hz]] Hw. split.
  - intros H i t Hi. rewrite (motion_ext N h X (fun _ => 0)) by auto. unfold motion, series, dof_coefs. apply rsum_zero. intros; ring.
  - intros H r Hr. destruct (block_form _ _ r Hr) as [c [i [Hc [Hi ->]]]].
    change (X (c * N + i)%nat) with (dof_coefs N X i c).
    rewrite <- (series_coef (2 * list_max h + 1) h (dof_coefs N X i) c Hd ltac:(lia) Hc).
    unfold fourier_coef. rewrite rsum_zero; [ring|]. intros n Hn. cbv beta.
    rewrite <- (Rmult_0_l (comp_fun (nth c (components h) (Cos O)) (sample_phase (2 * list_max h + 1) n))). f_equal.
    specialize (H i (sample_phase (2 * list_max h + 1) n / w) Hi). unfold motion in H.
    replace (w * (sample_phase (2 * list_max h + 1) n / w)) with (sample_phase (2 * list_max h + 1) n) in H by (field; exact Hw).
    exact H.
Qed.

Lemma eom_iff N h M C K w U (Fnl Fl : vec) cg E dE : admissible h -> w <> 0 ->
  harmonic_stiffness N M C K w h cg false = Ok (E, dE) ->
  let n := (length (components h) * N)%nat in
  (forall i, (i < n)%nat -> matvec n E U i + Fnl i - Fl i = 0) <->
  equation_of_motion N h M C K U w (motion N h Fnl w) (motion N h Fl w).
Proof.
  intros Ha Hw HE n. destruct (stiffness_eom N M C K w h cg U Ha) as (E' & dE' & v & a & E1 & Hv & Hac & HM).
  rewrite HE in E1. injection E1 as <- <-.
  pose proof (motion_zero_iff N h (fun i => matvec n E U i + Fnl i - Fl i) w Ha Hw) as Z. cbv beta in Z. fold n in Z. rewrite Z.
  split.
  - intros H. exists v, a. split; [auto|]. split; [auto|]. intros i t Hi. specialize (H i t Hi).
    rewrite motion_minus, motion_plus in H. rewrite <- HM by exact Hi. fold n. lra.
  - intros (v' & a' & Hv' & Hac' & HM') i t Hi. rewrite motion_minus, motion_plus. unfold n. rewrite HM by exact Hi.
    rewrite <- HM' by exact Hi.
    assert (Ev : forall j s, (j < N)%nat -> v j s = v' j s) by (intros j s Hj; eapply uniqueness_limite; [apply Hv|apply Hv'; exact Hj]).
    assert (Ea : forall j s, (j < N)%nat -> a j s = a' j s).
    { intros j s Hj. eapply uniqueness_limite; [apply Hac|]. eapply dlim_ext; [|apply Hac'; exact Hj]. intros; symmetry; apply Ev. exact Hj. }
    rewrite (rsum_ext N (fun j => M i j * a j t + C i j * v j t + K i j * motion N h U w j t)
                        (fun j => M i j * a' j t + C i j * v' j t + K i j * motion N h U w j t))
      by (intros; rewrite Ev, Ea by assumption; reflexivity). ring.
Qed.

Lemma eom_ext N h M C K U w f f' g g' :
  (forall i t, (i < N)%nat -> f i t = f' i t) -> (forall i t, (i < N)%nat -> g i t = g' i t) ->
  equation_of_motion N h M C K U w f g <-> equation_of_motion N h M C K U w f' g'.
Proof.
  intros Hf Hg. split; intros (v & a & A & B & D); exists v, a; repeat split; auto; intros i t Hi;
  [rewrite <- Hf, <- Hg by exact Hi|rewrite Hf, Hg by exact Hi]; auto.
Qed.

Lemma eom_U_ext N h M C K U U' w f g : (forall r, (r < length (components h) * N)%nat -> U r = U' r) ->
  equation_of_motion N h M C K U w f g <-> equation_of_motion N h M C K U' w f g.
Proof.
  assert (T : forall U U', (forall r, (r < length (components h) * N)%nat -> U r = U' r) ->
    equation_of_motion N h M C K U w f g -> equation_of_motion N h M C K U' w f g).
  { clear U U'. intros U U' H (v & a & A & B & D). exists v, a. split; [|split].
    - intros j t Hj. apply (dlim_ext (motion N h U w j)); [|apply A; exact Hj]. intros x. apply motion_ext; auto.
    - exact B.
    - intros i t Hi. rewrite <- D by exact Hi. f_equal. apply rsum_ext. intros j Hj. rewrite (motion_ext N h U U') by auto. reflexivity. }
  intros H. split; apply T; [exact H|]. intros r Hr. symmetry. auto.
Qed.

Lemma hbm_value s h Nt X Fl outs : admissible h ->
  let n := (length (components h) * vs_N s)%nat in
  Forall2 (fun f o => nl_aft f (take n X) (X n) h Nt = Ok o) (vs_forces s) outs ->
  exists E dE Rr G, harmonic_stiffness (vs_N s) (vs_M s) (vs_C s) (vs_K s) (X n) h true false = Ok (E, Some dE) /\
    hbm_res s X Fl h Nt true = Ok (Rr, Some G) /\
    forall i, Rr i = matvec n E X i + lsum (fun o => fst (fst o) i) outs - Fl i.
Proof.
  intros Ha n H. destruct (stiffness_derivative (vs_N s) (vs_M s) (vs_C s) (vs_K s) h false Ha) as (E & dE & E1 & _ & _).
  destruct (total_aft_sum s h Nt (take n X) (X n) outs Ha H) as (dU & dw & A).
  exists (E (X n)), (dE (X n)). unfold hbm_res. rewrite nhc_aft. fold n. rewrite E1. cbn [bind]. rewrite A. cbn [bind].
  eexists _, _. split; [reflexivity|]. split; [reflexivity|]. intros i. reflexivity.
Qed.

Lemma hbm_zero s h Nt X Fl outs : admissible h ->
  let n := (length (components h) * vs_N s)%nat in
  X n <> 0 ->
  Forall2 (fun f o => nl_aft f (take n X) (X n) h Nt = Ok o) (vs_forces s) outs ->
  exists Rr G, hbm_res s X Fl h Nt true = Ok (Rr, Some G) /\
    ((forall i, (i < n)%nat -> Rr i = 0) <->
     equation_of_motion (vs_N s) h (vs_M s) (vs_C s) (vs_K s) X (X n) (total_motion (vs_N s) h outs (X n)) (motion (vs_N s) h Fl (X n))).
Proof.
  intros Ha n Hw H. destruct (hbm_value s h Nt X Fl outs Ha H) as (E & dE & Rr & G & HE & HR & HV).
  exists Rr, G. split; [exact HR|].
  rewrite <- (eom_ext (vs_N s) h (vs_M s) (vs_C s) (vs_K s) X (X n)
     (motion (vs_N s) h (fun r => lsum (fun o => fst (fst o) r) outs) (X n)) (total_motion (vs_N s) h outs (X n))
     (motion (vs_N s) h Fl (X n)) (motion (vs_N s) h Fl (X n))).
  - rewrite <- (eom_iff (vs_N s) h _ _ _ (X n) X (fun r => lsum (fun o => fst (fst o) r) outs) Fl true E (Some dE) Ha Hw HE).
    fold n. split; intros Q i Hi; specialize (Q i Hi); rewrite HV in * || rewrite HV; exact Q.
  - intros i t Hi. apply motion_lsum.
  - reflexivity.
Qed.

Lemma hbm_no_grad s h Nt X Fl outs : admissible h ->
  let n := (length (components h) * vs_N s)%nat in
  Forall2 (fun f o => nl_aft f (take n X) (X n) h Nt = Ok o) (vs_forces s) outs ->
  Forall2 (fun f o => nl_aft_F f (take n X) (X n) h Nt = Ok (fst (fst o))) (vs_forces s) outs ->
  exists Rr G, hbm_res s X Fl h Nt true = Ok (Rr, Some G) /\ hbm_res s X Fl h Nt false = Ok (Rr, None).
Proof.
  intros Ha n H H'. destruct (stiffness_derivative (vs_N s) (vs_M s) (vs_C s) (vs_K s) h false Ha) as (E & dE & E1 & E2 & _).
  destruct (total_aft_sum s h Nt (take n X) (X n) outs Ha H) as (dU & dw & A).
  pose proof (total_aft_F_sum s h Nt (take n X) (X n) outs Ha H') as B.
  unfold hbm_res. rewrite nhc_aft. fold n. rewrite E1, E2. cbn [bind]. rewrite A, B. cbn [bind].
  eexists _, _. split; reflexivity.
Qed.

(** ---- static and dynamic part of the force ---- *)
Lemma static_split N h Fl a b w i t : admissible h -> (i < N)%nat ->
  motion N h (fun r => a * clear_to (zi h * N) Fl r + b * clear_from (zi h * N) Fl r) w i t
  = b * static_part h Fl i + a * (motion N h Fl w i t - static_part h Fl i).
Proof.
  intros Ha Hi. destruct Ha as [Hne [Hd Hz]].
  unfold motion, series, dof_coefs, clear_to, clear_from, static_part.
  destruct h as [|k h]; [congruence|]. unfold zi. cbn [hd]. destruct k as [|k].
  - cbn [Nat.eqb]. destruct (in_dec Nat.eq_dec O (0%nat :: h)) as [_|N0]; [|exfalso; apply N0; left; reflexivity].
    cbn [components flat_map]. rewrite app_length. cbn [length]. rewrite Nat.add_1_l, !rsum_S_l.
    assert (B0 : forall tau, basis (0%nat :: h) 0 tau = 1).
    { intros tau. unfold basis. cbn. rewrite Rmult_0_l. apply cos_0. }
    rewrite !B0. rewrite Nat.mul_0_l, Nat.add_0_l, Nat.mul_1_l. rewrite (proj2 (Nat.ltb_lt _ _) Hi).
    rewrite (rsum_ext _ _ (fun c => a * (Fl (S c * N + i)%nat * basis (0%nat :: h) (S c) (w * t)))).
    + rewrite rsum_scal_l. ring.
    + intros c Hc. destruct (Nat.ltb_spec (S c * N + i) N); [nia|]. ring.
  - cbn [Nat.eqb]. destruct (in_dec Nat.eq_dec O (S k :: h)) as [[E|I0]|_]; [discriminate|exfalso; exact (Hz I0)|].
    rewrite Nat.mul_0_l. rewrite (rsum_ext _ _ (fun c => a * (Fl (c * N + i)%nat * basis (S k :: h) c (w * t)))).
    + rewrite rsum_scal_l. ring.
    + intros c Hc. destruct (Nat.ltb_spec (c * N + i) 0); [lia|]. ring.
Qed.

Lemma dFl_exact s h Nt X w Fl : admissible h ->
  let n := (length (components h) * vs_N s)%nat in
  Forall (aft_smooth n h Nt (take n X) w) (vs_forces s) ->
  exact_residual n n (fun X => hbm_res_dFl s X w Fl h Nt true) X.
Proof.
  intros Ha n H. destruct (hbm_shape s h Nt X w Ha H) as (E & dE & F & dU & dw & _ & HE & HF & A & B & Fe).
  set (fl := fun (X' : vec) i => X' n * clear_to (zi h * vs_N s) Fl i + clear_from (zi h * vs_N s) Fl i).
  exists (fun X' i => matvec n (E w) X' i + F X' w i - fl X' i), (madd (E w) dU), (fun i => - clear_to (zi h * vs_N s) Fl i).
  assert (V : forall X' i, matvec n (E w) (with_entry n X' w) i + F (with_entry n X' w) w i - fl X' i
     = matvec n (E w) X' i + F X' w i - fl X' i).
  { intros X' i. rewrite (Fe (with_entry n X' w) X' w (take_with n X' w)). f_equal. f_equal.
    apply matvec_ext. intros j Hj. apply with_entry_lt. exact Hj. }
  split; [|split].
  - intros X'. unfold hbm_res_dFl. rewrite nhc_aft. fold n. rewrite (nonempty_match h _ _ (proj1 Ha)).
    destruct (A (with_entry n X' w) (fl X')) as [[d e] Eq]. unfold fl in Eq at 1. rewrite Eq. cbn [bind].
    eexists. f_equal. f_equal. apply vec_ext. intros i. rewrite with_entry_n. apply V.
  - unfold hbm_res_dFl. rewrite nhc_aft. fold n. rewrite (nonempty_match h _ _ (proj1 Ha)).
    pose proof (B (with_entry n X w) (fl X) (take_with n X w) (with_entry_n n X w)) as Eq. unfold fl in Eq at 1. rewrite Eq. cbn [bind].
    f_equal. f_equal. apply vec_ext. intros i. apply V.
  - intros g v t0 Hg Hv i Hi. rewrite rsum_hcat.
    eapply dlim_eq; [apply (hbm_along n E dE F X w dU dw HE HF g v (fun _ => w) 0 (fun t => fl (g t) i) (v n * clear_to (zi h * vs_N s) Fl i) t0 i)|].
    + intros j Hj. apply Hg. lia.
    + reflexivity.
    + intros j Hj. apply Hv. lia.
    + apply dlim_const.
    + unfold fl. eapply dlim_eq; [apply dlim_plus; [apply dlim_scal_r; apply Hv; lia|apply dlim_const]|ring].
    + exact Hi.
    + ring.
Qed.

Lemma hbm_zero_at s h Nt X w Fl outs (force : nat -> R -> R) : admissible h ->
  let n := (length (components h) * vs_N s)%nat in
  w <> 0 ->
  Forall2 (fun f o => nl_aft f (take n X) w h Nt = Ok o) (vs_forces s) outs ->
  (forall i t, (i < vs_N s)%nat -> motion (vs_N s) h Fl w i t = force i t) ->
  exists Rr G, hbm_res s (with_entry n X w) Fl h Nt true = Ok (Rr, Some G) /\
    ((forall i, (i < n)%nat -> Rr i = 0) <->
     equation_of_motion (vs_N s) h (vs_M s) (vs_C s) (vs_K s) X w (total_motion (vs_N s) h outs w) force).
Proof.
  intros Ha n Hw H Hf. destruct (hbm_zero s h Nt (with_entry n X w) Fl outs Ha) as (Rr & G & HR & HZ).
  - fold n. rewrite with_entry_n. exact Hw.
  - fold n. rewrite with_entry_n, take_with. exact H.
  - fold n in HZ. rewrite with_entry_n in HZ. exists Rr, G. split; [exact HR|]. rewrite HZ.
    rewrite (eom_U_ext _ _ _ _ _ _ X) by (intros r Hr; apply with_entry_lt; exact Hr).
    apply eom_ext; [reflexivity|exact Hf].
Qed.

Lemma dFl_zero s h Nt X w Fl outs : admissible h ->
  let n := (length (components h) * vs_N s)%nat in
  w <> 0 ->
  Forall2 (fun f o => nl_aft f (take n X) w h Nt = Ok o) (vs_forces s) outs ->
  exists Rr G, hbm_res_dFl s X w Fl h Nt true = Ok (Rr, Some G) /\
    ((forall i, (i < n)%nat -> Rr i = 0) <->
     equation_of_motion (vs_N s) h (vs_M s) (vs_C s) (vs_K s) X w (total_motion (vs_N s) h outs w)
       (fun i t => static_part h Fl i + X n * (motion (vs_N s) h Fl w i t - static_part h Fl i))).
Proof.
  intros Ha n Hw H.
  destruct (hbm_zero_at s h Nt X w (fun i => X n * clear_to (zi h * vs_N s) Fl i + clear_from (zi h * vs_N s) Fl i) outs
     (fun i t => static_part h Fl i + X n * (motion (vs_N s) h Fl w i t - static_part h Fl i)) Ha Hw H) as (Rr & [J l] & HR & HZ).
  - intros i t Hi. rewrite <- (Rmult_1_l (static_part h Fl i)) at 1. rewrite <- static_split by assumption.
    unfold motion. f_equal. unfold dof_coefs. apply vec_ext. intros c. ring.
  - unfold hbm_res_dFl. rewrite nhc_aft. fold n. rewrite (nonempty_match h _ _ (proj1 Ha)). fold n in HR. rewrite HR. cbn [bind].
    eexists _, _. split; [reflexivity|exact HZ].
Qed.
