From Coq Require Import Reals List Arith Bool ZArith Lia Lra Psatz FunctionalExtensionality.
From Verif.Lib Require Import RSum Calc Py.
From Verif.Spec Require Import Calculus Harmonic Elements System.
From Verif.Model Require Import Jenkins Harmonic LocalForces Aft VibSys.
From Verif.Proofs Require Import HarmonicP FourierP HarmonicOpsP AftP ElementsP VibSysP VibControlP.
Import ListNotations.
Open Scope R_scope.

(** ---- stiffness with damping C - xi M ---- *)
Section Joint.
  Variables (nd : nat) (M C K : mat) (h : list nat) (w xi : R).
  Definition Cx (x : R) : mat := fun i j => C i j - x * M i j.
  Definition jrel (E : R -> R -> mat) (D X : mat) : Prop :=
    forall r c (om al : R -> R) (dom dal t0 : R), om t0 = w -> al t0 = xi ->
      derivable_pt_lim om t0 dom -> derivable_pt_lim al t0 dal ->
      derivable_pt_lim (fun t => E (om t) (al t) r c) t0 (D r c * dom + X r c * dal).

  Lemma jrel_block E D X r0 c0 B dB xB : jrel E D X -> jrel B dB xB ->
    jrel (fun w x => set_block nd (E w x) r0 c0 (B w x)) (set_block nd D r0 c0 dB) (set_block nd X r0 c0 xB).
  Proof.
    intros H1 H2 r c om al dom dal t0 O1 O2 D1 D2. unfold set_block.
    match goal with |- context [if ?b then _ else _] => destruct b end;
      [apply (H2 (r - r0)%nat (c - c0)%nat om al)|apply (H1 r c om al)]; assumption.
  Qed.

  Lemma jrel_step E D X p : jrel E D X ->
    jrel (fun w x => hs_step nd M (Cx x) K w h false (E w x) p) (hs_dstep nd M (Cx xi) w h false D p)
         (hs_step nd mzero (fun i j => - M i j) mzero w h false X p).
  Proof.
    intros H. unfold hs_step, hs_dstep. cbv zeta. set (k := INR (nth p h O)).
    assert (B1 : forall s, jrel (fun w x => mscal (s * k * w) (Cx x)) (mscal (s * k) (Cx xi)) (mscal (s * k * w) (fun i j => - M i j))).
    { intros s r c om al dom dal t0 O1 O2 D1 D2. unfold mscal, Cx.
      eapply dlim_eq.
      - apply (dlim_mult (fun t => s * k * om t) (fun t => C r c - al t * M r c)); [apply dlim_scal; exact D1|].
        apply dlim_minus; [apply dlim_const|apply dlim_scal_r; exact D2].
      - cbv beta. rewrite O1, O2. ring. }
    assert (B3 : jrel (fun w _ i j => K i j + -1 * (k * w) ^ 2 * M i j) (mscal (-2 * w * k ^ 2) M)
                      (fun i j => mzero i j + -1 * (k * w) ^ 2 * mzero i j)).
    { intros r c om al dom dal t0 O1 O2 D1 D2. unfold mscal, mzero.
      apply (dlim_ext (fun t => K r c + (- k ^ 2 * M r c) * (om t * om t))); [intros; ring|].
      eapply dlim_eq; [apply dlim_plus; [apply dlim_const|apply dlim_scal; apply (dlim_mult om om); exact D1]|].
      rewrite O1. ring. }
    apply (jrel_block _ _ _ _ _ (fun w _ i j => K i j + -1 * (k * w) ^ 2 * M i j)); [|exact B3].
    apply (jrel_block _ _ _ _ _ (fun w _ i j => K i j + -1 * (k * w) ^ 2 * M i j)); [|exact B3].
    apply (jrel_block _ _ _ _ _ (fun w x => mscal (-1 * k * w) (Cx x))); [|apply B1].
    apply (jrel_block _ _ _ _ _ (fun w x => mscal (1 * k * w) (Cx x))); [exact H|].
    replace (mscal k (Cx xi)) with (mscal (1 * k) (Cx xi)) by (rewrite Rmult_1_l; reflexivity). apply B1.
  Qed.

  Lemma jrel_fold l : forall E D X, jrel E D X ->
    jrel (fun w x => fold_left (hs_step nd M (Cx x) K w h false) l (E w x)) (fold_left (hs_dstep nd M (Cx xi) w h false) l D)
         (fold_left (hs_step nd mzero (fun i j => - M i j) mzero w h false) l X).
  Proof.
    induction l as [|p l IH]; intros E D X H; cbn [fold_left]; [exact H|].
    apply (IH (fun w x => hs_step nd M (Cx x) K w h false (E w x) p)). apply jrel_step. exact H.
  Qed.
End Joint.

Lemma stiffness_joint nd M C K h : admissible h ->
  exists (E dE : R -> R -> mat) (dX : R -> mat),
    (forall w xi, harmonic_stiffness nd M (fun i j => C i j - xi * M i j) K w h true false = Ok (E w xi, Some (dE w xi))) /\
    (forall w, harmonic_stiffness nd mzero (fun i j => - M i j) mzero w h false true = Ok (dX w, None)) /\
    forall w xi r c (om al : R -> R) dom dal t0, om t0 = w -> al t0 = xi ->
      derivable_pt_lim om t0 dom -> derivable_pt_lim al t0 dal ->
      derivable_pt_lim (fun t => E (om t) (al t) r c) t0 (dE w xi r c * dom + dX w r c * dal).
Proof.
  intros Ha.
  exists (fun w xi => hsE nd M (Cx M C xi) K w h false (length h - zi h)),
         (fun w xi => fold_left (hs_dstep nd M (Cx M C xi) w h false) (hs_range h) mzero),
         (fun w => hsE nd mzero (fun i j => - M i j) mzero w h false (length h - zi h)).
  split; [|split].
  - intros w xi. apply harmonic_stiffness_ok. exact Ha.
  - intros w. rewrite only_C_same. apply harmonic_stiffness_ok. exact Ha.
  - intros w xi r c om al dom dal t0 O1 O2 D1 D2.
    refine (jrel_fold nd M C K h w xi (hs_range h) (fun _ _ => hsE0 nd K h false) mzero (hsE0 nd mzero h false) _ r c om al dom dal t0 O1 O2 D1 D2).
    intros r' c' om' al' dom' dal' t0' _ _ _ _. eapply dlim_eq; [apply dlim_const|].
    unfold hsE0, mzero, set_block. destruct (Nat.eqb (zi h) 1); cbn [negb andb]; [|ring].
    match goal with |- context [if ?b then _ else _] => destruct b end; ring.
Qed.

(** ---- the scaled unknowns ---- *)
Lemma zi_in h : admissible h -> (if in_dec Nat.eq_dec O h then 1 else 0)%nat = zi h.
Proof.
  intros [Hne [Hd Hz]]. destruct h as [|k h]; [congruence|]. unfold zi. cbn [hd]. destruct k as [|k]; cbn [Nat.eqb].
  - destruct (in_dec Nat.eq_dec O (0%nat :: h)) as [_|N0]; [reflexivity|exfalso; apply N0; left; reflexivity].
  - destruct (in_dec Nat.eq_dec O (S k :: h)) as [[E|I]|_]; [discriminate|exfalso; exact (Hz I)|reflexivity].
Qed.

Lemma scaled_eq N h U la : admissible h -> (fun i => epmc_ascale N h (Rpower 10 la) i * U i) = amplitude_scaled N h U la.
Proof.
  intros Ha. apply vec_ext. intros i. unfold epmc_ascale, amplitude_scaled. rewrite <- (zi_in h Ha).
  destruct (in_dec Nat.eq_dec O h) as [_|_].
  - rewrite Nat.mul_1_l. destruct (Nat.ltb i N); ring.
  - rewrite Nat.mul_0_l. reflexivity.
Qed.

Lemma dlim_Rpower10 (f : R -> R) t a : derivable_pt_lim f t a ->
  derivable_pt_lim (fun s => Rpower 10 (f s)) t (Rpower 10 (f t) * ln 10 * a).
Proof.
  intros H. unfold Rpower. eapply dlim_eq.
  - apply (dlim_comp (fun s => f s * ln 10) exp t (a * ln 10) (exp (f t * ln 10))); [apply dlim_scal_r; exact H|apply derivable_pt_lim_exp].
  - ring.
Qed.

(** ---- the quadratic form ---- *)
Lemma quad_deriv N M (a : R -> vec) (v : vec) t0 : (forall i j, (i < N)%nat -> (j < N)%nat -> M i j = M j i) ->
  (forall j, (j < N)%nat -> derivable_pt_lim (fun t => a t j) t0 (v j)) ->
  derivable_pt_lim (fun t => dot N (a t) (matvec N M (a t))) t0 (rsum N (fun j => vecmat N (fun k => 2 * a t0 k) M j * v j)).
Proof.
  intros HM Hv. eapply dlim_eq.
  - apply (dlim_dot N a (fun t => matvec N M (a t)) t0 v (fun i => matvec N M v i) Hv). intros j Hj. apply dlim_matvec. exact Hv.
  - unfold dot, matvec, vecmat.
    assert (A : rsum N (fun j => rsum N (fun k => 2 * a t0 k * M k j) * v j)
       = rsum N (fun j => rsum N (fun k => a t0 k * M k j * v j)) + rsum N (fun j => rsum N (fun k => a t0 k * M k j * v j))).
    { rewrite <- rsum_plus. apply rsum_ext. intros j Hj. rewrite <- rsum_plus, <- rsum_scal_r. apply rsum_ext. intros; ring. }
    rewrite A. f_equal.
    + apply rsum_ext. intros j Hj. rewrite <- rsum_scal_l. apply rsum_ext. intros k Hk. rewrite (HM j k) by assumption. ring.
    + rewrite (rsum_ext N (fun i => a t0 i * rsum N (fun j => M i j * v j)) (fun i => rsum N (fun j => a t0 i * M i j * v j))).
      * rewrite rsum_swap. reflexivity.
      * intros i Hi. rewrite <- rsum_scal_l. apply rsum_ext. intros; ring.
Qed.

(** ---- epmc_res ---- *)
Definition epmc_fun (N n : nat) (h : list nat) (M : mat) (E : R -> R -> mat) (F : vec -> R -> vec) (Fl X : vec) : vec := fun i =>
  let Us := amplitude_scaled N h X (X (n + 2)%nat) in
  if Nat.ltb i n then matvec n (E (X n) (X (n + 1)%nat)) Us i + F Us (X n) i - clear_from (zi h * N) Fl i
  else if Nat.eqb i n
  then dot N (fun i => X (zi h * N + i)%nat) (matvec N M (fun i => X (zi h * N + i)%nat))
       + dot N (fun i => X ((zi h + 1) * N + i)%nat) (matvec N M (fun i => X ((zi h + 1) * N + i)%nat)) - 1
  else dot n (clear_to (zi h * N) Fl) X.

Definition epmc_J (N n : nat) (h : list nat) (M E dFdU : mat) (dEdw dEdxi : mat) (dFdw : vec) (Fl X : vec) : mat := fun i j =>
  let Us := amplitude_scaled N h X (X (n + 2)%nat) in
  let h0 := zi h in
  if Nat.ltb i n then
    if Nat.ltb j n then (E i j + dFdU i j) * epmc_ascale N h (Rpower 10 (X (n + 2)%nat)) j
    else if Nat.eqb j n then matvec n dEdw Us i + dFdw i
    else matvec n dEdxi Us i
  else if Nat.eqb i n then
    if in_block (h0 * N) ((h0 + 1) * N) j then vecmat N (fun k => 2 * X (h0 * N + k)%nat) M (j - h0 * N)%nat
    else if in_block ((h0 + 1) * N) ((h0 + 2) * N) j then vecmat N (fun k => 2 * X ((h0 + 1) * N + k)%nat) M (j - (h0 + 1) * N)%nat
    else 0
  else if Nat.ltb j n then clear_to (h0 * N) Fl j else 0.

Definition epmc_l (N n : nat) (h : list nat) (E dFdU : mat) (X : vec) : vec := fun i =>
  if Nat.ltb i n then matvec n (madd E dFdU) (fun k => epmc_dascale N h (Rpower 10 (X (n + 2)%nat) * ln 10) k * X k) i else 0.

Lemma epmc_shape s h Nt X Fl : admissible h ->
  let N := vs_N s in
  let n := (length (components h) * N)%nat in
  let Us := amplitude_scaled N h X (X (n + 2)%nat) in
  Forall (aft_smooth n h Nt (take n Us) (X n)) (vs_forces s) ->
  exists (E dE : R -> R -> mat) (dX : R -> mat) (F : vec -> R -> vec) dU dw,
    (forall w xi r c (om al : R -> R) dom dal t0, om t0 = w -> al t0 = xi ->
      derivable_pt_lim om t0 dom -> derivable_pt_lim al t0 dal ->
      derivable_pt_lim (fun t => E (om t) (al t) r c) t0 (dE w xi r c * dom + dX w r c * dal)) /\
    is_joint_jacobian n n F Us (X n) dU dw /\
    (forall X', exists G, epmc_res s X' Fl h Nt true = Ok (epmc_fun N n h (vs_M s) E F Fl X', Some G)) /\
    epmc_res s X Fl h Nt true = Ok (epmc_fun N n h (vs_M s) E F Fl X,
      Some (epmc_J N n h (vs_M s) (E (X n) (X (n + 1)%nat)) dU (dE (X n) (X (n + 1)%nat)) (dX (X n)) dw Fl X,
            epmc_l N n h (E (X n) (X (n + 1)%nat)) dU X)).
Proof.
  intros Ha N n Us H. destruct (stiffness_joint N (vs_M s) (vs_C s) (vs_K s) h Ha) as (E & dE & dX & E1 & E2 & E3).
  destruct (total_aft_ok s n h Nt (take n Us) (X n) Ha H) as (F & dU & dw & A & B & C).
  exists E, dE, dX, (fun U w => F (take n U) w), dU, dw. split; [exact E3|]. split; [apply joint_take; exact C|].
  assert (EQ : forall X', (fun i => epmc_ascale N h (Rpower 10 (X' (n + 2)%nat)) i * X' i) = amplitude_scaled N h X' (X' (n + 2)%nat))
    by (intros X'; apply scaled_eq; exact Ha).
  split.
  - intros X'. unfold epmc_res. rewrite nhc_aft, (nonempty_match h _ _ (proj1 Ha)). cbv zeta. fold N. fold n.
    rewrite (proj1 (Nhc_spec h) (proj1 (proj2 Ha))). cbn [bind]. rewrite E1. cbn [bind].
    rewrite EQ. destruct (A (take n (amplitude_scaled N h X' (X' (n + 2)%nat))) (X' n)) as (d & e & Eq). rewrite Eq. cbn [bind]. rewrite E2. cbn [bind].
    eexists. reflexivity.
  - unfold epmc_res. rewrite nhc_aft, (nonempty_match h _ _ (proj1 Ha)). cbv zeta. fold N. fold n.
    rewrite (proj1 (Nhc_spec h) (proj1 (proj2 Ha))). cbn [bind]. rewrite E1. cbn [bind].
    rewrite EQ. fold Us. rewrite B. cbn [bind]. rewrite E2. cbn [bind]. reflexivity.
Qed.

Lemma scaled_deriv N n h (g : R -> vec) (v : vec) X t0 j : admissible h ->
  (forall j, (j < n + 3)%nat -> g t0 j = X j) -> (forall j, (j < n + 3)%nat -> derivable_pt_lim (fun t => g t j) t0 (v j)) -> (j < n)%nat ->
  derivable_pt_lim (fun t => amplitude_scaled N h (g t) (g t (n + 2)%nat) j) t0
    (epmc_ascale N h (Rpower 10 (X (n + 2)%nat)) j * v j + epmc_dascale N h (Rpower 10 (X (n + 2)%nat) * ln 10) j * X j * v (n + 2)%nat).
Proof.
  intros Ha Hg Hv Hj.
  apply (dlim_ext (fun t => epmc_ascale N h (Rpower 10 (g t (n + 2)%nat)) j * g t j)).
  { intros t. exact (f_equal (fun f => f j) (scaled_eq N h (g t) (g t (n + 2)%nat) Ha)). }
  unfold epmc_ascale, epmc_dascale. destruct (Nat.ltb j (zi h * N)).
  - eapply dlim_eq; [apply dlim_scal; apply Hv; lia|ring].
  - eapply dlim_eq.
    + apply (dlim_mult (fun t => Rpower 10 (g t (n + 2)%nat)) (fun t => g t j)); [apply dlim_Rpower10; apply (Hv (n + 2)%nat); lia|apply Hv; lia].
    + cbv beta. rewrite (Hg (n + 2)%nat), (Hg j) by lia. ring.
Qed.

Lemma epmc_exact s h Nt X Fl : admissible h -> starts_with_1 h ->
  let n := (length (components h) * vs_N s)%nat in
  (forall i j, (i < vs_N s)%nat -> (j < vs_N s)%nat -> vs_M s i j = vs_M s j i) ->
  Forall (aft_smooth n h Nt (take n (amplitude_scaled (vs_N s) h X (X (n + 2)%nat))) (X n)) (vs_forces s) ->
  exact_residual (n + 2) (n + 2) (fun X => epmc_res s X Fl h Nt true) X.
Proof.
  intros Ha H1 n HM H. destruct (epmc_shape s h Nt X Fl Ha H) as (E & dE & dX & F & dU & dw & HE & HF & A & B).
  fold n in A, B, HF. set (N := vs_N s) in *.
  assert (Hn : (zi h * N + N + N <= n)%nat) by (unfold n; pose proof (zi_starts h H1); nia).
  eexists _, _, _. split; [exact A|]. split; [exact B|].
  intros g v t0 Hg Hv i Hi. rewrite rsum_hcat.
  assert (Hg' : forall j, (j < n + 3)%nat -> g t0 j = X j) by (intros; apply Hg; lia).
  assert (Hv' : forall j, (j < n + 3)%nat -> derivable_pt_lim (fun t => g t j) t0 (v j)) by (intros; apply Hv; lia).
  replace (n + 2)%nat with (n + 1 + 1)%nat at 1 by lia. rewrite !rsum_p1. unfold epmc_fun, epmc_J, epmc_l. cbv zeta.
  rewrite (ltb_f n n), (ltb_f (n + 1) n), Nat.eqb_refl, (proj2 (Nat.eqb_neq (n + 1) n)) by lia.
  set (Us := amplitude_scaled N h X (X (n + 2)%nat)) in *.
  destruct (Nat.ltb_spec i n) as [Hin|Hin].
  - rewrite (rsum_ext n _ (fun j => (E (X n) (X (n + 1)%nat) i j + dU i j) * (epmc_ascale N h (Rpower 10 (X (n + 2)%nat)) j * v j)))
      by (intros j Hj; rewrite ltb_t by exact Hj; ring).
    set (vs := fun j => epmc_ascale N h (Rpower 10 (X (n + 2)%nat)) j * v j + epmc_dascale N h (Rpower 10 (X (n + 2)%nat) * ln 10) j * X j * v (n + 2)%nat).
    assert (Gs : forall j, (j < n)%nat -> amplitude_scaled N h (g t0) (g t0 (n + 2)%nat) j = Us j).
    { intros j Hj. unfold Us, amplitude_scaled. rewrite (Hg' (n + 2)%nat), (Hg' j) by lia. reflexivity. }
    assert (Ds : forall j, (j < n)%nat -> derivable_pt_lim (fun t => amplitude_scaled N h (g t) (g t (n + 2)%nat) j) t0 (vs j))
      by (intros j Hj; apply scaled_deriv; assumption).
    eapply dlim_eq.
    + apply dlim_minus; [|apply dlim_const]. apply dlim_plus.
      * apply (dlim_matvec2 n (fun t => E (g t n) (g t (n + 1)%nat))
          (fun r c => dE (X n) (X (n + 1)%nat) r c * v n + dX (X n) r c * v (n + 1)%nat)
          (fun t => amplitude_scaled N h (g t) (g t (n + 2)%nat)) vs t0 i); [|exact Ds].
        intros j Hj. apply (HE (X n) (X (n + 1)%nat) i j (fun t => g t n) (fun t => g t (n + 1)%nat)); (apply Hg' || apply Hv'); lia.
      * apply (HF (fun t => amplitude_scaled N h (g t) (g t (n + 2)%nat)) vs (fun t => g t n) (v n) t0); [exact Gs|apply Hg'; lia|exact Ds|apply Hv'; lia|exact Hin].
    + cbv beta. rewrite (Hg' n), (Hg' (n + 1)%nat) by lia.
      rewrite (matvec_ext n _ _ Us i Gs).
      unfold matvec, madd.
      assert (V1 : rsum n (fun j => E (X n) (X (n + 1)%nat) i j * vs j) + rsum n (fun j => dU i j * vs j)
        = rsum n (fun j => (E (X n) (X (n + 1)%nat) i j + dU i j) * (epmc_ascale N h (Rpower 10 (X (n + 2)%nat)) j * v j))
          + rsum n (fun j => (E (X n) (X (n + 1)%nat) i j + dU i j) * (epmc_dascale N h (Rpower 10 (X (n + 2)%nat) * ln 10) j * X j)) * v (n + 2)%nat).
      { rewrite <- rsum_scal_r, <- !rsum_plus. apply rsum_ext. intros j Hj. unfold vs. ring. }
      assert (V2 : rsum n (fun j => (dE (X n) (X (n + 1)%nat) i j * v n + dX (X n) i j * v (n + 1)%nat) * Us j)
        = rsum n (fun j => dE (X n) (X (n + 1)%nat) i j * Us j) * v n + rsum n (fun j => dX (X n) i j * Us j) * v (n + 1)%nat).
      { rewrite <- !rsum_scal_r, <- !rsum_plus. apply rsum_ext. intros; ring. }
      rewrite V2. 
      transitivity (rsum n (fun j => E (X n) (X (n + 1)%nat) i j * vs j) + rsum n (fun j => dU i j * vs j)
         + rsum n (fun j => dE (X n) (X (n + 1)%nat) i j * Us j) * v n + rsum n (fun j => dX (X n) i j * Us j) * v (n + 1)%nat + dw i * v n); [ring|].
      rewrite V1. ring.
  - destruct (Nat.eqb_spec i n) as [->|Hne].
    + replace ((zi h + 1) * N)%nat with (zi h * N + N)%nat by lia. replace ((zi h + 2) * N)%nat with (zi h * N + N + N)%nat by lia.
      rewrite (rsum_two_blocks n (zi h * N) N (vecmat N (fun k => 2 * X (zi h * N + k)%nat) (vs_M s)) (vecmat N (fun k => 2 * X (zi h * N + N + k)%nat) (vs_M s)) v Hn).
      rewrite !in_block_false by lia.
      eapply dlim_eq.
      * apply dlim_minus; [|apply dlim_const]. apply dlim_plus.
        -- apply (quad_deriv N (vs_M s) (fun t i => g t (zi h * N + i)%nat) (fun i => v (zi h * N + i)%nat) t0 HM). intros j Hj. apply Hv'. lia.
        -- apply (quad_deriv N (vs_M s) (fun t i => g t (zi h * N + N + i)%nat) (fun i => v (zi h * N + N + i)%nat) t0 HM). intros j Hj. apply Hv'. lia.
      * cbv beta. rewrite (rsum_ext N _ (fun j => vecmat N (fun k => 2 * X (zi h * N + k)%nat) (vs_M s) j * v (zi h * N + j)%nat)).
        2:{ intros j Hj. f_equal. unfold vecmat. apply rsum_ext. intros k Hk. rewrite Hg' by lia. reflexivity. }
        rewrite (rsum_ext N (fun j => vecmat N (fun k => 2 * g t0 (zi h * N + N + k)%nat) (vs_M s) j * v (zi h * N + N + j)%nat) (fun j => vecmat N (fun k => 2 * X (zi h * N + N + k)%nat) (vs_M s) j * v (zi h * N + N + j)%nat)).
        2:{ intros j Hj. f_equal. unfold vecmat. apply rsum_ext. intros k Hk. rewrite Hg' by lia. reflexivity. }
        ring.
    + rewrite (rsum_ext n _ (fun j => clear_to (zi h * N) Fl j * v j)) by (intros j Hj; rewrite ltb_t by exact Hj; reflexivity).
      eapply dlim_eq; [apply (dlim_dot_l n (clear_to (zi h * N) Fl) g v t0); intros j Hj; apply Hv'; lia|]. unfold dot. ring.
Qed.

(** ---- when it vanishes ---- *)
Lemma modal_mass_eq N h M U : admissible h -> starts_with_1 h ->
  dot N (fun i => U (zi h * N + i)%nat) (matvec N M (fun i => U (zi h * N + i)%nat))
  + dot N (fun i => U ((zi h + 1) * N + i)%nat) (matvec N M (fun i => U ((zi h + 1) * N + i)%nat)) = modal_mass N h M U.
Proof.
  intros Ha H1. unfold modal_mass, dot, matvec. rewrite <- rsum_plus. apply rsum_ext. intros i Hi.
  rewrite <- !rsum_scal_l, <- rsum_plus. apply rsum_ext. intros j Hj. rewrite !first_cos_eq, !first_sin_eq by assumption. ring.
Qed.

Lemma dynamic_dot_eq N h F U : admissible h -> dot (length (components h) * N) (clear_to (zi h * N) F) U = dynamic_dot N h F U.
Proof.
  intros Ha. unfold dot, dynamic_dot. rewrite rsum_blocks. apply rsum_ext. intros c Hc.
  destruct Ha as [Hne [Hd Hz]]. destruct h as [|k h]; [congruence|]. unfold zi. cbn [hd].
  assert (NZ : forall l c, ~ In O l -> (c < length (components l))%nat -> nth c (components l) (Cos O) <> Cos O).
  { intros l c' Hl Hc' Eq. pose proof (in_comp_harm l _ (nth_In _ (Cos O) Hc')) as I. rewrite Eq in I. exact (Hl I). }
  assert (T : forall c, clear_to 0 F c = F c) by (intros; unfold clear_to; rewrite ltb_f by lia; reflexivity).
  destruct k as [|k]; cbn [Nat.eqb].
  - rewrite Nat.mul_1_l. destruct c as [|c].
    + cbn [components flat_map nth app]. apply rsum_zero. intros j Hj. unfold clear_to. rewrite ltb_t by lia. ring.
    + change (components (0%nat :: h)) with (Cos O :: components h) in Hc |- *. cbn [nth length] in Hc |- *.
      specialize (NZ h c Hz ltac:(lia)).
      destruct (nth c (components h) (Cos 0)) as [[|m]|m] eqn:Ec; [congruence| |];
        apply rsum_ext; intros j Hj; unfold clear_to; rewrite ltb_f by nia; reflexivity.
  - rewrite Nat.mul_0_l. assert (NI : ~ In O (S k :: h)) by (intros [E|I]; [discriminate|exact (Hz I)]).
    specialize (NZ (S k :: h) c NI Hc). destruct (nth c (components (S k :: h)) (Cos 0)) as [[|m]|m] eqn:Ec; [congruence| |];
        apply rsum_ext; intros j Hj; rewrite T; reflexivity.
Qed.

Lemma epmc_zero s h Nt X Fl outs : admissible h -> starts_with_1 h ->
  let N := vs_N s in
  let n := (length (components h) * N)%nat in
  let w := X n in
  let U := amplitude_scaled N h X (X (n + 2)%nat) in
  w <> 0 ->
  Forall2 (fun f o => nl_aft f (take n U) w h Nt = Ok o) (vs_forces s) outs ->
  exists Rr G, epmc_res s X Fl h Nt true = Ok (Rr, Some G) /\
    ((forall i, (i < n + 2)%nat -> Rr i = 0) <->
     equation_of_motion N h (vs_M s) (fun i j => vs_C s i j - X (n + 1)%nat * vs_M s i j) (vs_K s) U w
       (total_motion N h outs w) (fun i _ => static_part h Fl i) /\
     modal_mass N h (vs_M s) X = 1 /\ dynamic_dot N h Fl X = 0).
Proof.
  intros Ha H1 N n w U Hw H.
  destruct (stiffness_joint N (vs_M s) (vs_C s) (vs_K s) h Ha) as (E & dE & dX & E1 & E2 & _).
  destruct (total_aft_sum s h Nt (take n U) w outs Ha H) as (dU & dw & A).
  unfold epmc_res. rewrite nhc_aft, (nonempty_match h _ _ (proj1 Ha)). cbv zeta. fold N. fold n. fold w.
  rewrite (proj1 (Nhc_spec h) (proj1 (proj2 Ha))). cbn [bind]. rewrite E1. cbn [bind].
  rewrite (scaled_eq N h X (X (n + 2)%nat) Ha). fold U. rewrite A. cbn [bind]. rewrite E2. cbn [bind].
  eexists _, _. split; [reflexivity|]. cbv beta.
  rewrite <- (modal_mass_eq N h (vs_M s) X Ha H1), <- (dynamic_dot_eq N h Fl X Ha). fold n.
  rewrite <- (eom_ext N h (vs_M s) (fun i j => vs_C s i j - X (n + 1)%nat * vs_M s i j) (vs_K s) U w
     (motion N h (fun r => lsum (fun o => fst (fst o) r) outs) w) (total_motion N h outs w)
     (motion N h (clear_from (zi h * N) Fl) w) (fun i _ => static_part h Fl i)).
  - rewrite <- (eom_iff N h _ _ _ w U (fun r => lsum (fun o => fst (fst o) r) outs) (clear_from (zi h * N) Fl) true _ _ Ha Hw (E1 w (X (n + 1)%nat))).
    fold n. split.
    + intros Q. split; [|split].
      * intros i Hi. specialize (Q i ltac:(lia)). rewrite ltb_t in Q by exact Hi. exact Q.
      * specialize (Q n ltac:(lia)). rewrite ltb_f, Nat.eqb_refl in Q by lia. lra.
      * specialize (Q (n + 1)%nat ltac:(lia)). rewrite ltb_f, (proj2 (Nat.eqb_neq (n + 1) n)) in Q by lia. exact Q.
    + intros [Q1 [Q2 Q3]] i Hi. destruct (Nat.ltb_spec i n) as [Hin|Hin]; [apply Q1; exact Hin|].
      destruct (Nat.eqb i n); [lra|exact Q3].
  - intros i t Hi. apply motion_lsum.
  - intros i t Hi. rewrite <- (Rmult_1_l (static_part h Fl i)).
    transitivity (1 * static_part h Fl i + 0 * (motion N h Fl w i t - static_part h Fl i)); [|ring].
    rewrite <- static_split by assumption. unfold motion. f_equal. unfold dof_coefs. apply vec_ext. intros c. ring.
Qed.
