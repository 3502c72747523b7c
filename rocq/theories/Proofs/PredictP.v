(** The linear initial guess solves the residuals of the linear system. *)
From Coq Require Import Reals Lra Lia Arith List Bool.
From Verif.Lib Require Import RSum Calc Py.
From Verif.Spec Require Import Calculus Harmonic System Predict.
From Verif.Model Require Import Harmonic Aft VibSys EpmcRom Predict.
From Verif.Proofs Require Import EpmcRomP HarmonicP AftP JaxFrictionP VibSysP VibControlP FrfP VprnmP SysElementsP.
Import ListNotations.
Open Scope R_scope.

(** ---- superposition ---- *)
Definition eom (N : nat) (M C K : mat) (u g : nat -> R -> R) : Prop :=
  exists v a : nat -> R -> R,
    (forall j t, (j < N)%nat -> derivable_pt_lim (u j) t (v j t)) /\
    (forall j t, (j < N)%nat -> derivable_pt_lim (v j) t (a j t)) /\
    forall i t, (i < N)%nat -> rsum N (fun j => M i j * a j t + C i j * v j t + K i j * u j t) = g i t.

Lemma eom_of N h M C K U w g : equation_of_motion N h M C K U w (fun _ _ => 0) g <-> eom N M C K (motion N h U w) g.
Proof. split; intros (v & a & A & B & D); exists v, a; (split; [exact A|split; [exact B|]]); intros i t Hi; specialize (D i t Hi); lra. Qed.

Lemma eom_plus N M C K u1 u2 g1 g2 : eom N M C K u1 g1 -> eom N M C K u2 g2 -> eom N M C K (fun j t => u1 j t + u2 j t) (fun i t => g1 i t + g2 i t).
Proof.
  intros (v1 & a1 & A1 & B1 & D1) (v2 & a2 & A2 & B2 & D2). exists (fun j t => v1 j t + v2 j t), (fun j t => a1 j t + a2 j t). split; [|split].
  - intros j t Hj. apply dlim_plus; auto.
  - intros j t Hj. apply dlim_plus; auto.
  - intros i t Hi. rewrite <- D1, <- D2 by exact Hi. rewrite <- rsum_plus. apply rsum_ext. intros; ring.
Qed.

Lemma eom_const N M C K (x : vec) : eom N M C K (fun j _ => x j) (fun i _ => matvec N K x i).
Proof.
  exists (fun _ _ => 0), (fun _ _ => 0). split; [|split].
  - intros; apply dlim_const.
  - intros; apply dlim_const.
  - intros i t Hi. unfold matvec. apply rsum_ext. intros; ring.
Qed.

Lemma eom_same N M C K u u' g g' : (forall j t, (j < N)%nat -> u j t = u' j t) -> (forall i t, (i < N)%nat -> g i t = g' i t) ->
  eom N M C K u g -> eom N M C K u' g'.
Proof.
  intros Hu Hg (v & a & A & B & D). exists v, a. split; [|split; [exact B|]].
  - intros j t Hj. eapply dlim_ext; [|apply A; exact Hj]. intros; apply Hu; exact Hj.
  - intros i t Hi. rewrite <- Hg by exact Hi. rewrite <- D by exact Hi. apply rsum_ext. intros j Hj. rewrite Hu by exact Hj. reflexivity.
Qed.

Lemma eom_C N M C C' K u g : (forall i j, (i < N)%nat -> (j < N)%nat -> C i j = C' i j) -> eom N M C K u g -> eom N M C' K u g.
Proof.
  intros H (v & a & A & B & D). exists v, a. split; [exact A|]. split; [exact B|]. intros i t Hi. rewrite <- D by exact Hi. apply rsum_ext. intros j Hj. rewrite H by assumption. reflexivity.
Qed.

(** ---- motions with one harmonic ---- *)
Lemma motion_two N h (X : vec) a w i t : (a + 2 <= length (components h))%nat -> (i < N)%nat ->
  (forall r, (r < length (components h) * N)%nat -> (r < a * N \/ (a + 2) * N <= r)%nat -> X r = 0) ->
  motion N h X w i t = X (a * N + i)%nat * basis h a (w * t) + X ((a + 1) * N + i)%nat * basis h (a + 1) (w * t).
Proof.
  intros Ha Hi H. unfold motion, series, dof_coefs. set (L := length (components h)) in *. replace L with (a + (2 + (L - a - 2)))%nat at 1 by lia.
  rewrite !rsum_split. rewrite (rsum_zero a). 2: intros c Hc; rewrite H by nia; ring.
  rewrite (rsum_zero (L - a - 2)). 2: intros c Hc; rewrite H by nia; ring.
  change (rsum 2 ?f) with (0 + f 0%nat + f 1%nat). cbv beta. rewrite !Nat.add_0_r. ring.
Qed.
Lemma motion_one N h (X : vec) w i t : h <> [] -> hd 1%nat h = O -> (i < N)%nat ->
  (forall r, (r < length (components h) * N)%nat -> (N <= r)%nat -> X r = 0) -> motion N h X w i t = X i.
Proof.
  intros Hh H0 Hi H. destruct h as [|k h]; [contradiction|]. cbn in H0. subst k. unfold motion, series, dof_coefs in *. cbn [components flat_map app length] in *. rewrite rsum_S_l.
  rewrite rsum_zero. 2: intros c Hc; rewrite H by nia; ring. unfold basis. cbn [nth components flat_map app comp_fun]. change (INR 0) with 0. rewrite Rmult_0_l, cos_0. cbn [Nat.mul Nat.add]. ring.
Qed.

Lemma basis_first h tau : starts_with_1 h -> basis h (zi h) tau = cos tau /\ basis h (zi h + 1) tau = sin tau.
Proof. intros [r [->| ->]]; unfold basis; cbn [zi hd Nat.eqb components flat_map app nth comp_fun Nat.add]; change (INR 1) with 1; rewrite Rmult_1_l; split; reflexivity. Qed.

Lemma basis_k k h tau : ordered_at k h -> basis h (low_len k h) tau = cos (INR k * tau) /\ basis h (low_len k h + 1) tau = sin (INR k * tau).
Proof.
  intros H. destruct (low_split k h H) as (low & high & -> & Hk & -> & _). unfold basis. rewrite components_app, components_pos by exact Hk. rewrite app_nth2 by lia. rewrite app_nth2 by lia.
  rewrite Nat.sub_diag. replace (length (components low) + 1 - length (components low))%nat with 1%nat by lia. split; reflexivity.
Qed.

Lemma motion_1 N xc xs w i t : (i < N)%nat -> motion N [1%nat] (cos_sin N xc xs) w i t = xc i * cos (w * t) + xs i * sin (w * t).
Proof.
  intros Hi. rewrite (motion_two N [1%nat] (cos_sin N xc xs) 0) by (cbn; try lia; intros; lia). destruct (basis_first [1%nat] (w * t)) as [A B]; [exists []; left; reflexivity|].
  cbn [zi hd Nat.eqb Nat.add] in A, B. cbn [Nat.add]. rewrite A, B. unfold cos_sin. rewrite (ltb_t (0 * N + i)), (ltb_f (1 * N + i)) by lia. f_equal; f_equal; f_equal; lia.
Qed.

(** the harmonic coefficients of the guess: static part and first harmonic *)
Definition guess (N : nat) (h : list nat) (x xc xs : vec) : vec := fun r =>
  if in_block (zi h * N) ((zi h + 1) * N) r then xc (r - zi h * N)%nat
  else if in_block ((zi h + 1) * N) ((zi h + 2) * N) r then xs (r - (zi h + 1) * N)%nat
  else if Nat.ltb r (zi h * N) then x r else 0.

Lemma guess_motion N h x xc xs w i t : admissible h -> starts_with_1 h -> (i < N)%nat ->
  motion N h (guess N h x xc xs) w i t = (if Nat.eqb (zi h) 1 then x i else 0) + (xc i * cos (w * t) + xs i * sin (w * t)).
Proof.
  intros Ha H1 Hi. pose proof (zi_starts h H1) as HL.
  assert (Z : zi h = 0%nat \/ zi h = 1%nat) by (unfold zi; destruct (Nat.eqb _ 0); auto).
  rewrite (motion_ext N h _ (fun r => (if Nat.ltb r (zi h * N) then x r else 0) + (if Nat.ltb r (zi h * N) then 0 else guess N h vzero xc xs r))).
  2: exact Hi. 2:{ intros r Hr. unfold guess. destruct (Nat.ltb_spec r (zi h * N)); [rewrite !in_block_false by lia; ring|].
    destruct (in_block _ _ r); [ring|]. destruct (in_block _ _ r); ring. }
  rewrite motion_plus. f_equal.
  - destruct Z as [Z|Z]; rewrite Z; cbn [Nat.eqb].
    + rewrite (motion_ext N h _ (fun _ => 0)) by (auto; intros; rewrite ltb_f by lia; reflexivity). unfold motion, series, dof_coefs. apply rsum_zero. intros; ring.
    + rewrite motion_one.
      * rewrite ltb_t by lia. reflexivity.
      * apply Ha.
      * unfold zi in Z. destruct (Nat.eqb_spec (hd 1%nat h) 0); [assumption|discriminate].
      * exact Hi.
      * intros r _ Hr. rewrite ltb_f by lia. reflexivity.
  - rewrite (motion_two N h _ (zi h)); [|exact HL|exact Hi|].
    + destruct (basis_first h (w * t) H1) as [A B]. rewrite A, B. unfold guess. rewrite !(ltb_f _ (zi h * N)) by nia. rewrite (in_block_true (zi h * N)) by nia.
      rewrite (in_block_false (zi h * N)) by nia. rewrite (in_block_true ((zi h + 1) * N)) by nia. f_equal; f_equal; f_equal; lia.
    + intros r Hr Hor. unfold guess. destruct (Nat.ltb_spec r (zi h * N)); [reflexivity|]. rewrite !in_block_false by lia. reflexivity.
Qed.

Lemma guess_eom N h M C K x xc xs w g : admissible h -> starts_with_1 h ->
  equation_of_motion N [1%nat] M C K (cos_sin N xc xs) w (fun _ _ => 0) g ->
  equation_of_motion N h M C K (guess N h x xc xs) w (fun _ _ => 0) (fun i t => (if Nat.eqb (zi h) 1 then matvec N K x i else 0) + g i t).
Proof.
  intros Ha H1 HE. apply eom_of. apply eom_of in HE.
  pose proof (eom_plus N M C K _ _ _ _ (eom_const N M C K (fun j => if Nat.eqb (zi h) 1 then x j else 0)) HE) as P.
  revert P. apply eom_same.
  - intros j t Hj. rewrite guess_motion, motion_1 by assumption. reflexivity.
  - intros i t Hi. f_equal. destruct (Nat.eqb (zi h) 1); [reflexivity|]. unfold matvec. apply rsum_zero. intros; ring.
Qed.

Lemma eom_scaled N M C K (xc xs : vec) w g k : equation_of_motion N [1%nat] M C K (cos_sin N xc xs) w (fun _ _ => 0) g ->
  equation_of_motion N [1%nat] M C K (cos_sin N (fun i => xc i * k) (fun i => xs i * k)) w (fun _ _ => 0) (fun i t => g i t * k).
Proof.
  intros H. apply eom_1. intros i t Hi. rewrite (eom_1_inv _ _ _ _ _ _ _ _ H i t Hi).
  assert (E : forall (A : mat) x, matvec N A (fun j => x j * k) i = matvec N A x i * k) by (intros; unfold matvec; rewrite <- rsum_scal_r; apply rsum_ext; intros; ring).
  rewrite !E. ring.
Qed.

(** a time shift by the phase p *)
Lemma eom_rotated N M C K (xc xs fc : vec) w p : w <> 0 -> equation_of_motion N [1%nat] M C K (cos_sin N xc xs) w (fun _ _ => 0) (fun i t => fc i * cos (w * t)) ->
  equation_of_motion N [1%nat] M C K (cos_sin N (fun i => cos p * xc i + sin p * xs i) (fun i => - sin p * xc i + cos p * xs i)) w (fun _ _ => 0)
    (fun i t => (cos p * cos (w * t) + - sin p * sin (w * t)) * fc i).
Proof.
  intros W H. apply eom_1. intros i t Hi.
  assert (E : forall (A : mat) x y a b, matvec N A (fun j => a * x j + b * y j) i = a * matvec N A x i + b * matvec N A y i).
  { intros. unfold matvec. rewrite <- !rsum_scal_l, <- rsum_plus. apply rsum_ext; intros; ring. }
  assert (H0 := eom_1_inv _ _ _ _ _ _ _ _ H i 0 Hi). assert (H1 := eom_1_inv _ _ _ _ _ _ _ _ H i (PI / 2 / w) Hi). cbv beta in H0, H1.
  replace (w * (PI / 2 / w)) with (PI / 2) in H1 by (field; exact W). rewrite Rmult_0_r, cos_0, sin_0 in H0. rewrite cos_PI2, sin_PI2 in H1.
  rewrite !E. set (kc := matvec N K xc i) in *. set (ks := matvec N K xs i) in *. set (mc := matvec N M xc i) in *. set (ms := matvec N M xs i) in *. set (cc := matvec N C xc i) in *. set (cs := matvec N C xs i) in *.
  assert (A : fc i = kc - w ^ 2 * mc + w * cs) by lra. assert (B : 0 = ks - w ^ 2 * ms - w * cc) by lra.
  rewrite A. transitivity ((kc - w ^ 2 * mc + w * cs) * (cos p * cos (w * t) - sin p * sin (w * t)) + (ks - w ^ 2 * ms - w * cc) * (sin p * cos (w * t) + cos p * sin (w * t))); [rewrite <- B; ring|ring].
Qed.

Lemma zi_in h : admissible h -> (zi h = 1%nat /\ In O h) \/ (zi h = 0%nat /\ ~ In O h).
Proof.
  intros (Hne & Hd & Hz). destruct h as [|k h]; [contradiction|]. unfold zi. cbn [hd tl] in *. destruct (Nat.eqb_spec k 0) as [->|Hk]; [left|right]; split; auto; [left; reflexivity|].
  intros [E|E]; [congruence|contradiction].
Qed.


Definition stat (Xstat : option vec) : vec := match Xstat with Some x => x | None => vzero end.

Ltac blk := repeat match goal with |- context[in_block ?a ?b ?r] => first [rewrite (in_block_true a b r) by lia | rewrite (in_block_false a b r) by lia] end.

Section Assembled.
  Context (N : nat) (h : list nat) (Xstat : option vec) (xc xs tail : vec) (Ha : admissible h) (H1 : starts_with_1 h).
  Let n := (length (components h) * N)%nat.
  Let U := with_static N h Xstat (set_slice (zi h * N) N xc (set_slice ((zi h + 1) * N) N xs tail)).
  Lemma assembled_n : ((zi h + 2) * N <= n)%nat.
  Proof. pose proof (zi_starts h H1). unfold n. nia. Qed.
  Lemma assembled_low r : (r < n)%nat -> tail r = 0 -> U r = guess N h (stat Xstat) xc xs r.
  Proof.
    intros Hr Ht. unfold U, with_static, guess, set_slice. replace (zi h * N + N)%nat with ((zi h + 1) * N)%nat by lia. replace ((zi h + 1) * N + N)%nat with ((zi h + 2) * N)%nat by lia.
    destruct (zi_in h Ha) as [[Z _]|[Z _]]; rewrite Z; cbn [Nat.eqb].
    - replace (1 * N)%nat with (0 + N)%nat by lia. destruct (Nat.ltb_spec r (0 + N)) as [L|L].
      + destruct Xstat as [x|]; cbn [stat]; blk; [rewrite Nat.sub_0_r; reflexivity|exact Ht].
      + destruct Xstat as [x|]; [rewrite (in_block_false 0) by lia|]; (destruct (in_block _ _ r); [reflexivity|]; destruct (in_block _ _ r); [reflexivity|exact Ht]).
    - rewrite (ltb_f r) by lia. destruct Xstat as [x|]; (destruct (in_block _ _ r); [reflexivity|]; destruct (in_block _ _ r); [reflexivity|exact Ht]).
  Qed.
  Lemma assembled_high r : (n <= r)%nat -> U r = tail r.
  Proof.
    intros Hr. pose proof assembled_n as Hn. unfold U, with_static, set_slice.
    assert (E : (if in_block (zi h * N) (zi h * N + N) r then xc (r - zi h * N)%nat else if in_block ((zi h + 1) * N) ((zi h + 1) * N + N) r then xs (r - (zi h + 1) * N)%nat else tail r) = tail r)
      by (rewrite !in_block_false by lia; reflexivity).
    destruct Xstat as [x|]; [|exact E]. destruct (Nat.eqb_spec (zi h) 1) as [Z|Z]; [rewrite (in_block_false 0) by lia|]; exact E.
  Qed.
End Assembled.

Lemma slice_at a0 m (x v : vec) r : (a0 <= r < a0 + m)%nat -> set_slice a0 m x v r = x (r - a0)%nat.
Proof. intros H. unfold set_slice. rewrite in_block_true by lia. reflexivity. Qed.
Lemma slice_out a0 m (x v : vec) r : (r < a0 \/ a0 + m <= r)%nat -> set_slice a0 m x v r = v r.
Proof. intros H. unfold set_slice. rewrite in_block_false by lia. reflexivity. Qed.

Lemma predict_hbm_eq s w Fl h eigs Xstat m neigs : admissible h ->
  predict_hbm s w Fl h eigs Xstat m neigs =
  (do (xc, xs) <- linear_frf s w (fun i => m * Fl (zi h * vs_N s + i)%nat) eigs neigs (Some (fun i => m * Fl ((zi h + 1) * vs_N s + i)%nat));
   Ok (with_static (vs_N s) h Xstat (set_slice (zi h * vs_N s) (vs_N s) xc (set_slice ((zi h + 1) * vs_N s) (vs_N s) xs (set_slice (length (components h) * vs_N s) 1 (fun _ => w) vzero))))).
Proof. intros Ha. unfold predict_hbm. rewrite (nhc_ok h Ha). destruct h; [destruct Ha as [E _]; contradiction|]. reflexivity. Qed.

Section Linear.
  Context (s : vibsys) (w : R) (Fl : vec) (h : list nat) (eigs : mat -> mat -> nat -> vec * mat) (Xstat : option vec) (neigs : nat) (a b : R).
  Let N := vs_N s.
  Let n := (length (components h) * N)%nat.
  Context (Ha : admissible h) (H1 : starts_with_1 h) (Hw : w <> 0) (Hforces : vs_forces s = []) (Hab : vs_ab s = Some (a, b))
          (HC : forall i j, (i < N)%nat -> (j < N)%nat -> vs_C s i j = a * vs_M s i j + b * vs_K s i j) (Hk : (N <= neigs)%nat)
          (HA : all_modes N (vs_K s) (vs_M s) (fst (eigs (vs_K s) (vs_M s) N)) (snd (eigs (vs_K s) (vs_M s) N)))
          (HR : no_resonance N a b w (fst (eigs (vs_K s) (vs_M s) N)))
          (Hbal : In O h -> forall i, (i < N)%nat -> matvec N (vs_K s) (stat Xstat) i = Fl i).

  Lemma static_balance i : (i < N)%nat -> (if Nat.eqb (zi h) 1 then matvec N (vs_K s) (stat Xstat) i else 0) = static_part h Fl i.
  Proof.
    intros Hi. unfold static_part. destruct (zi_in h Ha) as [[Z I]|[Z I]]; rewrite Z; cbn [Nat.eqb]; (destruct (in_dec _ _ _); [|]); try contradiction; [apply Hbal; assumption|reflexivity].
  Qed.

  Lemma eq_C xc xs w' g : equation_of_motion N [1%nat] (vs_M s) (fun i j => a * vs_M s i j + b * vs_K s i j) (vs_K s) (cos_sin N xc xs) w' (fun _ _ => 0) g ->
    equation_of_motion N [1%nat] (vs_M s) (vs_C s) (vs_K s) (cos_sin N xc xs) w' (fun _ _ => 0) g.
  Proof. rewrite !eom_of. apply eom_C. intros i j Hi Hj. symmetry. apply HC; assumption. Qed.

  (** the linear response *)
  Lemma response m : exists xc xs, linear_frf s w (fun i => m * Fl (zi h * N + i)%nat) eigs neigs (Some (fun i => m * Fl ((zi h + 1) * N + i)%nat)) = Ok (xc, xs) /\
    equation_of_motion N [1%nat] (vs_M s) (vs_C s) (vs_K s) (cos_sin N xc xs) w (fun _ _ => 0) (fun i t => m * harmonic_part 1 N h Fl w i t).
  Proof.
    destruct (linear_frf_solves s w (fun i => m * Fl (zi h * N + i)%nat) eigs neigs (Some (fun i => m * Fl ((zi h + 1) * N + i)%nat)) a b Hab Hk HA HR) as (xc & xs & E & HE).
    exists xc, xs. split; [exact E|]. apply eq_C. revert HE. apply eom_ext; [reflexivity|]. intros i t Hi. rewrite harmonic_part_1 by assumption. fold N. ring.
  Qed.

  Lemma no_outs w' i t : total_motion N h [] w' i t = 0. Proof. reflexivity. Qed.

  (** equation of motion of an assembled guess *)
  Lemma guess_solves xc xs tail g : (forall r, (r < n)%nat -> tail r = 0) ->
    equation_of_motion N [1%nat] (vs_M s) (vs_C s) (vs_K s) (cos_sin N xc xs) w (fun _ _ => 0) g ->
    equation_of_motion N h (vs_M s) (vs_C s) (vs_K s) (with_static N h Xstat (set_slice (zi h * N) N xc (set_slice ((zi h + 1) * N) N xs tail))) w (total_motion N h [] w)
      (fun i t => static_part h Fl i + g i t).
  Proof.
    intros Ht HE. pose proof (guess_eom N h _ _ _ (stat Xstat) xc xs w g Ha H1 HE) as P.
    apply (eom_U_ext N h _ _ _ _ (guess N h (stat Xstat) xc xs)); [intros r Hr; apply assembled_low; auto|].
    revert P. apply eom_ext; [reflexivity|]. intros i t Hi. rewrite static_balance by exact Hi. reflexivity.
  Qed.

  Lemma predict_hbm_solves m (G : vec) Nt : (forall i t, (i < N)%nat -> motion N h G w i t = static_part h Fl i + m * harmonic_part 1 N h Fl w i t) ->
    exists U0, predict_hbm s w Fl h eigs Xstat m neigs = Ok U0 /\ U0 n = w /\
      exists Rr J, hbm_res s U0 G h Nt true = Ok (Rr, Some J) /\ forall i, (i < n)%nat -> Rr i = 0.
  Proof.
    intros HG. destruct (response m) as (xc & xs & E & HE). rewrite predict_hbm_eq by exact Ha. fold N. rewrite E. cbn [bind]. eexists. split; [reflexivity|].
    set (tail := set_slice (length (components h) * N) 1 (fun _ => w) vzero). fold n in tail.
    assert (T1 : tail n = w) by (unfold tail; rewrite slice_at by lia; reflexivity). assert (T0 : forall r, (r < n)%nat -> tail r = 0) by (intros r Hr; unfold tail; rewrite slice_out by lia; reflexivity).
    set (U0 := with_static _ _ _ _). assert (Un : U0 n = w) by (unfold U0; rewrite assembled_high; auto). split; [exact Un|].
    destruct (hbm_zero s h Nt U0 G [] Ha) as (Rr & J & RR & Z).
    - fold N n. rewrite Un. exact Hw.
    - rewrite Hforces. constructor.
    - exists Rr, J. split; [exact RR|]. fold N n in Z. apply Z. rewrite Un. pose proof (guess_solves xc xs tail _ T0 HE) as P. fold U0 in P. revert P. apply eom_ext; [reflexivity|]. intros i t Hi. apply HG. exact Hi.
  Qed.

  Context (recov : vec) (amp : R) (order : nat).

  Lemma dot_guess xc xs tail (Hn : forall r, (r < n)%nat -> tail r = 0) :
    let U := with_static N h Xstat (set_slice (zi h * N) N xc (set_slice ((zi h + 1) * N) N xs tail)) in
    dot N recov (fun i => U (zi h * N + i)%nat) = dot N recov xc /\ dot N recov (fun i => U ((zi h + 1) * N + i)%nat) = dot N recov xs.
  Proof.
    cbv zeta. pose proof (assembled_n N h H1) as L. split; unfold dot; apply rsum_ext; intros i Hi; (rewrite assembled_low by (auto; try apply Hn; fold n; nia)); unfold guess; blk.
    - f_equal. f_equal. lia.
    - f_equal. f_equal. lia.
  Qed.

  Lemma recovered_guess xc xs tail t (Hn : forall r, (r < n)%nat -> tail r = 0) :
    recovered N h recov (with_static N h Xstat (set_slice (zi h * N) N xc (set_slice ((zi h + 1) * N) N xs tail))) w t = dot N recov xc * cos (w * t) + dot N recov xs * sin (w * t).
  Proof. rewrite recovered_form by assumption. destruct (dot_guess xc xs tail Hn) as [A B]. cbv zeta in A, B. rewrite A, B. reflexivity. Qed.

  Lemma dot_scaled x k : dot N recov (fun i => x i * k) = dot N recov x * k.
  Proof. unfold dot. rewrite <- rsum_scal_r. apply rsum_ext. intros. ring. Qed.
  Lemma dot_lin x y p q : dot N recov (fun i => p * x i + q * y i) = p * dot N recov x + q * dot N recov y.
  Proof. unfold dot. rewrite <- !rsum_scal_l, <- rsum_plus. apply rsum_ext. intros. ring. Qed.

  Lemma rest_case xc xs : equation_of_motion N [1%nat] (vs_M s) (vs_C s) (vs_K s) (cos_sin N xc xs) w (fun _ _ => 0) (fun i t => 1 * harmonic_part 1 N h Fl w i t) ->
    sqrt (dot N recov xc ^ 2 + dot N recov xs ^ 2) * w ^ order = 0 -> at_rest s w h Fl recov.
  Proof.
    intros HE Z. exists xc, xs. fold N. split; [revert HE; apply eom_ext; [reflexivity|]; intros; ring|].
    assert (W : w ^ order <> 0) by (apply pow_nonzero; exact Hw). apply Rmult_integral in Z. destruct Z as [Z|Z]; [|contradiction].
    apply sqrt_eq_0 in Z; [|nra]. assert (A : dot N recov xc = 0) by nra. assert (B : dot N recov xs = 0) by nra.
    intros t. rewrite recovered_form; [|repeat split; cbn; auto; [discriminate|constructor; [intros []|constructor]]|exists []; left; reflexivity].
    cbn [zi hd Nat.eqb]. unfold dot in *. rewrite (rsum_ext _ _ (fun i => recov i * xc i)). 2: intros i Hi; unfold cos_sin; cbn [Nat.mul Nat.add]; rewrite ltb_t by lia; reflexivity.
    rewrite A. rewrite (rsum_ext _ _ (fun i => recov i * xs i)). 2: intros i Hi; unfold cos_sin; rewrite ltb_f by lia; do 2 f_equal; lia. rewrite B. ring.
  Qed.

  Lemma predict_amp_solves m_ r_ nl_ cg_ Nt : (forall i t, (i < N)%nat -> motion N h Fl w i t = static_part h Fl i + harmonic_part 1 N h Fl w i t) ->
    (predict_harmonic_solution s w Fl h eigs EqAmp Xstat m_ (Some amp) (Some recov) (Some order) r_ neigs nl_ cg_ = Ok None /\ at_rest s w h Fl recov) \/
    exists U0, predict_harmonic_solution s w Fl h eigs EqAmp Xstat m_ (Some amp) (Some recov) (Some order) r_ neigs nl_ cg_ = Ok (Some U0) /\ U0 (n + 1)%nat = w /\
      exists Rr J, hbm_amp_control_res s U0 Fl h recov amp order Nt true = Ok (Rr, Some J) /\ forall i, (i < n + 1)%nat -> Rr i = 0.
  Proof.
    intros HF. destruct (response 1) as (xc & xs & E & HE). unfold predict_harmonic_solution. rewrite (nhc_ok h Ha). rewrite nonempty_match by (apply Ha). cbn [bind andb]. cbv zeta. fold N. rewrite E. cbn [bind given].
    destruct (Reqb _ 0) eqn:Q.
    - left. split; [reflexivity|]. apply Reqb_true in Q. exact (rest_case xc xs HE Q).
    - right. apply Reqb_false in Q. set (k := amp / _). eexists. split; [reflexivity|].
      fold n. set (tail := set_slice n 1 (fun _ => k) (set_slice (n + 1) 1 (fun _ => w) vzero)).
      assert (T0 : forall r, (r < n)%nat -> tail r = 0) by (intros r Hr; unfold tail; rewrite !slice_out by lia; reflexivity).
      set (U0 := with_static _ _ _ _).
      assert (Uk : U0 n = k) by (unfold U0; rewrite assembled_high by (auto; fold n; lia); unfold tail; rewrite slice_at by lia; reflexivity).
      assert (Uw : U0 (n + 1)%nat = w) by (unfold U0; rewrite assembled_high by (auto; fold n; lia); unfold tail; rewrite slice_out, slice_at by lia; reflexivity).
      split; [exact Uw|].
      destruct (amp_zero s h Nt U0 Fl recov amp order [] Ha H1) as (Rr & J & RR & Z).
      + fold N n. rewrite Uw. exact Hw.
      + rewrite Hforces. constructor.
      + exists Rr, J. split; [exact RR|]. fold N n in Z. rewrite Uw, Uk in Z. apply Z. split.
        * pose proof (guess_solves _ _ tail _ T0 (eom_scaled _ _ _ _ _ _ _ _ k HE)) as P. fold U0 in P. revert P. apply eom_ext; [reflexivity|]. intros i t Hi. rewrite HF by exact Hi. ring.
        * apply (amplitude_iff w order (dot N recov xc * k) (dot N recov xs * k) amp); [exact Hw| |].
          -- intros t. unfold U0. rewrite recovered_guess by exact T0. rewrite !dot_scaled. reflexivity.
          -- set (A := dot N recov xc) in *. set (B := dot N recov xs) in *. pose proof (pow2_sqrt (A ^ 2 + B ^ 2)) as S2. unfold k. set (S := sqrt (A ^ 2 + B ^ 2)) in *.
             specialize (S2 ltac:(nra)). replace ((A * (amp / (S * w ^ order))) ^ 2 + (B * (amp / (S * w ^ order))) ^ 2) with ((A ^ 2 + B ^ 2) * (amp / (S * w ^ order)) ^ 2) by ring.
             rewrite <- S2. rewrite (Nat.mul_comm 2), pow_mult. set (W := w ^ order) in *. field. split; intros ->; apply Q; ring.
  Qed.

  Context (Hsin : forall i, (i < N)%nat -> first_sin N h Fl i = 0).

  Lemma no_sine : rsum N (fun i => Rabs (Fl ((zi h + 1) * N + i)%nat)) = 0.
  Proof. apply rsum_zero. intros i Hi. rewrite <- first_sin_eq by assumption. rewrite Hsin by exact Hi. apply Rabs_R0. Qed.

  Lemma rotated xc xs k : equation_of_motion N [1%nat] (vs_M s) (vs_C s) (vs_K s) (cos_sin N xc xs) w (fun _ _ => 0) (fun i t => 1 * harmonic_part 1 N h Fl w i t) ->
    let p := atan2 (dot N recov xs) (dot N recov xc) in
    equation_of_motion N [1%nat] (vs_M s) (vs_C s) (vs_K s)
      (cos_sin N (fun i => cos p * (xc i * k) + sin p * (xs i * k)) (fun i => - sin p * (xc i * k) + cos p * (xs i * k))) w (fun _ _ => 0)
      (fun i t => (cos p * k * cos (w * t) + - sin p * k * sin (w * t)) * first_cos N h Fl i).
  Proof.
    intros HE p. pose proof (eom_scaled _ _ _ _ _ _ _ _ k HE) as P1.
    assert (P2 : equation_of_motion N [1%nat] (vs_M s) (vs_C s) (vs_K s) (cos_sin N (fun i => xc i * k) (fun i => xs i * k)) w (fun _ _ => 0) (fun i t => (k * first_cos N h Fl i) * cos (w * t))).
    { revert P1. apply eom_ext; [reflexivity|]. intros i t Hi. rewrite harmonic_part_1 by assumption. rewrite <- first_sin_eq, <- first_cos_eq by assumption. rewrite Hsin by exact Hi. ring. }
    pose proof (eom_rotated _ _ _ _ _ _ _ _ p Hw P2) as P3. revert P3. apply eom_ext; [reflexivity|]. intros i t Hi. ring.
  Qed.

  Lemma rotated_recovered xc xs tail t : (forall r, (r < n)%nat -> tail r = 0) ->
    sqrt (dot N recov xc ^ 2 + dot N recov xs ^ 2) * w ^ order <> 0 ->
    let p := atan2 (dot N recov xs) (dot N recov xc) in
    let k := amp / (sqrt (dot N recov xc ^ 2 + dot N recov xs ^ 2) * w ^ order) in
    w ^ order * recovered N h recov (with_static N h Xstat (set_slice (zi h * N) N (fun i => cos p * (xc i * k) + sin p * (xs i * k))
      (set_slice ((zi h + 1) * N) N (fun i => - sin p * (xc i * k) + cos p * (xs i * k)) tail))) w t = amp * cos (w * t).
  Proof.
    intros T0 Q p k. rewrite recovered_guess by exact T0.
    rewrite (dot_lin (fun i => xc i * k) (fun i => xs i * k)), (dot_lin (fun i => xc i * k) (fun i => xs i * k)), !dot_scaled.
    destruct (atan2_polar (dot N recov xs) (dot N recov xc)) as [PA PB]. fold p in PA, PB. unfold k. set (S := sqrt _) in *. rewrite <- PA, <- PB. set (W := w ^ order) in *.
    pose proof (sin2_cos2 p) as SC. unfold Rsqr in SC. set (c := cos p) in *. set (d := sin p) in *. set (q := amp / (S * W)).
    transitivity (q * (S * W) * ((d * d + c * c) * cos (w * t))); [ring|]. rewrite SC. unfold q. field. split; intros E0; apply Q; rewrite E0; ring.
  Qed.

  Lemma predict_amp_phase_solves m_ r_ nl_ cg_ Nt :
    (predict_harmonic_solution s w Fl h eigs EqAmpPhase Xstat m_ (Some amp) (Some recov) (Some order) r_ neigs nl_ cg_ = Ok None /\ at_rest s w h Fl recov) \/
    exists U0, predict_harmonic_solution s w Fl h eigs EqAmpPhase Xstat m_ (Some amp) (Some recov) (Some order) r_ neigs nl_ cg_ = Ok (Some U0) /\ U0 (n + 2)%nat = w /\
      exists Rr J, hbm_amp_phase_control_res s U0 Fl h recov amp order Nt true = Ok (Rr, Some J) /\ forall i, (i < n + 2)%nat -> Rr i = 0.
  Proof.
    destruct (response 1) as (xc & xs & E & HE). unfold predict_harmonic_solution. rewrite (nhc_ok h Ha). rewrite nonempty_match by (apply Ha). cbn [bind andb]. cbv zeta. fold N.
    rewrite no_sine, (proj2 (Reqb_true 0 0) eq_refl). cbn [negb andb]. rewrite E. cbn [bind given].
    destruct (Reqb _ 0) eqn:Q.
    - left. split; [reflexivity|]. apply Reqb_true in Q. exact (rest_case xc xs HE Q).
    - right. apply Reqb_false in Q. set (k := amp / _). set (p := atan2 _ _). eexists. split; [reflexivity|].
      fold n. set (tail := set_slice n 1 _ _).
      assert (T0 : forall r, (r < n)%nat -> tail r = 0) by (intros r Hr; unfold tail; rewrite !slice_out by lia; reflexivity).
      set (U0 := with_static _ _ _ _).
      assert (Uk : U0 n = cos p * k) by (unfold U0; rewrite assembled_high by (auto; fold n; lia); unfold tail; rewrite slice_at by lia; reflexivity).
      assert (Ul : U0 (n + 1)%nat = - sin p * k) by (unfold U0; rewrite assembled_high by (auto; fold n; lia); unfold tail; rewrite slice_out, slice_at by lia; reflexivity).
      assert (Uw : U0 (n + 2)%nat = w) by (unfold U0; rewrite assembled_high by (auto; fold n; lia); unfold tail; rewrite !slice_out, slice_at by lia; reflexivity).
      split; [exact Uw|].
      destruct (amp_phase_zero s h Nt U0 Fl recov amp order [] Ha H1) as (Rr & J & RR & Z).
      + fold N n. rewrite Uw. exact Hw.
      + rewrite Hforces. constructor.
      + exists Rr, J. split; [exact RR|]. fold N n in Z. rewrite Uw, Uk, Ul in Z. apply Z. split.
        * pose proof (guess_solves _ _ tail _ T0 (rotated xc xs k HE)) as P. fold p U0 in P. exact P.
        * intros t. exact (rotated_recovered xc xs tail t T0 Q).
  Qed.

  (** ---- superharmonic ---- *)
  Context (rhi : nat) (nl : vibsys) (cg : bool) (Hr : (1 < rhi)%nat) (Ho : ordered_at rhi h)
          (HR2 : no_resonance N a b (INR rhi * w) (fst (eigs (vs_K s) (vs_M s) N)))
          (Haft : forall U, exists F G, total_aft nl U w h 128 cg = Ok (F, G)).

  Lemma rhi_after : (zi h + 2 <= low_len rhi h)%nat.
  Proof.
    pose proof Hr as Hr'. unfold low_len. destruct H1 as [r E]. clear -Hr' E. destruct E as [E|E]; rewrite E; cbn [zi hd Nat.eqb filter].
    - rewrite ltb_t by lia. cbn [components flat_map app length]. lia.
    - rewrite !ltb_t by lia. cbn [components flat_map app length]. lia.
  Qed.

  Lemma rhi_fits : (low_len rhi h + 2 <= length (components h))%nat.
  Proof.
    destruct (low_split rhi h Ho) as (low & high & E & Hk0 & EL & _). rewrite EL. clear -E Hk0. rewrite E, components_app, components_pos by exact Hk0. rewrite !app_length. cbn [length]. lia.
  Qed.

  Lemma predict_vprnm_solves m_ :
    (predict_harmonic_solution s w Fl h eigs EqVprnmAmpPhase Xstat m_ (Some amp) (Some recov) (Some order) (Some rhi) neigs (Some nl) cg = Ok None /\ at_rest s w h Fl recov) \/
    exists U0 F G, predict_harmonic_solution s w Fl h eigs EqVprnmAmpPhase Xstat m_ (Some amp) (Some recov) (Some order) (Some rhi) neigs (Some nl) cg = Ok (Some U0) /\
      U0 (n + 2)%nat = w /\ U0 (n + 3)%nat = amp /\
      total_aft nl (below rhi N h U0) w h 128 cg = Ok (F, G) /\
      equation_of_motion N h (vs_M s) (vs_C s) (vs_K s) U0 w (harmonic_part rhi N h F w)
        (fun i t => static_part h Fl i + (U0 n * cos (w * t) + U0 (n + 1)%nat * sin (w * t)) * first_cos N h Fl i) /\
      forall t, w ^ order * recovered N h recov U0 w t = amp * cos (w * t).
  Proof.
    destruct (response 1) as (xc & xs & E & HE). unfold predict_harmonic_solution. rewrite (nhc_ok h Ha). rewrite nonempty_match by (apply Ha). cbn [bind andb]. cbv zeta. fold N.
    rewrite no_sine, (proj2 (Reqb_true 0 0) eq_refl). cbn [negb andb]. rewrite E. cbn [bind given].
    destruct (Reqb _ 0) eqn:Q.
    - left. split; [reflexivity|]. apply Reqb_true in Q. exact (rest_case xc xs HE Q).
    - right. apply Reqb_false in Q. set (k := amp / _). set (p := atan2 _ _).
      fold n. set (tail := set_slice n 1 _ _).
      assert (T0 : forall r, (r < n)%nat -> tail r = 0) by (intros r Hrr; unfold tail; rewrite !slice_out by lia; reflexivity).
      set (V := with_static _ _ _ _).
      assert (Uk : V n = cos p * k) by (unfold V; rewrite assembled_high by (auto; fold n; lia); unfold tail; rewrite slice_at by lia; reflexivity).
      assert (Ul : V (n + 1)%nat = - sin p * k) by (unfold V; rewrite assembled_high by (auto; fold n; lia); unfold tail; rewrite slice_out, slice_at by lia; reflexivity).
      assert (Uw : V (n + 2)%nat = w) by (unfold V; rewrite assembled_high by (auto; fold n; lia); unfold tail; rewrite !slice_out, slice_at by lia; reflexivity).
      assert (Ua : V (n + 3)%nat = amp) by (unfold V; rewrite assembled_high by (auto; fold n; lia); unfold tail; rewrite !slice_out, slice_at by lia; reflexivity).
      pose proof (guess_solves _ _ tail _ T0 (rotated xc xs k HE)) as P. fold p V in P.
      pose proof (rotated_recovered xc xs tail) as PR. cbv zeta in PR. fold p k in PR.
      assert (PR' : forall t, w ^ order * recovered N h recov V w t = amp * cos (w * t)) by (intros t; exact (PR t T0 Q)). clear PR.
      assert (V0 : forall r, ((zi h + 2) * N <= r < n)%nat -> V r = 0).
      { intros r Hrr. unfold V. rewrite assembled_low by (auto; try apply T0; fold n; lia). unfold guess. rewrite (ltb_f r (zi h * N)) by lia. blk. reflexivity. }
      clearbody V. destruct (Haft (take n V)) as (F & G & EF). rewrite EF. cbn [bind]. rewrite (rhi_index_ok h rhi Ha). cbn [bind].
      pose proof rhi_after as L1. pose proof rhi_fits as L2. set (ri := low_len rhi h) in *.
      assert (A1 : admissible [1%nat]) by (repeat split; cbn; auto; [discriminate|constructor; [intros []|constructor]]).
      set (Fr := fun i => - F (N * ri + i)%nat).
      destruct (linear_frf_solves s (INR rhi * w) (fun i => 1 * Fr (zi [1%nat] * N + i)%nat) eigs neigs (Some (fun i => 1 * Fr ((zi [1%nat] + 1) * N + i)%nat)) a b Hab Hk HA HR2) as (yc & ys & E2 & HE2).
      rewrite predict_hbm_eq by exact A1. fold N. rewrite E2. cbn [bind]. apply eq_C in HE2. clear E2.
      set (Y := with_static _ _ _ _).
      assert (Yl : forall r, (r < 2 * N)%nat -> Y r = cos_sin N yc ys r).
      { intros r Hrr. unfold Y, with_static, cos_sin. cbn [zi hd Nat.eqb Nat.mul Nat.add]. destruct (Nat.ltb_spec r N).
        - rewrite slice_at by lia. f_equal. lia.
        - rewrite slice_out by lia. rewrite slice_at by lia. f_equal. lia. }
      clearbody Y. set (U0 := set_slice (N * ri) (2 * N) Y V).
      assert (Nri : ((ri + 2) * N <= n)%nat) by (unfold n; nia).
      assert (Uhi : forall r, (n <= r)%nat -> U0 r = V r) by (intros r Hrr; unfold U0; rewrite slice_out by nia; reflexivity).
      assert (Ulo : forall r, (r < ri * N)%nat -> U0 r = V r) by (intros r Hrr; unfold U0; rewrite slice_out by nia; reflexivity).
      assert (UB : below rhi N h U0 = take n V).
      { apply vec_ext. intros r. unfold below, take, clear_from. fold (low_len rhi h). fold ri. destruct (Nat.ltb_spec r (ri * N)) as [C1|C1]; destruct (Nat.ltb_spec r n) as [C2|C2]; try reflexivity; try (exfalso; nia).
        - apply Ulo. exact C1.
        - symmetry. apply V0. nia. }
      exists U0, F, G. split; [reflexivity|]. rewrite !Uhi by lia. split; [exact Uw|]. split; [exact Ua|]. rewrite UB. split; [exact EF|]. split.
      + rewrite Uk, Ul.
        assert (M2 : forall j t, (j < N)%nat -> motion N h U0 w j t = motion N h V w j t + motion N [1%nat] (cos_sin N yc ys) (INR rhi * w) j t).
        { intros j t Hj. set (B := set_slice (N * ri) (2 * N) Y vzero).
          assert (S2 : motion N h U0 w j t = motion N h V w j t + motion N h B w j t).
          { unfold motion, series, dof_coefs. rewrite <- rsum_plus. apply rsum_ext. intros c Hc. unfold U0, B, set_slice.
            destruct (in_block (N * ri) (N * ri + 2 * N) (c * N + j)) eqn:IB; [|unfold vzero; ring].
            rewrite V0. 2: { unfold in_block in IB. apply andb_prop in IB. destruct IB as [IB1 IB2]. apply Nat.leb_le in IB1. apply Nat.ltb_lt in IB2. unfold n. nia. } ring. }
          rewrite S2. f_equal. rewrite motion_1 by exact Hj. rewrite (motion_two N h B ri) by (try exact Hj; try exact L2; intros r Hrr Ho'; unfold B; rewrite slice_out by nia; reflexivity).
          destruct (basis_k rhi h (w * t) Ho) as [B1 B2]. fold ri in B1, B2. rewrite B1, B2. unfold B. rewrite !slice_at by nia.
          rewrite !Yl by nia. unfold cos_sin. rewrite (ltb_t (ri * N + j - N * ri)) by nia. rewrite (ltb_f ((ri + 1) * N + j - N * ri)) by nia.
          replace (ri * N + j - N * ri)%nat with j by nia. replace ((ri + 1) * N + j - N * ri - N)%nat with j by nia. rewrite <- Rmult_assoc. reflexivity. }
        pose proof P as P'. assert (P2 : eom N (vs_M s) (vs_C s) (vs_K s) (motion N h V w) (fun i t => static_part h Fl i + (cos p * k * cos (w * t) + - sin p * k * sin (w * t)) * first_cos N h Fl i)).
        { apply eom_of. revert P'. apply eom_ext; reflexivity. }
        pose proof (proj1 (eom_of _ _ _ _ _ _ _ _) HE2) as P3. pose proof (eom_plus _ _ _ _ _ _ _ _ P2 P3) as (v & ac & D1 & D2 & D3).
        exists v, ac. split; [|split; [exact D2|]].
        * intros j t Hj. eapply dlim_ext; [|apply D1; exact Hj]. intros x. symmetry. apply M2. exact Hj.
        * intros i t Hi. rewrite harmonic_part_k by exact Ho. fold ri. specialize (D3 i t Hi). cbv beta in D3.
          rewrite (rsum_ext _ _ (fun j => vs_M s i j * ac j t + vs_C s i j * v j t + vs_K s i j * (motion N h V w j t + motion N [1%nat] (cos_sin N yc ys) (INR rhi * w) j t))) by (intros j Hj; rewrite M2 by exact Hj; reflexivity).
          rewrite D3. unfold Fr. cbn [zi hd Nat.eqb]. replace (N * ri + (0 * N + i))%nat with (ri * N + i)%nat by lia. replace (N * ri + ((0 + 1) * N + i))%nat with ((ri + 1) * N + i)%nat by lia. replace (INR rhi * w * t) with (INR rhi * (w * t)) by ring. ring.
      + intros t. rewrite <- PR'. f_equal. rewrite !recovered_form by assumption. unfold dot. f_equal; f_equal; apply rsum_ext; intros i Hi; rewrite Ulo by nia; reflexivity.
  Qed.
End Linear.

(** ---- statements for a system with nonlinear forces ---- *)
Section Full.
  Context (s : vibsys) (w : R) (Fl : vec) (h : list nat) (eigs : mat -> mat -> nat -> vec * mat) (Xstat : option vec) (neigs : nat) (a b : R).
  Let N := vs_N s.
  Let n := (length (components h) * N)%nat.
  Context (Ha : admissible h) (H1 : starts_with_1 h) (Hw : w <> 0) (Hk : (N <= neigs)%nat) (Hm : modal_system s eigs a b) (HR : off_resonance s eigs a b w)
          (Hbal : static_solution s h Xstat Fl).

  Lemma balance : In O h -> forall i, (i < N)%nat -> matvec N (vs_K s) (stat Xstat) i = Fl i.
  Proof. intros I i Hi. rewrite <- (Hbal I i Hi). unfold matvec. apply rsum_ext. intros j Hj. unfold stat. destruct Xstat; reflexivity. Qed.

  Lemma hbm_guess fmag r_ amp_ rec_ ord_ nl_ cg_ (G : vec) Nt :
    (forall i t, (i < N)%nat -> motion N h G w i t = static_part h Fl i + fmag * harmonic_part 1 N h Fl w i t) ->
    exists U0, predict_harmonic_solution s w Fl h eigs EqHBM Xstat (Some fmag) amp_ rec_ ord_ r_ neigs nl_ cg_ = Ok (Some U0) /\ U0 n = w /\
      exists Rr J, hbm_res (linear_part s) U0 G h Nt true = Ok (Rr, Some J) /\ forall i, (i < n)%nat -> Rr i = 0.
  Proof.
    intros HG. destruct Hm as (M1 & M2 & M3).
    destruct (predict_hbm_solves (linear_part s) w Fl h eigs Xstat neigs a b Ha H1 Hw eq_refl M1 M2 Hk M3 HR balance fmag G Nt HG) as (U0 & E & R0).
    exists U0. split; [|exact R0]. unfold predict_harmonic_solution. rewrite (nhc_ok h Ha). rewrite nonempty_match by (apply Ha). cbn [bind given].
    change (predict_hbm s) with (predict_hbm (linear_part s)). rewrite E. reflexivity.
  Qed.

  Lemma amp_guess amp recov order m_ r_ nl_ cg_ Nt :
    (forall i t, (i < N)%nat -> motion N h Fl w i t = static_part h Fl i + harmonic_part 1 N h Fl w i t) ->
    (predict_harmonic_solution s w Fl h eigs EqAmp Xstat m_ (Some amp) (Some recov) (Some order) r_ neigs nl_ cg_ = Ok None /\ at_rest s w h Fl recov) \/
    exists U0, predict_harmonic_solution s w Fl h eigs EqAmp Xstat m_ (Some amp) (Some recov) (Some order) r_ neigs nl_ cg_ = Ok (Some U0) /\ U0 (n + 1)%nat = w /\
      exists Rr J, hbm_amp_control_res (linear_part s) U0 Fl h recov amp order Nt true = Ok (Rr, Some J) /\ forall i, (i < n + 1)%nat -> Rr i = 0.
  Proof.
    intros HF. destruct Hm as (M1 & M2 & M3).
    exact (predict_amp_solves (linear_part s) w Fl h eigs Xstat neigs a b Ha H1 Hw eq_refl M1 M2 Hk M3 HR balance recov amp order m_ r_ nl_ cg_ Nt HF).
  Qed.

  Context (Hsin : forall i, (i < N)%nat -> first_sin N h Fl i = 0).

  Lemma amp_phase_guess amp recov order m_ r_ nl_ cg_ Nt :
    (predict_harmonic_solution s w Fl h eigs EqAmpPhase Xstat m_ (Some amp) (Some recov) (Some order) r_ neigs nl_ cg_ = Ok None /\ at_rest s w h Fl recov) \/
    exists U0, predict_harmonic_solution s w Fl h eigs EqAmpPhase Xstat m_ (Some amp) (Some recov) (Some order) r_ neigs nl_ cg_ = Ok (Some U0) /\ U0 (n + 2)%nat = w /\
      exists Rr J, hbm_amp_phase_control_res (linear_part s) U0 Fl h recov amp order Nt true = Ok (Rr, Some J) /\ forall i, (i < n + 2)%nat -> Rr i = 0.
  Proof.
    destruct Hm as (M1 & M2 & M3).
    exact (predict_amp_phase_solves (linear_part s) w Fl h eigs Xstat neigs a b Ha H1 Hw eq_refl M1 M2 Hk M3 HR balance recov amp order Hsin m_ r_ nl_ cg_ Nt).
  Qed.

  Lemma vprnm_guess amp recov order rhi nl cg m_ : (1 < rhi)%nat -> ordered_at rhi h -> off_resonance s eigs a b (INR rhi * w) ->
    (forall U, exists F G, total_aft nl U w h 128 cg = Ok (F, G)) ->
    (predict_harmonic_solution s w Fl h eigs EqVprnmAmpPhase Xstat m_ (Some amp) (Some recov) (Some order) (Some rhi) neigs (Some nl) cg = Ok None /\ at_rest s w h Fl recov) \/
    exists U0 F G, predict_harmonic_solution s w Fl h eigs EqVprnmAmpPhase Xstat m_ (Some amp) (Some recov) (Some order) (Some rhi) neigs (Some nl) cg = Ok (Some U0) /\
      U0 (n + 2)%nat = w /\ U0 (n + 3)%nat = amp /\
      total_aft nl (below rhi N h U0) w h 128 cg = Ok (F, G) /\
      equation_of_motion N h (vs_M s) (vs_C s) (vs_K s) U0 w (harmonic_part rhi N h F w)
        (fun i t => static_part h Fl i + (U0 n * cos (w * t) + U0 (n + 1)%nat * sin (w * t)) * first_cos N h Fl i) /\
      forall t, w ^ order * recovered N h recov U0 w t = amp * cos (w * t).
  Proof.
    intros Hr Ho HR2 Haft. destruct Hm as (M1 & M2 & M3).
    exact (predict_vprnm_solves s w Fl h eigs Xstat neigs a b Ha H1 Hw M1 M2 Hk M3 HR balance recov amp order Hsin rhi nl cg Hr Ho HR2 Haft m_).
  Qed.
End Full.

(** ---- a case ---- *)
(** unit cosine force of the first harmonic on the first degree of freedom, harmonics 1 and 3 *)
Definition case_Fl : vec := fun i => match i with O => 1 | _ => 0 end.
Definition case_recov : vec := fun i => match i with O => 1 | _ => 0 end.

Lemma case_modal : modal_system case_sys case_eigs 1 1 /\ off_resonance case_sys case_eigs 1 1 1 /\ off_resonance case_sys case_eigs 1 1 (INR 3 * 1).
Proof.
  destruct case_modes as [A B]. split; [|split].
  - split; [reflexivity|]. split; [|exact A]. intros i j Hi Hj. reflexivity.
  - destruct (B 0) as [H|H]; [|lra]. unfold off_resonance. rewrite Rplus_0_l in H. exact H.
  - destruct (B 2) as [H|H]; [|lra]. unfold off_resonance. replace (INR 3 * 1) with (2 + 1) by (cbn; lra). exact H.
Qed.

Lemma case_setting : admissible [1%nat; 3%nat] /\ starts_with_1 [1%nat; 3%nat] /\ ordered_at 3 [1%nat; 3%nat] /\ static_solution case_sys [1%nat; 3%nat] None case_Fl /\
  (forall i, (i < 2)%nat -> first_sin 2 [1%nat; 3%nat] case_Fl i = 0) /\
  (forall i t, (i < 2)%nat -> motion 2 [1%nat; 3%nat] case_Fl 1 i t = static_part [1%nat; 3%nat] case_Fl i + harmonic_part 1 2 [1%nat; 3%nat] case_Fl 1 i t).
Proof.
  assert (Ha : admissible [1%nat; 3%nat]) by (split; [discriminate|]; split; [repeat constructor; cbn; lia|cbn; lia]).
  assert (H1 : starts_with_1 [1%nat; 3%nat]) by (exists [3%nat]; left; reflexivity).
  split; [exact Ha|]. split; [exact H1|]. split; [exists [1%nat], []; split; [reflexivity|]; split; [lia|]; split; intros x [<-|[]] || intros x []; lia|].
  split; [intros [E|[E|[]]]; discriminate|]. split.
  - intros i Hi. rewrite first_sin_eq by assumption. assert (i = 0 \/ i = 1)%nat as [->| ->] by lia; reflexivity.
  - intros i t Hi. rewrite (motion_two _ _ _ 0); [|cbn; lia|exact Hi|].
    + destruct (basis_first [1%nat; 3%nat] (1 * t) H1) as [A B]. cbn [zi hd Nat.eqb Nat.add] in A, B. cbn [Nat.add]. rewrite A, B. rewrite harmonic_part_1 by assumption.
      unfold static_part. destruct (in_dec _ _ _) as [I|I]; [destruct I as [E|[E|[]]]; discriminate|]. cbn [zi hd Nat.eqb Nat.add]. ring.
    + intros r Hr [L|L]; [lia|]. destruct r; [lia|reflexivity].
Qed.

Lemma case_moves : ~ at_rest case_sys 1 [1%nat; 3%nat] case_Fl case_recov.
Proof.
  intros (xc & xs & HE & HZ). pose proof (eom_1_inv _ _ _ _ _ _ _ _ HE) as Q.
  destruct case_setting as (Ha & H1 & _).
  assert (A1 : admissible [1%nat]) by (repeat split; cbn; auto; [discriminate|constructor; [intros []|constructor]]).
  assert (S1 : starts_with_1 [1%nat]) by (exists []; left; reflexivity).
  pose proof (HZ 0) as Z0. pose proof (HZ (PI / 2)) as Z1. rewrite recovered_form in Z0, Z1 by assumption. rewrite Rmult_0_r, cos_0, sin_0 in Z0. rewrite Rmult_1_l, cos_PI2, sin_PI2 in Z1.
  cbn in Z0, Z1.
  pose proof (Q 0%nat 0 ltac:(cbn; lia)) as Q00. pose proof (Q 1%nat 0 ltac:(cbn; lia)) as Q10. pose proof (Q 1%nat (PI / 2) ltac:(cbn; lia)) as Q11.
  rewrite harmonic_part_1 in Q00, Q10, Q11 by assumption. rewrite Rmult_0_r, cos_0, sin_0 in Q00, Q10. rewrite Rmult_1_l, cos_PI2, sin_PI2 in Q11.
  cbn in Q00, Q10, Q11. unfold matvec, prop_damping, mid in *. cbn in *. lra.
Qed.

Lemma case_aft : forall U, exists F G, total_aft case_sys U 1 [1%nat; 3%nat] 128 true = Ok (F, G).
Proof.
  intros U. destruct case_setting as (Ha & _). destruct (aft_loop_ok 8 [1%nat; 3%nat] 128 (vs_forces case_sys) U 1) as (F & dU & dw & _ & B & _).
  - constructor; [apply cubic_smooth|constructor; [apply quintic_smooth|constructor]]; try exact Ha; try lra; try reflexivity; cbn; lia.
  - unfold total_aft. rewrite (nhc_ok _ Ha). cbn [bind]. rewrite B. cbn [bind]. eexists _, _. reflexivity.
Qed.
