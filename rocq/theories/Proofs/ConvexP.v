(** The principle of minimum potential energy. *)
From Coq Require Import Reals List Arith Bool Lra Lia FunctionalExtensionality.
From Verif.Lib Require Import RSum Calc Py.
From Verif.Spec Require Import Calculus Elements System Energy StaticHistory StaticStates Potential Convex.
From Verif.Model Require Import Harmonic LocalForces Aft VibSys SysElements.
From Verif.Proofs Require Import ElementsP StaticStatesP PotentialP PotentialHbmP PotentialCaseP.
Import ListNotations.
Open Scope R_scope.

(** * One variable *)
Lemma slope_nonpos g l : derivable_pt_lim g 0 l -> g 0 = 0 -> (forall s, 0 < s <= 1 -> g s <= 0) -> l <= 0.
Proof.
  intros D Z H. apply Rnot_lt_le. intros L. destruct (D (l / 2) ltac:(lra)) as [del Hd]. pose proof (cond_pos del) as Hp.
  set (s := Rmin (del / 2) 1). assert (Hs : 0 < s <= 1) by (unfold s, Rmin; destruct (Rle_dec _ _); lra). assert (Hs2 : s < del) by (unfold s, Rmin; destruct (Rle_dec _ _); lra).
  specialize (Hd s ltac:(lra)). rewrite (Rabs_right s) in Hd by lra. specialize (Hd Hs2). rewrite Rplus_0_l, Z, Rminus_0_r in Hd. specialize (H s Hs).
  assert (g s / s <= 0) by (unfold Rdiv; pose proof (Rinv_0_lt_compat s (proj1 Hs)); nra). apply Rabs_def2 in Hd. lra.
Qed.

Lemma tangent_below W f u v : (forall u, derivable_pt_lim W u (f u)) -> rising f -> W u + f u * (v - u) <= W v.
Proof.
  intros D H. destruct (Rtotal_order u v) as [L|[->|L]]; [|lra|].
  - destruct (MVT_cor2 W f u v L (fun c _ => D c)) as (c & E & Hc). pose proof (H u c ltac:(lra)). nra.
  - destruct (MVT_cor2 W f v u L (fun c _ => D c)) as (c & E & Hc). pose proof (H c u ltac:(lra)). nra.
Qed.

Lemma primitive_convex W f u v s : (forall u, derivable_pt_lim W u (f u)) -> rising f -> 0 <= s <= 1 -> W ((1 - s) * u + s * v) <= (1 - s) * W u + s * W v.
Proof.
  intros D H Hs. pose proof (tangent_below W f ((1 - s) * u + s * v) u D H). pose proof (tangent_below W f ((1 - s) * u + s * v) v D H).
  set (w := (1 - s) * u + s * v) in *. assert ((1 - s) * (W w + f w * (u - w)) <= (1 - s) * W u) by (apply Rmult_le_compat_l; lra).
  assert (s * (W w + f w * (v - w)) <= s * W v) by (apply Rmult_le_compat_l; lra).
  replace (W w) with ((1 - s) * (W w + f w * (u - w)) + s * (W w + f w * (v - w))); [lra|]. unfold w. ring.
Qed.

Lemma separate_convex n (W f : nat -> R -> R) : (forall d u, (d < n)%nat -> derivable_pt_lim (W d) u (f d u)) -> (forall d, (d < n)%nat -> rising (f d)) ->
  convex (fun q => rsum n (fun d => W d (q d))).
Proof.
  intros D H x y s Hs. rewrite <- !rsum_scal_l, <- rsum_plus. apply rsum_le. intros d Hd. apply (primitive_convex (W d) (f d)); [intros u; apply D, Hd|apply H, Hd|exact Hs].
Qed.

(** * Energies *)
Lemma quadratic_between N A x y s : quadratic N A (between s x y) = (1 - s) * quadratic N A x + s * quadratic N A y - s * (1 - s) * quadratic N A (fun i => y i - x i).
Proof.
  unfold quadratic, between. rewrite <- !rsum_scal_l, <- rsum_plus, <- rsum_minus. apply rsum_ext. intros i Hi.
  rewrite (rsum_ext N (fun j => A i j * ((1 - s) * x j + s * y j)) (fun j => (1 - s) * (A i j * x j) + s * (A i j * y j))) by (intros; ring).
  rewrite (rsum_ext N (fun j => A i j * (y j - x j)) (fun j => A i j * y j - A i j * x j)) by (intros; ring).
  rewrite rsum_plus, rsum_minus, !rsum_scal_l. ring.
Qed.

Lemma local_between N Q x y s : local_at N Q (between s x y) = between s (local_at N Q x) (local_at N Q y).
Proof.
  apply functional_extensionality. intros d. unfold local_at, between. rewrite <- !rsum_scal_l, <- rsum_plus. apply rsum_ext. intros; ring.
Qed.

Lemma energy_between N K ps F x y s : Forall (fun p => convex (snd p)) ps -> 0 <= s <= 1 ->
  potential_energy N K ps F (between s x y) <= (1 - s) * potential_energy N K ps F x + s * potential_energy N K ps F y - s * (1 - s) * (quadratic N K (fun i => y i - x i) / 2).
Proof.
  intros H Hs. unfold potential_energy. rewrite quadratic_between.
  assert (E1 : rsum N (fun i => F i * between s x y i) = (1 - s) * rsum N (fun i => F i * x i) + s * rsum N (fun i => F i * y i)).
  { rewrite <- !rsum_scal_l, <- rsum_plus. apply rsum_ext. intros. unfold between. ring. }
  assert (E2 : lsum (fun p => snd p (local_at N (fst p) (between s x y))) ps <=
    (1 - s) * lsum (fun p => snd p (local_at N (fst p) x)) ps + s * lsum (fun p => snd p (local_at N (fst p) y)) ps).
  { clear E1. induction H as [|p ps Hp H IH]; [unfold lsum; cbn; lra|]. unfold lsum in *. cbn [map fold_right]. rewrite local_between.
    pose proof (Hp (local_at N (fst p) x) (local_at N (fst p) y) s Hs) as P. eapply Rle_trans; [apply Rplus_le_compat; [exact P|exact IH]|]. right. unfold vec, mat. ring. }
  rewrite E1. lra.
Qed.

Lemma energy_above N K ps F U G V : Forall (fun p => convex (snd p)) ps -> is_gradient N (potential_energy N K ps F) U G ->
  potential_energy N K ps F U + rsum N (fun i => G i * (V i - U i)) + quadratic N K (fun i => V i - U i) / 2 <= potential_energy N K ps F V.
Proof.
  intros H D. set (E := potential_energy N K ps F) in *. set (B := quadratic N K (fun i => V i - U i) / 2).
  assert (Z : between 0 U V = U) by (apply functional_extensionality; intros i; unfold between; ring).
  pose proof (D (fun s => between s U V) (fun i => V i - U i) 0 ltac:(intros j _; unfold between; ring)) as D'.
  assert (D1 : derivable_pt_lim (fun s => E (between s U V)) 0 (rsum N (fun i => G i * (V i - U i)))).
  { apply D'. intros j _. unfold between. apply dlim_ext with (fun s => U j + s * (V j - U j)); [intros; ring|]. eapply dlim_eq; [apply dlim_plus; [apply dlim_const|apply dlim_mult; [apply dlim_id|apply dlim_const]]|]. cbv beta; ring. }
  assert (L : rsum N (fun i => G i * (V i - U i)) - (E V - E U - B) <= 0); [|lra].
  apply (slope_nonpos (fun s => E (between s U V) - (E U + s * (E V - E U - B) + s * s * B))).
  - eapply dlim_eq; [apply dlim_minus; [exact D1|apply dlim_plus; [apply dlim_plus; [apply dlim_const|apply dlim_mult; [apply dlim_id|apply dlim_const]]|apply dlim_mult; [apply dlim_mult; apply dlim_id|apply dlim_const]]]|]. cbv beta; ring.
  - rewrite Z. ring.
  - intros s Hs. pose proof (energy_between N K ps F U V s H ltac:(lra)) as P. fold E B in P. lra.
Qed.

Lemma minimum_zero N f U G : is_gradient N f U G -> minimises f U -> forall i, (i < N)%nat -> G i = 0.
Proof.
  intros D M. assert (S : forall v, 0 <= rsum N (fun i => G i * v i)).
  { intros v. assert (Z : (fun j => U j + 0 * v j) = U) by (apply functional_extensionality; intros; ring).
    assert (D1 : derivable_pt_lim (fun s => f (fun j => U j + s * v j)) 0 (rsum N (fun i => G i * v i))).
    { apply (D (fun s j => U j + s * v j) v 0); [intros j _; ring|]. intros j _. eapply dlim_eq; [apply dlim_plus; [apply dlim_const|apply dlim_mult; [apply dlim_id|apply dlim_const]]|]. cbv beta; ring. }
    assert (L : 0 - rsum N (fun i => G i * v i) <= 0); [|lra]. apply (slope_nonpos (fun s => f U - f (fun j => U j + s * v j))).
    - apply dlim_minus; [apply dlim_const|exact D1].
    - rewrite Z. ring.
    - intros s _. pose proof (M (fun j => U j + s * v j)). lra. }
  pose proof (S (fun i => - G i)) as H. cbv beta in H. assert (Q0 : length2 N G = 0).
  { apply Rle_antisym; [|apply rsum_nonneg; intros; apply Rle_0_sqr]. unfold length2. rewrite (rsum_ext N (fun i => G i * - G i) (fun i => (-1) * (G i * G i))) in H by (intros; ring). rewrite rsum_scal_l in H. lra. }
  apply (dot_self_zero N G Q0).
Qed.

(** * Static states *)
Lemma static_minimum s ps Fst U : symmetric_matrix (vs_N s) (vs_K s) -> (forall x, 0 <= quadratic (vs_N s) (vs_K s) x) -> convex_springs (vs_N s) (vs_forces s) ps ->
  exists Rr J, static_res s U Fst = Ok (Rr, J) /\ ((forall i, (i < vs_N s)%nat -> Rr i = 0) <-> minimises (potential_energy (vs_N s) (vs_K s) ps Fst) U).
Proof.
  intros HK HP [H HC]. destruct (static_gradient s ps Fst U HK H) as (Rr & J & E & G). exists Rr, J. split; [exact E|]. split.
  - intros Z V. pose proof (energy_above _ _ _ _ _ _ V HC G) as A. rewrite (rsum_zero (vs_N s) (fun i => Rr i * (V i - U i))) in A by (intros i Hi; rewrite (Z i Hi); ring).
    pose proof (HP (fun i => V i - U i)). lra.
  - intros M. apply (minimum_zero _ _ _ _ G M).
Qed.

Lemma energy_gap s m ps Fst U V : symmetric_matrix (vs_N s) (vs_K s) -> stiffness_at_least (vs_N s) m (vs_K s) -> convex_springs (vs_N s) (vs_forces s) ps ->
  exists Rr J, static_res s U Fst = Ok (Rr, J) /\
    potential_energy (vs_N s) (vs_K s) ps Fst U - potential_energy (vs_N s) (vs_K s) ps Fst V <= length2 (vs_N s) Rr / (2 * m) /\
    ((forall i, (i < vs_N s)%nat -> Rr i = 0) ->
       m / 2 * length2 (vs_N s) (fun i => V i - U i) <= potential_energy (vs_N s) (vs_K s) ps Fst V - potential_energy (vs_N s) (vs_K s) ps Fst U).
Proof.
  intros HK [Hm HP] [H HC]. destruct (static_gradient s ps Fst U HK H) as (Rr & J & E & G). exists Rr, J. split; [exact E|].
  pose proof (energy_above _ _ _ _ _ _ V HC G) as A. assert (P : m * length2 (vs_N s) (fun i => V i - U i) <= quadratic (vs_N s) (vs_K s) (fun i => V i - U i)) by apply HP. set (q := quadratic (vs_N s) (vs_K s) (fun i => V i - U i)) in *. split.
  - assert (Q0 : 0 <= rsum (vs_N s) (fun i => (Rr i + m * (V i - U i)) * (Rr i + m * (V i - U i)))) by (apply rsum_nonneg; intros; apply Rle_0_sqr).
    rewrite (rsum_ext (vs_N s) (fun i => (Rr i + m * (V i - U i)) * (Rr i + m * (V i - U i))) (fun i => Rr i * Rr i + (2 * m) * (Rr i * (V i - U i)) + (m * m) * ((V i - U i) * (V i - U i)))) in Q0 by (intros; ring).
    rewrite !rsum_plus, !rsum_scal_l in Q0. unfold length2 in *. cbv beta in P.
    set (a := rsum (vs_N s) (fun i => Rr i * Rr i)) in *. set (b := rsum (vs_N s) (fun i => Rr i * (V i - U i))) in *. set (c := rsum (vs_N s) (fun i => (V i - U i) * (V i - U i))) in *.
    apply (Rmult_le_reg_r (2 * m)); [lra|]. replace (a / (2 * m) * (2 * m)) with a by (field; lra).
    assert (L : potential_energy (vs_N s) (vs_K s) ps Fst U - potential_energy (vs_N s) (vs_K s) ps Fst V <= - b - m * c / 2) by lra.
    apply Rle_trans with ((- b - m * c / 2) * (2 * m)); [apply Rmult_le_compat_r; lra|lra].
  - intros Z. rewrite (rsum_zero (vs_N s) (fun i => Rr i * (V i - U i))) in A by (intros i Hi; rewrite (Z i Hi); ring). lra.
Qed.

(** * The springs of the code *)
Lemma rising_unilateral k Np delta : 0 <= k -> rising (unilateral_law k Np delta).
Proof. intros Hk u v L. unfold unilateral_law. destruct (Rle_dec u delta), (Rle_dec v delta); nra. Qed.

Lemma hardening_spring N f : hardening N f -> exists Q V, spring N f Q V /\ convex V.
Proof.
  intros (n & Q & T & A & [(k & Hk & ->)|[(k & Hk & ->)|[(k & Np & delta & Hk & ->)|(kt & Fs & chi & beta & H1 & H2 & H3 & H4 & ->)]]]).
  - exists Q, (fun q => rsum n (fun d => k d / 4 * q d ^ 4)). split.
    + left. exists n, T. split; [exact A|]. left. exists k. split; reflexivity.
    + apply (separate_convex n (fun d u => k d / 4 * u ^ 4) (fun d u => k d * u ^ 3)).
      * intros d u _. eapply dlim_eq; [apply dlim_scal; apply (derivable_pt_lim_pow u 4)|]. cbn [Nat.pred INR]. field.
      * intros d Hd. apply rising_cube, Hk, Hd.
  - exists Q, (fun q => rsum n (fun d => k d / 6 * q d ^ 6)). split.
    + left. exists n, T. split; [exact A|]. right. left. exists k. split; reflexivity.
    + apply (separate_convex n (fun d u => k d / 6 * u ^ 6) (fun d u => k d * u ^ 5)).
      * intros d u _. eapply dlim_eq; [apply dlim_scal; apply (derivable_pt_lim_pow u 6)|]. cbn [Nat.pred INR]. field.
      * intros d Hd. apply rising_fifth, Hk, Hd.
  - exists Q, (fun q => rsum n (fun d => k d / 2 * Rmax (q d - delta d) 0 ^ 2 - Np d * q d)). split.
    + left. exists n, T. split; [exact A|]. right. right. left. exists k, Np, delta. split; [exact Hk|]. split; reflexivity.
    + apply (separate_convex n (fun d u => k d / 2 * Rmax (u - delta d) 0 ^ 2 - Np d * u) (fun d => unilateral_law (k d) (Np d) (delta d))).
      * intros d u Hd. apply unilateral_energy.
      * intros d Hd. apply rising_unilateral, Hk, Hd.
  - destruct (iwan_energy kt Fs chi beta H1 H2 H3 H4) as (W & HW). exists Q, (fun q => rsum n (fun d => W (q d))). split.
    + left. exists n, T. split; [exact A|]. right. right. right. exists kt, Fs, chi, beta, W. repeat (split; [assumption || reflexivity|]). reflexivity.
    + apply (separate_convex n (fun _ => W) (fun _ => iwan_backbone kt Fs chi beta)); [intros d u _; apply HW|]. intros d _ u v L. apply iwan_mono; assumption.
Qed.

Lemma hardening_springs N fs : Forall (hardening N) fs -> exists ps, convex_springs N fs ps.
Proof.
  intros H. induction H as [|f fs Hf H (ps & S & C)]; [exists []; split; constructor|]. destruct (hardening_spring N f Hf) as (Q & V & HS & HV).
  exists ((Q, V) :: ps). split; constructor; assumption.
Qed.

(** * The chain *)
Lemma chain_convex : convex_springs 2 (vs_forces chain) chain_ps.
Proof.
  split; [apply chain_springs|]. constructor; [|constructor; [|constructor]]; cbn [snd]; intros x y s Hs; unfold between.
  - apply (primitive_convex (fun u => u ^ 4) (fun u => 4 * u ^ 3) (x O) (y O) s); [|apply rising_cube; lra|exact Hs].
    intros u. eapply dlim_eq; [apply (derivable_pt_lim_pow u 4)|]. cbn [Nat.pred INR]. ring.
  - apply (primitive_convex (fun u => 5 * Rmax (u - 1) 0 ^ 2) (unilateral_law 10 0 1) (x O) (y O) s); [|apply rising_unilateral; lra|exact Hs].
    intros u. apply dlim_ext with (fun u => 10 / 2 * Rmax (u - 1) 0 ^ 2 - 0 * u); [intros; lra|]. apply unilateral_energy.
Qed.

Lemma chain_stiffness : stiffness_at_least 2 1 chain_K.
Proof.
  split; [lra|]. intros x. unfold length2, chain_K. cbn [rsum Nat.eqb]. pose proof (pow2_ge_0 (x O - x 1%nat)). nra.
Qed.

(** pushed by the forces -3 and 28, the masses rest at 2 and 3 *)
Definition chain_rest : vec := fun j => if Nat.eqb j 0 then 2 else 3.
Definition chain_push : vec := fun j => if Nat.eqb j 0 then -3 else 28.
Lemma chain_minimum : Forall (hardening 2) (vs_forces chain) /\ symmetric_matrix 2 chain_K /\ stiffness_at_least 2 1 chain_K /\ convex_springs 2 (vs_forces chain) chain_ps /\
  minimises (potential_energy 2 chain_K chain_ps chain_push) chain_rest.
Proof.
  assert (S : symmetric_matrix 2 chain_K) by apply chain_symmetric. split; [|split; [exact S|split; [apply chain_stiffness|split; [apply chain_convex|]]]].
  - constructor; [|constructor; [|constructor]].
    + exists 1%nat, chain_Q, (transposed chain_Q). split; [intros; reflexivity|]. left. exists (fun _ => 4). split; [intros; lra|reflexivity].
    + exists 1%nat, wall_Q, (transposed wall_Q). split; [intros; reflexivity|]. right. right. left. exists (fun _ => 10), (fun _ => 0), (fun _ => 1). split; [intros; lra|reflexivity].
  - destruct (static_minimum chain chain_ps chain_push chain_rest S) as (Rr & J & E & [M _]).
    + intros x. pose proof (proj2 chain_stiffness x) as P. assert (0 <= length2 2 x) by (apply rsum_nonneg; intros; apply Rle_0_sqr). unfold quadratic. cbn [vs_N vs_K chain] in *. lra.
    + apply chain_convex.
    + apply M. intros i Hi. cbn in E. injection E as <- _. unfold chain_rest, chain_push, chain_Q, wall_Q, transposed, vadd, matvec, vzero in *.
      cbn [vs_N chain] in Hi. destruct i as [|[|i]]; [| |lia]; cbn; rewrite Rmax_left by lra; ring.
Qed.

(** * A softening spring *)
Definition one : mat := fun _ _ => 1.
Definition soft : vibsys := mkSys 1 one one (fun _ _ => 0) None [cubic_nl 1 1 one one (fun _ => -1)].
Definition soft_ps : list (mat * (vec -> R)) := [(one, fun q => - q O ^ 4 / 4)].
Lemma soft_not_minimum : springs 1 (vs_forces soft) soft_ps /\ stiffness_at_least 1 1 one /\
  (exists Rr J, static_res soft (fun _ => 0) (fun _ => 0) = Ok (Rr, J) /\ forall i, Rr i = 0) /\
  ~ minimises (potential_energy 1 one soft_ps (fun _ => 0)) (fun _ => 0).
Proof.
  split; [|split; [|split]].
  - constructor; [|constructor]. left. exists 1%nat, one. split; [intros i d _ _; reflexivity|]. left. exists (fun _ => -1). split; [reflexivity|]. intros q. cbn [rsum snd]. field.
  - split; [lra|]. intros x. unfold length2, one. cbn [rsum]. lra.
  - do 2 eexists. split; [cbn; reflexivity|]. intros i. unfold vadd, vzero, one. cbn. ring.
  - intros M. specialize (M (fun _ => 2)). unfold potential_energy, quadratic, lsum, soft_ps, local_at, one in M. cbn in M. lra.
Qed.
