(** Undamped systems with springs do not know the direction of time. *)
From Coq Require Import Reals Lra Lia Arith List Bool FunctionalExtensionality.
From Verif.Lib Require Import RSum Calc Py.
From Verif.Spec Require Import Calculus Harmonic Elements System Galerkin Energy StaticHistory Potential Reversal.
From Verif.Model Require Import Harmonic LocalForces Aft VibSys SysElements.
From Verif.Proofs Require Import HarmonicP FourierP HarmonicOpsP AftP VibSysP RotationP EnergyP PotentialP PotentialHbmP.
Import ListNotations.
Open Scope R_scope.

Definition csign (h : list nat) (c : nat) : R := match nth c (components h) (Cos O) with Sin _ => -1 | Cos _ => 1 end.

Lemma csign_square h c : csign h c * csign h c = 1.
Proof. unfold csign. destruct (nth _ _ _); ring. Qed.

Lemma reversed_block N h U c i : (i < N)%nat -> reversed N h U (c * N + i)%nat = csign h c * U (c * N + i)%nat.
Proof. intros Hi. unfold reversed, csign. destruct (divmod_block N c i Hi) as [-> _]. destruct (nth _ _ _); ring. Qed.

Lemma basis_neg h c tau : basis h c (- tau) = csign h c * basis h c tau.
Proof.
  unfold basis, csign. destruct (nth c (components h) (Cos O)) as [k|k]; cbn [comp_fun].
  - replace (INR k * - tau) with (- (INR k * tau)) by ring. rewrite cos_neg. ring.
  - replace (INR k * - tau) with (- (INR k * tau)) by ring. rewrite sin_neg. ring.
Qed.

Lemma reversed_motion N h U j tau : (j < N)%nat -> series h (dof_coefs N (reversed N h U) j) tau = series h (dof_coefs N U j) (- tau).
Proof.
  intros Hj. unfold series. apply rsum_ext. intros c Hc. rewrite basis_neg. unfold dof_coefs. rewrite (reversed_block N h U c j Hj). ring.
Qed.

Lemma sum_reversed Nt (H : R -> R) : (forall x, H (x + 2 * PI) = H x) -> rsum Nt (fun n => H (sample_phase Nt n)) = rsum Nt (fun n => H (- sample_phase Nt n)).
Proof.
  intros HP. destruct Nt as [|m]; [reflexivity|]. rewrite !rsum_S_l. f_equal.
  - f_equal. unfold sample_phase. cbn [INR]. field. apply (not_0_INR (S m)). lia.
  - rewrite rsum_rev. apply rsum_ext. intros n Hn. rewrite <- (HP (- sample_phase (S m) (S n))). f_equal.
    assert (A : sample_phase (S m) (S m) = 2 * PI) by (apply sample_all; lia). assert (Q : sample_phase (S m) (S m) = sample_phase (S m) (S (m - 1 - n)) + sample_phase (S m) (S n)).
    { rewrite <- sample_plus. f_equal. lia. }
    rewrite <- A, Q. ring.
Qed.

Lemma coefc_reversed h Nt (G : R -> R) c : (forall x, G (x + 2 * PI) = G x) ->
  coefc h Nt (fun n => G (- sample_phase Nt n)) c = csign h c * coefc h Nt (fun n => G (sample_phase Nt n)) c.
Proof.
  intros HG. unfold coefc, fourier_coef. set (cm := nth c (components h) (Cos O)).
  assert (P : forall x, basis h c (x + 2 * PI) = basis h c x).
  { intros x. unfold basis. replace (x + 2 * PI) with (x + 2 * PI * IZR 1) by ring. apply comp_fun_period. }
  rewrite (sum_reversed Nt (fun x => G x * comp_fun cm x)) by (intros x; rewrite HG; f_equal; apply P).
  rewrite (rsum_ext Nt (fun n => G (- sample_phase Nt n) * comp_fun cm (- sample_phase Nt n)) (fun n => csign h c * (G (- sample_phase Nt n) * comp_fun cm (sample_phase Nt n)))).
  2: { intros n _. change (comp_fun cm (- sample_phase Nt n)) with (basis h c (- sample_phase Nt n)). rewrite basis_neg. unfold basis. fold cm. ring. }
  rewrite rsum_scal_l. pose proof (csign_square h c) as Q.
  set (S0 := rsum Nt _). transitivity (csign h c * csign h c * (match cm with Cos O => 1 | _ => 2 end / INR Nt * S0)); [rewrite Q; ring|ring].
Qed.

Lemma law_force_ext N x x' pl i : (forall j, (j < N)%nat -> x j = x' j) -> law_force N x pl i = law_force N x' pl i.
Proof.
  intros H. unfold law_force. assert (E : local_at N (fst (fst pl)) x = local_at N (fst (fst pl)) x').
  { apply functional_extensionality. intros d. unfold local_at. apply rsum_ext. intros j Hj. rewrite (H j Hj). reflexivity. }
  rewrite E. reflexivity.
Qed.

Lemma lsum_eq {A} (f g : A -> R) l : (forall a, f a = g a) -> lsum f l = lsum g l.
Proof. intros H. unfold lsum. induction l as [|a l IH]; cbn; [reflexivity|]. rewrite H, IH. reflexivity. Qed.

Lemma action_reversed N h Nt ps ls U U' c i : (forall c j, (c < length (components h))%nat -> (j < N)%nat -> U' (c * N + j)%nat = csign h c * U (c * N + j)%nat) ->
  action_force N h Nt ps ls U' c i = csign h c * action_force N h Nt ps ls U c i.
Proof.
  intros HU. unfold action_force. set (G := fun tau => lsum (fun pl => law_force N (at_phase N h U tau) pl i) (combine ps ls)).
  transitivity (coefc h Nt (fun n => G (- sample_phase Nt n)) c); [|apply coefc_reversed].
  - apply coefc_ext. intros n _. unfold G. apply lsum_eq. intros pl. apply law_force_ext. intros j Hj. unfold at_phase, series. apply rsum_ext. intros b Hb.
    rewrite basis_neg. unfold dof_coefs. rewrite (HU b j Hb Hj). ring.
  - intros x. unfold G. apply lsum_eq. intros pl. apply law_force_ext. intros j Hj. unfold at_phase. replace (x + 2 * PI) with (x + 2 * PI * IZR 1) by ring. apply series_period.
Qed.

(** rows of the residual *)
Lemma hbm_rows s h Nt ps ls Fl X : admissible h -> (2 * list_max h + 1 < Nt)%nat -> Nat.even Nt = true ->
  let N := vs_N s in let n := (length (components h) * N)%nat in
  X n <> 0 -> (forall i j, (i < N)%nat -> (j < N)%nat -> vs_C s i j = 0) -> laws N (vs_forces s) ps ls ->
  exists Rr G, hbm_res s X Fl h Nt true = Ok (Rr, Some G) /\ forall c i, (c < length (components h))%nat -> (i < N)%nat ->
    Rr (c * N + i)%nat = rsum N (fun j => (vs_K s i j - (kof h c * X n) ^ 2 * vs_M s i j) * X (c * N + j)%nat) + action_force N h Nt ps ls (take n X) c i - Fl (c * N + i)%nat.
Proof.
  intros Ha HN He N n Hw HC HL. destruct (laws_aft N h Nt (X n) Ha HN He _ _ _ (take n X) HL) as (outs & HO & E).
  destruct (hbm_value s h Nt X Fl outs Ha HO) as (Em & dE & Rr & G & EE & ER & VR). exists Rr, G. split; [exact ER|].
  intros c i Hc Hi. etransitivity; [apply VR|]. apply (f_equal (fun x => x - Fl (c * N + i)%nat)). apply f_equal2; [|apply E; assumption].
  apply (linear_rows N h (vs_M s) (vs_C s) (vs_K s) (X n) Ha Hw HC Em (Some dE) X c i EE Hc Hi).
Qed.

Lemma hbm_reversed s h Nt ps Fl Fl' X X' : admissible h -> (2 * list_max h + 1 < Nt)%nat -> Nat.even Nt = true ->
  let N := vs_N s in let n := (length (components h) * N)%nat in
  X n <> 0 -> (forall i j, (i < N)%nat -> (j < N)%nat -> vs_C s i j = 0) -> springs N (vs_forces s) ps ->
  (forall r, (r < n)%nat -> X' r = reversed N h X r) -> X' n = X n -> (forall r, (r < n)%nat -> Fl' r = reversed N h Fl r) ->
  exists Rr G Rr' G', hbm_res s X Fl h Nt true = Ok (Rr, Some G) /\ hbm_res s X' Fl' h Nt true = Ok (Rr', Some G') /\
    forall r, (r < n)%nat -> Rr' r = reversed N h Rr r.
Proof.
  intros Ha HN He N n Hw HC Hs HX Hn HF. destruct (springs_have_laws _ _ _ Hs) as (ls & HL).
  destruct (hbm_rows s h Nt ps ls Fl X Ha HN He Hw HC HL) as (Rr & G & E & V).
  assert (Hw' : X' n <> 0) by (rewrite Hn; exact Hw).
  destruct (hbm_rows s h Nt ps ls Fl' X' Ha HN He Hw' HC HL) as (Rr' & G' & E' & V'). exists Rr, G, Rr', G'. split; [exact E|]. split; [exact E'|].
  assert (Lt : forall c i, (c < length (components h))%nat -> (i < N)%nat -> (c * N + i < n)%nat) by (intros; unfold n; nia).
  intros r Hr. destruct (block_form _ N r Hr) as (c & i & Hc & Hi & ->). rewrite (reversed_block N h Rr c i Hi).
  etransitivity; [apply (V' c i Hc Hi)|]. etransitivity; [|apply f_equal; symmetry; apply (V c i Hc Hi)]. fold N n. rewrite Hn.
  rewrite (action_reversed N h Nt ps ls (take n X) (take n X') c i).
  - rewrite (HF (c * N + i)%nat (Lt c i Hc Hi)), (reversed_block N h Fl c i Hi).
    rewrite (rsum_ext N (fun j => (vs_K s i j - (kof h c * X n) ^ 2 * vs_M s i j) * X' (c * N + j)%nat) (fun j => csign h c * ((vs_K s i j - (kof h c * X n) ^ 2 * vs_M s i j) * X (c * N + j)%nat))).
    + rewrite rsum_scal_l. ring.
    + intros j Hj. rewrite (HX _ (Lt c j Hc Hj)), (reversed_block N h X c j Hj). ring.
  - intros b j Hb Hj. rewrite !take_below by (apply Lt; assumption). rewrite (HX _ (Lt b j Hb Hj)). apply reversed_block. exact Hj.
Qed.

Lemma hbm_even s h Nt ps Fl X : admissible h -> (2 * list_max h + 1 < Nt)%nat -> Nat.even Nt = true ->
  let N := vs_N s in let n := (length (components h) * N)%nat in
  X n <> 0 -> (forall i j, (i < N)%nat -> (j < N)%nat -> vs_C s i j = 0) -> springs N (vs_forces s) ps ->
  (forall r, (r < n)%nat -> sine_row N h r -> X r = 0 /\ Fl r = 0) ->
  exists Rr G, hbm_res s X Fl h Nt true = Ok (Rr, Some G) /\ forall r, (r < n)%nat -> sine_row N h r -> Rr r = 0.
Proof.
  intros Ha HN He N n Hw HC Hs HX.
  assert (S1 : forall Y : vec, (forall r, (r < n)%nat -> sine_row N h r -> Y r = 0) -> forall r, (r < n)%nat -> Y r = reversed N h Y r).
  { intros Y HY r Hr. unfold reversed. destruct (nth (r / N) (components h) (Cos O)) as [k|k] eqn:Q; [reflexivity|]. rewrite (HY r Hr); [ring|exists k; exact Q]. }
  destruct (hbm_reversed s h Nt ps Fl Fl X X Ha HN He Hw HC Hs) as (Rr & G & Rr' & G' & E & E' & V).
  - apply S1. intros r Hr H. apply HX; assumption.
  - reflexivity.
  - apply S1. intros r Hr H. apply HX; assumption.
  - exists Rr, G. split; [exact E|]. rewrite E in E'. injection E' as <- <-. intros r Hr (k & Q). pose proof (V r Hr) as W. fold N in W. unfold reversed in W. rewrite Q in W. lra.
Qed.
