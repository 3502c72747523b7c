(** Linear modes and the EPMC residual. *)
From Coq Require Import Reals List Arith Bool Lra Lia Psatz.
From Verif.Lib Require Import RSum Py LinAlg.
From Verif.Spec Require Import Calculus Harmonic Elements System Energy LinearModes.
From Verif.Model Require Import Harmonic VibSys.
From Verif.Proofs Require Import HarmonicP FourierP AftP HarmonicOpsP VibSysP VibControlP EpmcP.
Import ListNotations.
Open Scope R_scope.

Lemma same_coefs h (U V : vec) : admissible h -> (forall tau, series h U tau = series h V tau) -> forall c, (c < length (components h))%nat -> U c = V c.
Proof.
  intros Ha H c Hc. pose proof (series_coef (2 * list_max h + 1) h U c (proj1 (proj2 Ha)) ltac:(lia) Hc) as A.
  pose proof (series_coef (2 * list_max h + 1) h V c (proj1 (proj2 Ha)) ltac:(lia) Hc) as B.
  rewrite <- A, <- B. apply fourier_coef_ext. intros m Hm. apply H.
Qed.

(** ---- the residual, row by row ---- *)
Section Rows.
  Variables (s : vibsys) (h : list nat) (Nt : nat) (X Fl : vec) (outs : list (vec * mat * vec)).
  Hypothesis Ha : admissible h.
  Hypothesis H1 : starts_with_1 h.
  Let N := vs_N s.
  Let n := (length (components h) * N)%nat.
  Let w := X n.
  Let xi := X (n + 1)%nat.
  Let A := Rpower 10 (X (n + 2)%nat).
  Let U := amplitude_scaled N h X (X (n + 2)%nat).
  Hypothesis Ho : Forall2 (fun f o => nl_aft f (take n U) w h Nt = Ok o) (vs_forces s) outs.

  Lemma epmc_rows : exists Rr G, epmc_res s X Fl h Nt true = Ok (Rr, Some G) /\
    (forall i, (i < n)%nat -> Rr i = matvec n (hsE N (vs_M s) (fun i j => vs_C s i j - xi * vs_M s i j) (vs_K s) w h false (length h - zi h)) U i
       + total_coefs outs i - clear_from (zi h * N) Fl i) /\
    Rr n = modal_mass N h (vs_M s) X - 1 /\ Rr (n + 1)%nat = dynamic_dot N h Fl X.
  Proof.
    destruct (total_aft_sum s h Nt (take n U) w outs Ha Ho) as (dU & dw & E).
    unfold epmc_res. rewrite nhc_aft, (nonempty_match h _ _ (proj1 Ha)). cbv zeta. fold N. fold n. fold w. fold xi.
    rewrite (proj1 (Nhc_spec h) (proj1 (proj2 Ha))). cbn [bind]. rewrite (harmonic_stiffness_ok _ _ _ _ _ _ true false Ha). cbn [bind].
    rewrite (scaled_eq N h X (X (n + 2)%nat) Ha). fold U. rewrite E. cbn [bind].
    rewrite (harmonic_stiffness_ok _ _ _ _ _ _ false true Ha). cbn [bind].
    eexists _, _. split; [reflexivity|]. cbv beta. split; [|split].
    - intros i Hi. rewrite ltb_t by exact Hi. reflexivity.
    - rewrite ltb_f, Nat.eqb_refl by lia. rewrite (modal_mass_eq N h (vs_M s) X Ha H1). reflexivity.
    - rewrite ltb_f, (proj2 (Nat.eqb_neq (n + 1) n)) by lia. rewrite <- (dynamic_dot_eq N h Fl X Ha). reflexivity.
  Qed.
End Rows.

(** ---- the coefficients of a modal vibration ---- *)
Definition modal_pattern (zih : nat) (us z y : R) (c : nat) : R :=
  if andb (Nat.eqb zih 1) (Nat.eqb c 0) then us else if Nat.eqb c zih then z else if Nat.eqb c (zih + 1) then y else 0.

Lemma first_1 h : admissible h -> starts_with_1 h -> (1 <= length h - zi h)%nat /\ nth (zi h) h O = 1%nat.
Proof. intros _ [rest [->| ->]]; cbn; split; try reflexivity; lia. Qed.

Lemma pattern_series h us z y tau : admissible h -> starts_with_1 h ->
  series h (modal_pattern (zi h) us z y) tau = (if Nat.eqb (zi h) 1 then us else 0) + z * cos tau + y * sin tau.
Proof.
  intros Ha H1. destruct (first_1 h Ha H1) as [L E]. rewrite series_index by exact (proj2 (proj2 Ha)).
  pose proof (zi_le h) as Hz. rewrite (rsum_single _ O); [|lia|].
  - cbn [Nat.mul Nat.add]. rewrite E. change (INR 1) with 1. rewrite Rmult_1_l. unfold modal_pattern.
    assert (Hc : zi h = O \/ zi h = 1%nat) by lia. destruct Hc as [->| ->]; cbn [Nat.eqb andb Nat.add]; ring.
  - intros p Hp Hne. unfold modal_pattern. assert (Hc : zi h = O \/ zi h = 1%nat) by lia.
    rewrite !(proj2 (Nat.eqb_neq (2 * p + zi h) _)), !(proj2 (Nat.eqb_neq (2 * p + 1 + zi h) _)) by lia. rewrite !andb_false_r. ring.
Qed.

Lemma modal_coefs N h us z y V : admissible h -> starts_with_1 h ->
  (modal_vibration N h us z y V <->
   (~ In O h -> forall j, (j < N)%nat -> us j = 0) /\
   forall j c, (j < N)%nat -> (c < length (components h))%nat -> V (c * N + j)%nat = modal_pattern (zi h) (us j) (z j) (y j) c).
Proof.
  intros Ha H1. unfold modal_vibration.
  assert (P : forall j tau, (~ In O h -> us j = 0) -> series h (modal_pattern (zi h) (us j) (z j) (y j)) tau = us j + z j * cos tau + y j * sin tau).
  { intros j tau Hs. rewrite pattern_series by assumption. pose proof (zi_in h Ha) as Z. destruct (in_dec Nat.eq_dec O h) as [I|I]; rewrite <- Z.
    - cbn. ring.
    - cbn. rewrite Hs by exact I. ring. }
  split; intros [Hs H]; (split; [exact Hs|]).
  - intros j c Hj Hc. apply (same_coefs h (dof_coefs N V j) _ Ha); [|exact Hc]. intros tau. rewrite H by exact Hj. symmetry. apply P. intros I. apply Hs; assumption.
  - intros j tau Hj. rewrite <- P by (intros I; apply Hs; assumption). apply series_ext. intros c Hc. apply H; assumption.
Qed.

Lemma pair_lt h p : admissible h -> (p < length h - zi h)%nat -> (2 * p + 1 + zi h < length (components h))%nat.
Proof. intros Ha Hp. rewrite nhc_zi by exact (proj2 (proj2 Ha)). unfold hs. rewrite skipn_length. lia. Qed.

(** ---- the rows of each harmonic ---- *)
Section Harmonics.
  Variables (s : vibsys) (h : list nat) (X : vec).
  Hypothesis Ha : admissible h.
  Let N := vs_N s.
  Let M := vs_M s.
  Let C := vs_C s.
  Let K := vs_K s.
  Let n := (length (components h) * N)%nat.
  Variables (w xi la : R).
  Let U := amplitude_scaled N h X la.
  Let E := hsE N M (fun i j => C i j - xi * M i j) K w h false (length h - zi h).

  Lemma scaled_high c j : (zi h <= c)%nat -> (j < N)%nat -> U (c * N + j)%nat = Rpower 10 la * X (c * N + j)%nat.
  Proof.
    intros Hc Hj. unfold U, amplitude_scaled. pose proof (zi_in h Ha) as Z. destruct (in_dec Nat.eq_dec O h) as [I|I]; [|reflexivity].
    rewrite ltb_f by nia. reflexivity.
  Qed.
  Lemma scaled_low j : zi h = 1%nat -> (j < N)%nat -> U j = X j.
  Proof. intros Hz Hj. unfold U, amplitude_scaled. pose proof (zi_in h Ha) as Z. destruct (in_dec Nat.eq_dec O h) as [I|I]; [rewrite ltb_t by exact Hj; reflexivity|congruence]. Qed.

  Lemma static_row i : zi h = 1%nat -> (i < N)%nat -> matvec n E U i = rsum N (fun j => K i j * X j).
  Proof.
    intros Hz Hi. pose proof (row_zero N M (fun i j => C i j - xi * M i j) K w h (proj2 (proj2 Ha)) U i Hz Hi) as Q.
    cbn [Nat.mul Nat.add] in Q. fold n E in Q. rewrite Q. apply rsum_ext. intros j Hj. rewrite scaled_low by assumption. reflexivity.
  Qed.
  Lemma pair_rows p i : (p < length h - zi h)%nat -> (i < N)%nat ->
    let a := INR (nth (p + zi h) h O) * w in
    let z := fun j => X ((2 * p + zi h) * N + j)%nat in let y := fun j => X ((2 * p + 1 + zi h) * N + j)%nat in
    matvec n E U ((2 * p + zi h) * N + i)%nat = Rpower 10 la *
      (matvec N K z i - a ^ 2 * matvec N M z i + a * (matvec N C y i - xi * matvec N M y i)) /\
    matvec n E U ((2 * p + 1 + zi h) * N + i)%nat = Rpower 10 la *
      (matvec N K y i - a ^ 2 * matvec N M y i - a * (matvec N C z i - xi * matvec N M z i)).
  Proof.
    intros Hp Hi. cbv zeta. destruct (row_pair N M (fun i j => C i j - xi * M i j) K w h (proj2 (proj2 Ha)) U p i Hp Hi) as [Q1 Q2].
    fold n E in Q1, Q2. rewrite Q1, Q2. unfold matvec. split.
    - rewrite <- !rsum_scal_l, <- !rsum_minus, <- !rsum_scal_l, <- !rsum_plus, <- !rsum_scal_l. apply rsum_ext. intros j Hj.
      rewrite !scaled_high by (assumption || lia). unfold Dblk, hk. ring.
    - rewrite <- !rsum_scal_l, <- !rsum_minus, <- !rsum_scal_l, <- !rsum_minus, <- !rsum_scal_l. apply rsum_ext. intros j Hj.
      rewrite !scaled_high by (assumption || lia). unfold Dblk, hk. ring.
  Qed.
  Lemma clear_high F c i : (zi h <= c)%nat -> (i < N)%nat -> clear_from (zi h * N) F (c * N + i)%nat = 0.
  Proof. intros Hc Hi. unfold clear_from. rewrite ltb_f by nia. reflexivity. Qed.
  Lemma clear_low F i : (i < N)%nat -> zi h = 1%nat -> clear_from (zi h * N) F i = static_part h F i.
  Proof.
    intros Hi Hz. unfold clear_from, static_part. pose proof (zi_in h Ha) as Z. destruct (in_dec Nat.eq_dec O h) as [I|I]; [|congruence].
    rewrite ltb_t by nia. reflexivity.
  Qed.
End Harmonics.

(** ---- quadratic forms ---- *)
Definition quad (N : nat) (x : vec) (A : mat) (y : vec) : R := dot N x (matvec N A y).
Lemma quad_sym N A x y : symmetric_matrix N A -> quad N x A y = quad N y A x.
Proof.
  intros H. unfold quad, dot, matvec. rewrite (rsum_ext N _ (fun i => rsum N (fun j => x i * (A i j * y j)))) by (intros; symmetry; apply rsum_scal_l).
  rewrite rsum_swap. apply rsum_ext. intros j Hj. rewrite <- rsum_scal_l. apply rsum_ext. intros i Hi. rewrite (H i j Hi Hj). ring.
Qed.
Lemma mass_quad N M x : mass_of N M x = quad N x M x. Proof. reflexivity. Qed.

Section Algebra.
  Variables (N : nat) (M C K : mat) (al be xi w : R).
  Hypothesis SM : symmetric_matrix N M.
  Hypothesis SK : symmetric_matrix N K.
  Hypothesis PC : proportional_damping N M C K al be.

  Lemma damping_row x i : (i < N)%nat -> matvec N C x i = al * matvec N M x i + be * matvec N K x i.
  Proof. intros Hi. unfold matvec. rewrite <- !rsum_scal_l, <- rsum_plus. apply rsum_ext. intros j Hj. rewrite PC by assumption. ring. Qed.

  Variables (a : R) (z y : vec).
  Hypothesis E1 : forall i, (i < N)%nat -> matvec N K z i - a ^ 2 * matvec N M z i + a * (matvec N C y i - xi * matvec N M y i) = 0.
  Hypothesis E2 : forall i, (i < N)%nat -> matvec N K y i - a ^ 2 * matvec N M y i - a * (matvec N C z i - xi * matvec N M z i) = 0.

  Lemma pair_combined (x : vec) :
    quad N x K z - a ^ 2 * quad N x M z + a * ((al - xi) * quad N x M y + be * quad N x K y) = 0 /\
    quad N x K y - a ^ 2 * quad N x M y - a * ((al - xi) * quad N x M z + be * quad N x K z) = 0.
  Proof.
    unfold quad, dot. split.
    - rewrite <- !rsum_scal_l, <- !rsum_plus, <- !rsum_scal_l, <- rsum_minus, <- rsum_plus. apply rsum_zero. intros i Hi.
      pose proof (E1 i Hi) as Q. rewrite damping_row in Q by exact Hi. cbv beta. rewrite <- (Rmult_0_r (x i)), <- Q. ring.
    - rewrite <- !rsum_scal_l, <- !rsum_plus, <- !rsum_scal_l, <- !rsum_minus. apply rsum_zero. intros i Hi.
      pose proof (E2 i Hi) as Q. rewrite damping_row in Q by exact Hi. cbv beta. rewrite <- (Rmult_0_r (x i)), <- Q. ring.
  Qed.
  Lemma pair_balance : a <> 0 ->
    quad N z K z + quad N y K y = a ^ 2 * (quad N z M z + quad N y M y) /\
    (al - xi) * (quad N z M z + quad N y M y) + be * (quad N z K z + quad N y K y) = 0.
  Proof.
    intros Hne. destruct (pair_combined z) as [A1 A2]. destruct (pair_combined y) as [B1 B2].
    rewrite (quad_sym N M y z SM), (quad_sym N K y z SK) in *. split; [nra|]. apply (Rmult_eq_reg_l a); [|exact Hne]. nra.
  Qed.
End Algebra.

(** ---- linear modes give the residual of the nonlinear forces alone ---- *)
Lemma modes_residual s h Nt X Fl outs us z y : admissible h -> starts_with_1 h ->
  let N := vs_N s in let n := (length (components h) * N)%nat in let w := X n in let xi := X (n + 1)%nat in
  Forall2 (fun f o => nl_aft f (take n (amplitude_scaled N h X (X (n + 2)%nat))) w h Nt = Ok o) (vs_forces s) outs ->
  modal_vibration N h us z y X -> static_equilibrium N h (vs_K s) Fl us ->
  linear_mode N (vs_K s) (vs_M s) w z -> linear_mode N (vs_K s) (vs_M s) w y ->
  (forall i, (i < N)%nat -> matvec N (vs_C s) z i = xi * matvec N (vs_M s) z i) ->
  (forall i, (i < N)%nat -> matvec N (vs_C s) y i = xi * matvec N (vs_M s) y i) ->
  exists Rr G, epmc_res s X Fl h Nt true = Ok (Rr, Some G) /\ (forall i, (i < n)%nat -> Rr i = total_coefs outs i) /\
    Rr n = mass_of N (vs_M s) z + mass_of N (vs_M s) y - 1 /\ Rr (n + 1)%nat = dynamic_dot N h Fl X.
Proof.
  intros Ha H1 N n w xi Ho Hv Hs Mz My Cz Cy.
  destruct (epmc_rows s h Nt X Fl outs Ha H1 Ho) as (Rr & G & E & R1 & R2 & R3). fold N n w xi in R1, R2, R3.
  exists Rr, G. split; [exact E|]. apply (modal_coefs N h us z y X Ha H1) in Hv. destruct Hv as [H0 Hv].
  pose proof (zi_starts h H1) as Lz. pose proof (zi_le h) as Lz1.
  assert (Vz : forall j, (j < N)%nat -> X (zi h * N + j)%nat = z j).
  { intros j Hj. rewrite Hv by (assumption || lia). unfold modal_pattern. rewrite Nat.eqb_refl. destruct (Nat.eqb_spec (zi h) 1) as [Q|Q]; [|reflexivity].
    rewrite Q. reflexivity. }
  assert (Vy : forall j, (j < N)%nat -> X ((zi h + 1) * N + j)%nat = y j).
  { intros j Hj. rewrite Hv by (assumption || lia). unfold modal_pattern. rewrite (proj2 (Nat.eqb_neq (zi h + 1) 0)), (proj2 (Nat.eqb_neq (zi h + 1) (zi h))), Nat.eqb_refl, andb_false_r by lia. reflexivity. }
  split; [|split].
  - intros i Hi. rewrite R1 by exact Hi. cut (matvec n (hsE N (vs_M s) (fun i j => vs_C s i j - xi * vs_M s i j) (vs_K s) w h false (length h - zi h)) (amplitude_scaled N h X (X (n + 2)%nat)) i = clear_from (zi h * N) Fl i); [intros ->; ring|].
    assert (HN : (0 < N)%nat) by (unfold n in Hi; nia).
    destruct (index_cases N h (proj2 (proj2 Ha)) i HN) as [Q|[[Hz Q]|(p & d & Hp & Hd & Q)]]; [unfold n in Hi; lia| |].
    + unfold n. rewrite (static_row s h X Ha w xi _ i Hz Q). pose proof (clear_low s h Ha Fl i Q Hz) as CL. fold N in CL |- *. rewrite CL. rewrite <- Hs by exact Q.
      apply rsum_ext. intros j Hj. f_equal. change j with (0 * N + j)%nat at 1. rewrite Hv by (assumption || lia). unfold modal_pattern. rewrite Hz. reflexivity.
    + destruct (pair_rows s h X Ha w xi (X (n + 2)%nat) p d Hp Hd) as [P1 P2].
      fold N in P1, P2. fold n in P1, P2.
      pose proof (pair_lt h p Ha Hp) as Hlt.
      assert (Zc : clear_from (zi h * N) Fl i = 0).
      { destruct Q as [->| ->]; (unfold N; apply (clear_high s h); [lia|exact Hd]). }
      rewrite Zc. destruct p as [|p].
      * cbn [Nat.mul Nat.add] in P1, P2, Q. destruct (first_1 h Ha H1) as [_ F1]. rewrite F1 in P1, P2. change (INR 1) with 1 in P1, P2. rewrite Rmult_1_l in P1, P2.
        assert (MZ : forall A, matvec N A (fun j => X (zi h * N + j)%nat) d = matvec N A z d) by (intros A; apply matvec_ext; exact Vz).
        assert (MY : forall A, matvec N A (fun j => X (S (zi h) * N + j)%nat) d = matvec N A y d).
        { intros A; apply matvec_ext. intros j Hj. rewrite <- (Nat.add_1_r (zi h)). apply Vy. exact Hj. }
        rewrite !MZ, !MY in P1, P2.
        pose proof (Mz d Hd) as Qz. pose proof (My d Hd) as Qy. change (matvec N (vs_K s) z d = w ^ 2 * matvec N (vs_M s) z d) in Qz. change (matvec N (vs_K s) y d = w ^ 2 * matvec N (vs_M s) y d) in Qy.
        destruct Q as [->| ->]; [rewrite P1|rewrite P2]; rewrite ?Qz, ?Qy, ?(Cz d Hd), ?(Cy d Hd); ring.
      * assert (O1 : forall j, (j < N)%nat -> X ((2 * S p + zi h) * N + j)%nat = 0).
        { intros j Hj. rewrite Hv by (assumption || lia). unfold modal_pattern. rewrite !(proj2 (Nat.eqb_neq (2 * S p + zi h) _)) by lia. rewrite andb_false_r. reflexivity. }
        assert (O2 : forall j, (j < N)%nat -> X ((2 * S p + 1 + zi h) * N + j)%nat = 0).
        { intros j Hj. rewrite Hv by (assumption || lia). unfold modal_pattern. rewrite !(proj2 (Nat.eqb_neq (2 * S p + 1 + zi h) _)) by lia. rewrite andb_false_r. reflexivity. }
        assert (MO1 : forall A, matvec N A (fun j => X ((2 * S p + zi h) * N + j)%nat) d = 0) by (intros A; unfold matvec; apply rsum_zero; intros j Hj; rewrite O1 by exact Hj; ring).
        assert (MO2 : forall A, matvec N A (fun j => X ((2 * S p + 1 + zi h) * N + j)%nat) d = 0) by (intros A; unfold matvec; apply rsum_zero; intros j Hj; rewrite O2 by exact Hj; ring).
        rewrite !MO1, !MO2 in P1, P2. destruct Q as [->| ->]; [rewrite P1|rewrite P2]; ring.
  - rewrite R2, <- (modal_mass_eq N h (vs_M s) X Ha H1). f_equal. unfold mass_of. f_equal;
      (unfold dot; apply rsum_ext; intros i Hi; cbv beta; rewrite ?Vz, ?Vy by exact Hi; f_equal; apply matvec_ext; assumption).
  - exact R3.
Qed.

Lemma comp_cases h c : admissible h -> (c < length (components h))%nat ->
  (zi h = 1%nat /\ c = O) \/ exists p, (p < length h - zi h)%nat /\ (c = 2 * p + zi h \/ c = 2 * p + 1 + zi h)%nat.
Proof.
  intros Ha Hc. destruct (index_cases 1 h (proj2 (proj2 Ha)) c ltac:(lia)) as [Q|[[Hz Q]|(p & d & Hp & Hd & Q)]]; [lia|left; split; [exact Hz|lia]|].
  right. exists p. split; [exact Hp|]. lia.
Qed.

Lemma classic_zero N (x : vec) : (forall i, (i < N)%nat -> x i = 0) \/ exists i, (i < N)%nat /\ x i <> 0.
Proof.
  induction N as [|N IH]; [left; intros i Hi; lia|]. destruct IH as [IH|(i & Hi & E)]; [|right; exists i; split; [lia|exact E]].
  destruct (Req_dec (x N) 0) as [E|E]; [|right; exists N; split; [lia|exact E]].
  left. intros i Hi. destruct (Nat.eq_dec i N) as [->|Hne]; [exact E|]. apply IH. lia.
Qed.

(** ---- every solution of the linear system is a linear mode ---- *)
Lemma definite_zero N M z y : positive_definite N M -> quad N z M z + quad N y M y = 0 -> forall i, (i < N)%nat -> z i = 0 /\ y i = 0.
Proof.
  intros Hp H i Hi.
  assert (P : forall x, 0 <= quad N x M x).
  { intros x. destruct (classic_zero N x) as [Z|Z].
    - right. unfold quad, dot. symmetry. apply rsum_zero. intros k Hk. rewrite Z by exact Hk. ring.
    - left. exact (Hp x Z). }
  pose proof (P z) as Pz. pose proof (P y) as Py.
  split; [destruct (Req_dec (z i) 0) as [E|E]|destruct (Req_dec (y i) 0) as [E|E]]; try exact E; exfalso.
  - pose proof (Hp z (ex_intro _ i (conj Hi E))) as Q. rewrite mass_quad in Q. lra.
  - pose proof (Hp y (ex_intro _ i (conj Hi E))) as Q. rewrite mass_quad in Q. lra.
Qed.

Lemma solutions_modes s h Nt X Fl al be Rr G : admissible h -> starts_with_1 h -> vs_forces s = [] ->
  let N := vs_N s in let n := (length (components h) * N)%nat in let w := X n in let xi := X (n + 1)%nat in
  w <> 0 -> symmetric_matrix N (vs_M s) -> symmetric_matrix N (vs_K s) -> positive_definite N (vs_M s) ->
  proportional_damping N (vs_M s) (vs_C s) (vs_K s) al be -> be <> 0 \/ no_internal_resonance N h (vs_K s) (vs_M s) w ->
  epmc_res s X Fl h Nt true = Ok (Rr, Some G) -> (forall i, (i < n + 2)%nat -> Rr i = 0) ->
  exists us z y, modal_vibration N h us z y X /\ static_equilibrium N h (vs_K s) Fl us /\
    linear_mode N (vs_K s) (vs_M s) w z /\ linear_mode N (vs_K s) (vs_M s) w y /\
    mass_of N (vs_M s) z + mass_of N (vs_M s) y = 1 /\ dynamic_dot N h Fl X = 0 /\ xi = al + be * w ^ 2.
Proof.
  intros Ha H1 Hf N n w xi Hw SM SK PD PC Hres E HR.
  destruct (epmc_rows s h Nt X Fl [] Ha H1) as (Rr' & G' & E' & R1 & R2 & R3).
  { rewrite Hf. constructor. }
  rewrite E in E'. inversion E'. subst Rr' G'. clear E'. fold N n w xi in R1, R2, R3.
  assert (HA : 0 < Rpower 10 (X (n + 2)%nat)) by apply exp_pos.
  pose proof (zi_starts h H1) as Lz. pose proof (zi_le h) as Lz1. destruct (first_1 h Ha H1) as [L1 F1].
  set (zz := fun p j => X ((2 * p + zi h) * N + j)%nat). set (yy := fun p j => X ((2 * p + 1 + zi h) * N + j)%nat).
  assert (P : forall p, (p < length h - zi h)%nat -> let a := INR (nth (p + zi h) h O) * w in
     (forall i, (i < N)%nat -> matvec N (vs_K s) (zz p) i - a ^ 2 * matvec N (vs_M s) (zz p) i + a * (matvec N (vs_C s) (yy p) i - xi * matvec N (vs_M s) (yy p) i) = 0) /\
     (forall i, (i < N)%nat -> matvec N (vs_K s) (yy p) i - a ^ 2 * matvec N (vs_M s) (yy p) i - a * (matvec N (vs_C s) (zz p) i - xi * matvec N (vs_M s) (zz p) i) = 0)).
  { intros p Hp a. pose proof (pair_lt h p Ha Hp) as Hlt.
    split; intros i Hi; destruct (pair_rows s h X Ha w xi (X (n + 2)%nat) p i Hp Hi) as [P1 P2]; fold N in P1, P2; fold n in P1, P2.
    - assert (B : ((2 * p + zi h) * N + i < n)%nat) by (unfold n; nia).
      pose proof (R1 _ B) as Q. rewrite HR in Q by lia. rewrite P1 in Q. cbn in Q.
      pose proof (clear_high s h Fl (2 * p + zi h) i ltac:(lia) Hi) as Z. fold N in Z. cbn in Z. rewrite Z in Q.
      apply (Rmult_eq_reg_l (Rpower 10 (X (n + 2)%nat))); [|lra]. rewrite Rmult_0_r. unfold zz, yy, a. cbn. lra.
    - assert (B : ((2 * p + 1 + zi h) * N + i < n)%nat) by (unfold n; nia).
      pose proof (R1 _ B) as Q. rewrite HR in Q by lia. rewrite P2 in Q. cbn in Q.
      pose proof (clear_high s h Fl (2 * p + 1 + zi h) i ltac:(lia) Hi) as Z. fold N in Z. cbn in Z. rewrite Z in Q.
      apply (Rmult_eq_reg_l (Rpower 10 (X (n + 2)%nat))); [|lra]. rewrite Rmult_0_r. unfold zz, yy, a. cbn. lra. }
  assert (Mass : quad N (zz O) (vs_M s) (zz O) + quad N (yy O) (vs_M s) (yy O) = 1).
  { pose proof (HR n ltac:(lia)) as Q. rewrite R2 in Q. rewrite <- (modal_mass_eq N h (vs_M s) X Ha H1) in Q.
    rewrite (Nat.add_comm (zi h) 1) in Q. unfold quad, zz, yy. cbn [Nat.mul Nat.add] in Q |- *. lra. }
  destruct (P O L1) as [A1 A2]. cbn [Nat.add] in A1, A2. rewrite F1 in A1, A2. change (INR 1) with 1 in A1, A2. rewrite Rmult_1_l in A1, A2.
  destruct (pair_balance N (vs_M s) (vs_C s) (vs_K s) al be xi SM SK PC w (zz O) (yy O) A1 A2 Hw) as [B1 B2].
  rewrite B1, Mass in B2. assert (Hxi : xi = al + be * w ^ 2) by nra.
  assert (Modes : forall i, (i < N)%nat -> matvec N (vs_K s) (zz O) i = w ^ 2 * matvec N (vs_M s) (zz O) i /\ matvec N (vs_K s) (yy O) i = w ^ 2 * matvec N (vs_M s) (yy O) i).
  { intros i Hi. pose proof (A1 i Hi) as Q1. pose proof (A2 i Hi) as Q2.
    rewrite (damping_row N (vs_M s) (vs_C s) (vs_K s) al be PC) in Q1, Q2 by exact Hi. rewrite Hxi in Q1, Q2.
    set (a := matvec N (vs_K s) (zz O) i) in *. set (b := matvec N (vs_K s) (yy O) i) in *. set (c := matvec N (vs_M s) (zz O) i) in *. set (d := matvec N (vs_M s) (yy O) i) in *.
    clearbody a b c d.
    assert (X1 : (a - w ^ 2 * c) + w * be * (b - w ^ 2 * d) = 0) by (rewrite <- Q1; ring).
    assert (X2 : (b - w ^ 2 * d) - w * be * (a - w ^ 2 * c) = 0) by (rewrite <- Q2; ring).
    set (f := a - w ^ 2 * c) in *. set (g := b - w ^ 2 * d) in *. set (k := w * be) in *.
    assert (Ef : f * (1 + k * k) = 0) by (replace g with (k * f) in X1 by lra; rewrite <- X1; ring).
    assert (Ff : f = 0) by (destruct (Rmult_integral _ _ Ef) as [Q|Q]; [exact Q|exfalso; nra]).
    assert (Fg : g = 0) by (rewrite Ff in X2; lra). unfold f in Ff. unfold g in Fg. split; lra. }
  assert (High : forall p, (0 < p < length h - zi h)%nat -> forall j, (j < N)%nat -> zz p j = 0 /\ yy p j = 0).
  { intros p [Hp0 Hp] j Hj. destruct (P p Hp) as [D1 D2]. cbv zeta in D1, D2. set (k := nth (p + zi h) h O) in *.
    assert (Ik : In k h) by (apply nth_In; lia).
    assert (Hk : (1 < k)%nat).
    { assert (k <> 1)%nat.
      { intros Q. pose proof (proj1 (NoDup_nth h O) (proj1 (proj2 Ha)) (p + zi h)%nat (zi h) ltac:(lia) ltac:(lia)) as ND. fold k in ND. rewrite F1, Q in ND. specialize (ND eq_refl). lia. }
      assert (k <> 0)%nat; [|lia]. intros Q. apply (proj2 (proj2 Ha)). rewrite <- Q. unfold k. destruct h as [|h0 tlh]; [cbn in Hp; lia|].
      replace (p + zi (h0 :: tlh))%nat with (S (p - 1 + zi (h0 :: tlh))) by lia. cbn [nth tl]. apply nth_In. cbn [length] in Hp. lia. }
    assert (K1 : 1 < INR k) by (change 1 with (INR 1); apply lt_INR; exact Hk).
    assert (Hkw : INR k * w <> 0) by (apply Rmult_integral_contrapositive_currified; lra).
    destruct (pair_balance N (vs_M s) (vs_C s) (vs_K s) al be xi SM SK PC (INR k * w) (zz p) (yy p) D1 D2 Hkw) as [C1 C2].
    destruct (Req_dec be 0) as [Eb|Nb].
    - destruct Hres as [Q|Q]; [contradiction|].
      assert (Mo : linear_mode N (vs_K s) (vs_M s) (INR k * w) (zz p) /\ linear_mode N (vs_K s) (vs_M s) (INR k * w) (yy p)).
      { split; intros i Hi; [pose proof (D1 i Hi) as T|pose proof (D2 i Hi) as T]; rewrite (damping_row N (vs_M s) (vs_C s) (vs_K s) al be PC) in T by exact Hi;
          rewrite Hxi, Eb in T; [change (matvec N (vs_K s) (zz p) i = (INR k * w) ^ 2 * matvec N (vs_M s) (zz p) i)|change (matvec N (vs_K s) (yy p) i = (INR k * w) ^ 2 * matvec N (vs_M s) (yy p) i)]; lra. }
      split; [apply (Q k (zz p) Ik Hk (proj1 Mo) j Hj)|apply (Q k (yy p) Ik Hk (proj2 Mo) j Hj)].
    - apply (definite_zero N (vs_M s) (zz p) (yy p) PD); [|exact Hj]. rewrite C1, Hxi in C2.
      set (m := quad N (zz p) (vs_M s) (zz p) + quad N (yy p) (vs_M s) (yy p)) in *. clearbody m.
      assert (T : m * (be * (w ^ 2 * (INR k ^ 2 - 1))) = 0) by (rewrite <- C2; ring).
      destruct (Rmult_integral _ _ T) as [V|V]; [exact V|]. exfalso. revert V. apply Rmult_integral_contrapositive_currified; [exact Nb|].
      apply Rmult_integral_contrapositive_currified; [apply pow_nonzero; exact Hw|nra]. }
  exists (fun j => if Nat.eqb (zi h) 1 then X j else 0), (zz O), (yy O).
  split; [|split; [|split; [|split; [|split; [|split]]]]].
  - apply (modal_coefs N h _ _ _ X Ha H1). pose proof (EpmcP.zi_in h Ha) as Z. split.
    + intros I j Hj. destruct (in_dec Nat.eq_dec O h) as [J|J]; [contradiction|]. rewrite <- Z. reflexivity.
    + intros j c Hj Hc. destruct (comp_cases h c Ha Hc) as [[Q ->]|(p & Hp & Q)].
      * unfold modal_pattern. rewrite Q. reflexivity.
      * destruct p as [|p].
        -- cbn [Nat.mul Nat.add] in Q. unfold modal_pattern, zz, yy. cbn [Nat.mul Nat.add].
           destruct Q as [->| ->].
           ++ rewrite Nat.eqb_refl. destruct (Nat.eqb_spec (zi h) 1) as [T|T]; [rewrite T; reflexivity|reflexivity].
           ++ rewrite andb_false_r, (proj2 (Nat.eqb_neq (S (zi h)) (zi h))), Nat.add_1_r, Nat.eqb_refl by lia. reflexivity.
        -- destruct (High (S p) ltac:(lia) j Hj) as [T1 T2]. unfold zz, yy in T1, T2. unfold modal_pattern.
           rewrite (proj2 (Nat.eqb_neq c 0)), (proj2 (Nat.eqb_neq c (zi h))), (proj2 (Nat.eqb_neq c (zi h + 1))), andb_false_r by lia.
           destruct Q as [->| ->]; assumption.
  - intros i Hi. pose proof (EpmcP.zi_in h Ha) as Z. destruct (Nat.eqb_spec (zi h) 1) as [Q|Q].
    + assert (B : (i < n)%nat) by (unfold n; nia). pose proof (R1 i B) as T. rewrite HR in T by lia.
      pose proof (static_row s h X Ha w xi (X (n + 2)%nat) i Q Hi) as S1. fold N in S1. fold n in S1. rewrite S1 in T.
      pose proof (clear_low s h Ha Fl i Hi Q) as S2. fold N in S2. rewrite S2 in T. unfold total_coefs, lsum in T. cbn [map fold_right] in T. lra.
    + rewrite (rsum_zero N) by (intros; ring). unfold static_part. destruct (in_dec Nat.eq_dec O h) as [I|I]; [exfalso; apply Q; rewrite <- Z; reflexivity|reflexivity].
  - intros i Hi. apply (proj1 (Modes i Hi)).
  - intros i Hi. apply (proj2 (Modes i Hi)).
  - exact Mass.
  - rewrite <- R3. apply HR. lia.
  - exact Hxi.
Qed.

(** ---- both directions ---- *)
Lemma modes_iff s h Nt X Fl al be : admissible h -> starts_with_1 h -> vs_forces s = [] ->
  let N := vs_N s in let n := (length (components h) * N)%nat in let w := X n in
  w <> 0 -> symmetric_matrix N (vs_M s) -> symmetric_matrix N (vs_K s) -> positive_definite N (vs_M s) ->
  proportional_damping N (vs_M s) (vs_C s) (vs_K s) al be -> be <> 0 \/ no_internal_resonance N h (vs_K s) (vs_M s) w ->
  exists Rr G, epmc_res s X Fl h Nt true = Ok (Rr, Some G) /\
    ((forall i, (i < n + 2)%nat -> Rr i = 0) <->
     exists us z y, modal_vibration N h us z y X /\ static_equilibrium N h (vs_K s) Fl us /\
       linear_mode N (vs_K s) (vs_M s) w z /\ linear_mode N (vs_K s) (vs_M s) w y /\
       mass_of N (vs_M s) z + mass_of N (vs_M s) y = 1 /\ dynamic_dot N h Fl X = 0 /\ X (n + 1)%nat = al + be * w ^ 2).
Proof.
  intros Ha H1 Hf N n w Hw SM SK PD PC Hres.
  destruct (epmc_rows s h Nt X Fl [] Ha H1) as (Rr & G & E & _). { rewrite Hf. constructor. }
  exists Rr, G. split; [exact E|]. split.
  - intros HR. exact (solutions_modes s h Nt X Fl al be Rr G Ha H1 Hf Hw SM SK PD PC Hres E HR).
  - intros (us & z & y & Hv & Hs & Mz & My & Hm & Hd & Hxi).
    assert (D : forall x i, linear_mode N (vs_K s) (vs_M s) w x -> (i < N)%nat -> matvec N (vs_C s) x i = X (n + 1)%nat * matvec N (vs_M s) x i).
    { intros x i Hx Hi. rewrite (damping_row N (vs_M s) (vs_C s) (vs_K s) al be PC x i Hi), Hxi. pose proof (Hx i Hi) as Q.
      change (matvec N (vs_K s) x i = w ^ 2 * matvec N (vs_M s) x i) in Q. rewrite Q. ring. }
    destruct (modes_residual s h Nt X Fl [] us z y Ha H1) as (Rr' & G' & E' & R1 & R2 & R3); try assumption.
    { rewrite Hf. constructor. }
    { intros i Hi. apply D; assumption. }
    { intros i Hi. apply D; assumption. }
    rewrite E in E'. inversion E'. subst Rr' G'. fold N n in R1, R2, R3. intros i Hi.
    assert (Hc : (i < n \/ i = n \/ i = n + 1)%nat) by lia. destruct Hc as [Q|[->| ->]].
    + rewrite R1 by exact Q. reflexivity.
    + rewrite R2. lra.
    + rewrite R3. exact Hd.
Qed.

(** a single mode shape leaves the phase as only freedom *)
Lemma single_mode N h (K M : mat) w us z y X phi : mass_of N M phi = 1 ->
  (forall x, linear_mode N K M w x -> exists a, forall i, (i < N)%nat -> x i = a * phi i) ->
  modal_vibration N h us z y X -> linear_mode N K M w z -> linear_mode N K M w y -> mass_of N M z + mass_of N M y = 1 ->
  exists p, forall j tau, (j < N)%nat -> series h (dof_coefs N X j) tau = us j + phi j * cos (tau - p).
Proof.
  intros H1 Hs [_ Hv] Mz My Hm. destruct (Hs z Mz) as [a Ea]. destruct (Hs y My) as [b Eb].
  assert (Q : forall x c, (forall i, (i < N)%nat -> x i = c * phi i) -> mass_of N M x = c ^ 2 * mass_of N M phi).
  { intros x c Ex. unfold mass_of. rewrite <- rsum_scal_l. apply rsum_ext. intros i Hi. rewrite Ex by exact Hi.
    rewrite (rsum_ext N (fun j => M i j * x j) (fun j => c * (M i j * phi j))) by (intros j Hj; rewrite Ex by exact Hj; ring). rewrite rsum_scal_l. ring. }
  rewrite (Q z a Ea), (Q y b Eb), H1 in Hm. destruct (polar a b 1) as (p & Pa & Pb); [lra|]. exists p. intros j tau Hj.
  rewrite Hv by exact Hj. rewrite Ea, Eb, Pa, Pb, cos_minus by exact Hj. ring.
Qed.

(** ---- a system with two degrees of freedom ---- *)
Definition case_M : mat := fun i j => if Nat.eqb i j then / 2 else 0.
Definition case_K : mat := fun i j => if Nat.eqb i j then 1 else - / 2.
Definition case_C : mat := fun i j => 1 / 10 * case_M i j + 1 / 5 * case_K i j.
Definition case_sys (fs : list nlforce) : vibsys := mkSys 2 case_M case_K case_C None fs.
(** harmonics 0, 1, 3: static (1, 1), cosine (1, 1), frequency 1, damping 3/10, any amplitude la *)
Definition case_X (la : R) : vec := fun i => nth i [1; 1; 1; 1; 0; 0; 0; 0; 0; 0; 1; 3 / 10; la] 0.
Definition case_Fl : vec := fun i => nth i [/ 2; / 2; 0; 0; 1; 0] 0.

Lemma case_vibration la : modal_vibration 2 [0; 1; 3]%nat (fun _ => 1) (fun _ => 1) vzero (case_X la).
Proof.
  apply modal_coefs; [apply admissible_013|exists [3%nat]; right; reflexivity|]. split; [intros H; exfalso; apply H; left; reflexivity|].
  intros j c Hj Hc. cbn in Hc. assert (Hcs : (j = 0 \/ j = 1)%nat) by lia. destruct Hcs as [->| ->];
    (destruct c as [|[|[|[|[|c]]]]]; [| | | | |lia]); reflexivity.
Qed.
Lemma case_static : static_equilibrium 2 [0; 1; 3]%nat case_K case_Fl (fun _ => 1).
Proof. intros i Hi. assert (H : (i = 0 \/ i = 1)%nat) by lia. destruct H as [->| ->]; cbn; lra. Qed.
Lemma case_mode : linear_mode 2 case_K case_M 1 (fun _ => 1).
Proof. intros i Hi. assert (H : (i = 0 \/ i = 1)%nat) by lia. destruct H as [->| ->]; cbn; lra. Qed.
Lemma case_zero : linear_mode 2 case_K case_M 1 vzero.
Proof. intros i Hi. unfold vzero. cbn. ring. Qed.
Lemma case_mass : mass_of 2 case_M (fun _ => 1) = 1. Proof. cbn. lra. Qed.
Lemma case_dyn la : dynamic_dot 2 [0; 1; 3]%nat case_Fl (case_X la) = 0. Proof. cbn. ring. Qed.
Lemma case_symmetric A : A = case_M \/ A = case_K -> symmetric_matrix 2 A.
Proof. intros [->| ->] i j _ _; unfold case_M, case_K; rewrite (Nat.eqb_sym i j); reflexivity. Qed.
Lemma case_definite : positive_definite 2 case_M.
Proof.
  intros x (i & Hi & E). unfold mass_of. cbn. assert (H : (i = 0 \/ i = 1)%nat) by lia.
  assert (Q : 0 < x O * x O + x 1%nat * x 1%nat) by (pose proof (Rle_0_sqr (x O)) as S0; pose proof (Rle_0_sqr (x 1%nat)) as S1; destruct H as [->| ->]; pose proof (Rlt_0_sqr _ E) as S2; unfold Rsqr in *; lra). nra.
Qed.
(** the modes at frequency 1 are the multiples of (1, 1) *)
Lemma case_single x : linear_mode 2 case_K case_M 1 x -> exists a, forall i, (i < 2)%nat -> x i = a * 1.
Proof.
  intros H. exists (x O). pose proof (H O ltac:(lia)) as Q. cbn in Q. intros i Hi. assert (Hc : (i = 0 \/ i = 1)%nat) by lia. destruct Hc as [->| ->]; lra.
Qed.

Lemma linear_case la Nt : exists Rr G, epmc_res (case_sys []) (case_X la) case_Fl [0; 1; 3]%nat Nt true = Ok (Rr, Some G) /\ forall i, (i < 12)%nat -> Rr i = 0.
Proof.
  destruct (modes_iff (case_sys []) [0; 1; 3]%nat Nt (case_X la) case_Fl (1 / 10) (1 / 5) admissible_013) as (Rr & G & E & Q).
  - exists [3%nat]. right. reflexivity.
  - reflexivity.
  - cbn. lra.
  - apply case_symmetric. left. reflexivity.
  - apply case_symmetric. right. reflexivity.
  - exact case_definite.
  - intros i j _ _. reflexivity.
  - left. lra.
  - exists Rr, G. split; [exact E|]. apply (proj2 Q). exists (fun _ => 1), (fun _ => 1), vzero. split; [apply case_vibration|]. split; [exact case_static|].
    split; [exact case_mode|]. split; [exact case_zero|]. split; [unfold mass_of, vzero; cbn; lra|]. split; [apply case_dyn|]. cbn. lra.
Qed.
Lemma nonlinear_case la Nt f F dU dw : nl_aft f (take 10 (amplitude_scaled 2 [0; 1; 3]%nat (case_X la) la)) 1 [0; 1; 3]%nat Nt = Ok (F, dU, dw) ->
  exists Rr G, epmc_res (case_sys [f]) (case_X la) case_Fl [0; 1; 3]%nat Nt true = Ok (Rr, Some G) /\ (forall i, (i < 10)%nat -> Rr i = F i) /\ Rr 10%nat = 0 /\ Rr 11%nat = 0.
Proof.
  intros Hf. destruct (modes_residual (case_sys [f]) [0; 1; 3]%nat Nt (case_X la) case_Fl [(F, dU, dw)] (fun _ => 1) (fun _ => 1) vzero admissible_013) as (Rr & G & E & R1 & R2 & R3).
  - exists [3%nat]. right. reflexivity.
  - cbn [case_sys vs_forces]. constructor; [exact Hf|constructor].
  - apply case_vibration.
  - exact case_static.
  - exact case_mode.
  - exact case_zero.
  - intros i Hi. assert (H : (i = 0 \/ i = 1)%nat) by (cbn in Hi; lia). destruct H as [->| ->]; cbn; unfold case_C, case_M, case_K; cbn; lra.
  - intros i Hi. unfold vzero. cbn. ring.
  - exists Rr, G. split; [exact E|]. split; [|split].
    + intros i Hi. rewrite R1 by (cbn; lia). unfold total_coefs, lsum. cbn. ring.
    + cbn [case_sys vs_N vs_M components flat_map app length Nat.mul Nat.add] in R2. rewrite R2. unfold mass_of, vzero. cbn. lra.
    + cbn [case_sys vs_N vs_M components flat_map app length Nat.mul Nat.add] in R3. rewrite R3. apply case_dyn.
Qed.
