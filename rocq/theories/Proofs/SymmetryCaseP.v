(** A Jenkins element whose first pass ends without force on a symmetric motion, and an example of a symmetric system. *)
From Coq Require Import Reals ZArith Lra Lia Arith List FunctionalExtensionality.
From Verif.Lib Require Import RSum Py.
From Verif.Spec Require Import Harmonic Elements Slider Galerkin Rotation Symmetry.
From Verif.Model Require Import Harmonic Aft VibSys SysElements Jenkins SysHistory SysHarmonic.
From Verif.Proofs Require Import HystAftP HarmonicP SliderShiftP RotationP RotationCaseP SymmetryP.
Import ListNotations.
Open Scope R_scope.

Definition oct_h1 : list nat := [1; 3]%nat.
Definition oct_h2 : list nat := [0; 1; 3]%nat.
(** u = -3/2 cos(tau) + (1 + sqrt 2 / 2) sin(tau) - 1/2 cos(3 tau) - sqrt 2 / 2 sin(3 tau) *)
Definition oct_X : vec := fun r => match r with O => - (3/2) | 1%nat => 1 + sqrt 2 / 2 | 2%nat => - (1/2) | 3%nat => - (sqrt 2 / 2) | _ => 0 end.
Definition oct_Y : vec := fun r => match r with O => 0 | S r => oct_X r end.

Lemma oct_ok : admissible oct_h1 /\ admissible oct_h2 /\ odd_part oct_h1 oct_h2 /\ (2 * list_max oct_h2 + 1 < 8)%nat /\ Nat.even 8 = true.
Proof.
  assert (A : forall l : list nat, l = oct_h1 \/ l = oct_h2 -> admissible l) by (intros l [->| ->]; repeat split; try discriminate; repeat constructor; cbn; intuition discriminate).
  split; [apply A; auto|]. split; [apply A; auto|]. split; [|split; [cbn; lia|reflexivity]].
  split; [|split]; cbn; [intros k [<-|[<-|[]]]; reflexivity|intros k [<-|[<-|[<-|[]]]]; cbn; intuition discriminate|intros k [<-|[<-|[]]]; auto].
Qed.

Lemma oct_same : same_motion 1 oct_h1 oct_X oct_h2 oct_Y.
Proof. intros d t Hd. assert (d = O) by lia. subst. unfold series, oct_h1, oct_h2, components, dof_coefs, basis, oct_Y. cbn. ring. Qed.

Lemma r2 : sqrt 2 * sqrt 2 = 2.
Proof. apply sqrt_sqrt. lra. Qed.
Lemma r2_bounds : 14/10 < sqrt 2 < 15/10.
Proof. pose proof (sqrt_pos 2). pose proof r2. split; nra. Qed.
Lemma r2_inv : 1 / sqrt 2 = sqrt 2 / 2.
Proof. pose proof r2_bounds. pose proof r2. apply Rmult_eq_reg_r with (sqrt 2); [|lra]. field_simplify; [lra|lra]. Qed.

Lemma oct_motion t : local_motion 1 one oct_h2 oct_Y 0 t = - (3/2) * cos t + (1 + sqrt 2 / 2) * sin t - 1/2 * cos (3 * t) - sqrt 2 / 2 * sin (3 * t).
Proof.
  unfold local_motion, series, oct_h2, components, dof_coefs, basis, oct_Y, oct_X, one. cbn. rewrite !Rmult_1_l. replace ((1 + 1 + 1) * t) with (3 * t) by ring. field.
Qed.

Definition oct_l : list R := [- (2); 0; 1 + sqrt 2; sqrt 2; 2; 0; - (1 + sqrt 2); - sqrt 2].

Lemma oct_values n : (n < 8)%nat -> local_motion 1 one oct_h2 oct_Y 0 (sample_phase 8 n) = nth n oct_l 0.
Proof.
  assert (L : forall n, (n < 4)%nat -> local_motion 1 one oct_h2 oct_Y 0 (sample_phase 8 n) = nth n oct_l 0).
  { intros m Hm. rewrite oct_motion. pose proof r2. destruct m as [|[|[|[|m]]]]; [| | | |lia]; cbn [nth oct_l].
    - replace (sample_phase 8 0) with 0 by (unfold sample_phase; simpl; field). rewrite Rmult_0_r, cos_0, sin_0. field.
    - replace (sample_phase 8 1) with (PI / 4) by (unfold sample_phase; simpl; field). rewrite cos_3PI4, sin_3PI4, cos_PI4, sin_PI4. replace (-1 / sqrt 2) with (- (1 / sqrt 2)) by (pose proof r2_bounds; field; lra). rewrite r2_inv. field_simplify; nra.
    - replace (sample_phase 8 2) with (PI / 2) by (unfold sample_phase; simpl; field). replace (3 * (PI / 2)) with (PI / 2 + PI) by field. rewrite neg_cos, neg_sin, cos_PI2, sin_PI2. field.
    - replace (sample_phase 8 3) with (3 * (PI / 4)) by (unfold sample_phase; simpl; field). replace (3 * (3 * (PI / 4))) with (PI / 4 + 2 * PI) by field.
      rewrite cos_plus, sin_plus, cos_2PI, sin_2PI, cos_3PI4, sin_3PI4, cos_PI4, sin_PI4. replace (-1 / sqrt 2) with (- (1 / sqrt 2)) by (pose proof r2_bounds; field; lra). rewrite r2_inv. nra. }
  intros Hn. destruct (le_lt_dec 4 n) as [G|G]; [|apply L; exact G]. replace n with (4 + (n - 4))%nat at 1 by lia.
  destruct oct_ok as (Ha1 & Ha2 & Ho & HN & He). destruct (half_sample 8 ltac:(lia) He) as [EP _].
  pose proof (at_half 1 8 oct_h1 oct_h2 oct_X oct_Y Ho HN He oct_same one (n - 4)) as A. unfold at_samples in A. change (8 / 2)%nat with 4%nat in A. rewrite A, L by lia.
  destruct n as [|[|[|[|[|[|[|[|n]]]]]]]]; try lia; cbn; ring.
Qed.

Definition oct_u (k : nat) : R := nth (k mod 8) oct_l 0.

Lemma oct_repeat : repeat_samples 8 (fun n => local_motion 1 one oct_h2 oct_Y 0 (sample_phase 8 n)) = oct_u.
Proof. apply functional_extensionality. intros k. apply oct_values. apply Nat.mod_upper_bound. lia. Qed.

Ltac octstep := unfold oct_u, oct_l; cbn [Nat.modulo Nat.divmod snd Nat.sub fst nth]; pose proof r2_bounds; unfold Slider.clamp; clamps.

Lemma oct_law : map (jenkins_law 1 1 oct_u 0) (seq 0 8) = [- (1); 1; 1; 0; 2 - sqrt 2; - (1); - (1); 0].
Proof.
  assert (E0 : jenkins_law 1 1 oct_u 0 0 = - (1)) by (apply law_first; octstep). assert (E1 := law_next 1 1 oct_u 0 0 _ 1 E0 ltac:(octstep)).
  assert (E2 := law_next 1 1 oct_u 0 1 _ 1 E1 ltac:(octstep)). assert (E3 := law_next 1 1 oct_u 0 2 _ 0 E2 ltac:(octstep)).
  assert (E4 := law_next 1 1 oct_u 0 3 _ (2 - sqrt 2) E3 ltac:(octstep)). assert (E5 := law_next 1 1 oct_u 0 4 _ (- (1)) E4 ltac:(octstep)).
  assert (E6 := law_next 1 1 oct_u 0 5 _ (- (1)) E5 ltac:(octstep)). assert (E7 := law_next 1 1 oct_u 0 6 _ 0 E6 ltac:(octstep)).
  cbn [map seq]. rewrite E0, E1, E2, E3, E4, E5, E6, E7. reflexivity.
Qed.

Lemma tol_pos : 0 < default_tol.
Proof. unfold default_tol. apply Rinv_0_lt_compat. lra. Qed.

Lemma early_stop_symmetric : exists N Nt h1 h2 X Y Q T s w e1 F e2 G, admissible h1 /\ admissible h2 /\ odd_part h1 h2 /\ (2 * list_max h2 + 1 < Nt)%nat /\ Nat.even Nt = true /\
  0 < j_kt s /\ 0 < j_Fs s /\ same_motion N h1 X h2 Y /\
  element_aft N (ElJenkins Q T s) X w h1 Nt = Ok (e1, Some F) /\ element_aft N (ElJenkins Q T s) Y w h2 Nt = Ok (e2, Some G) /\ In O h2 /\ (0 < N)%nat /\ G O <> 0 /\ ~ same_motion N h1 F h2 G.
Proof.
  destruct oct_ok as (Ha1 & Ha2 & Ho & HN & He).
  destruct (jenkins_aft_exact hex_s 1 one one oct_h1 8 Ha1 ltac:(cbn; lia) He ltac:(cbn; lra)) as (st & F & dU & E & _ & _).
  assert (S0 : local_first_coef 1 one oct_Y = 0) by (unfold local_first_coef, oct_Y, one; cbn; ring).
  pose proof oct_law as L. cbn [map seq] in L. injection L as L0 L1 L2 L3 L4 L5 L6 L7.
  destruct (jenkins_aft_early hex_s 1 one one oct_h2 8 Ha2 HN He ltac:(cbn; lra) oct_Y) as (st' & G & dU' & E' & HG).
  - rewrite oct_repeat, S0. cbn [j_kt j_Fs hex_s j_new Nat.sub]. rewrite L7, Rabs_R0. left. exact tol_pos.
  - assert (G0 : G O <> 0).
    { pose proof (HG 0%nat 0%nat ltac:(cbn; lia) ltac:(lia)) as G0. cbn [Nat.mul Nat.add] in G0. rewrite G0, oct_repeat, S0. cbn [j_kt j_Fs hex_s j_new].
      unfold one, fourier_coef. cbn [components oct_h2 flat_map app nth comp_fun rsum INR Nat.add]. rewrite !Rmult_0_l, cos_0, L0, L1, L2, L3, L4, L5, L6, L7. pose proof r2_bounds. lra. }
    exists 1%nat, 8%nat, oct_h1, oct_h2, oct_X, oct_Y, one, one, hex_s, 1, (ElJenkins one one (st oct_X)), (F oct_X), (ElJenkins one one st'), G.
    split; [exact Ha1|]. split; [exact Ha2|]. split; [exact Ho|]. split; [exact HN|]. split; [exact He|]. split; [cbn; lra|]. split; [cbn; lra|]. split; [exact oct_same|].
    cbn [element_aft]. rewrite E, E'. cbn [bind fst]. split; [reflexivity|]. split; [reflexivity|]. split; [left; reflexivity|]. split; [lia|]. split; [exact G0|].
    intros HS. apply G0. apply (mean_zero 1 8 oct_h1 oct_h2 (F oct_X) G Ha2 Ho HN He HS ltac:(left; reflexivity) 0 ltac:(lia)).
Qed.

(** * A Jenkins element and a cubic spring on u = 2 cos(tau) *)
Definition sym_h1 : list nat := [1]%nat.
Definition sym_h2 : list nat := [0; 1; 2]%nat.
Definition sym_X : vec := fun r => match r with O => 2 | 2%nat => 1 | _ => 0 end.
Definition sym_Y : vec := fun r => match r with 1%nat => 2 | 5%nat => 1 | _ => 0 end.
Definition sym_l : list R := [2; 1; - (1); - (2); - (1); 1].
Definition sym_u (k : nat) : R := nth (k mod 6) sym_l 0.

Lemma sym_ok : admissible sym_h1 /\ admissible sym_h2 /\ odd_part sym_h1 sym_h2 /\ (2 * list_max sym_h2 + 1 < 6)%nat /\ Nat.even 6 = true.
Proof.
  assert (A : forall l : list nat, l = sym_h1 \/ l = sym_h2 -> admissible l) by (intros l [->| ->]; repeat split; try discriminate; repeat constructor; cbn; intuition discriminate).
  split; [apply A; auto|]. split; [apply A; auto|]. split; [|split; [cbn; lia|reflexivity]].
  split; [|split]; cbn; [intros k [<-|[]]; reflexivity|intros k [<-|[<-|[<-|[]]]]; cbn; intuition discriminate|intros k [<-|[]]; auto].
Qed.

Lemma sym_same : same_motion 1 sym_h1 sym_X sym_h2 sym_Y.
Proof. intros d t Hd. assert (d = O) by lia. subst. unfold series, sym_h1, sym_h2, components, dof_coefs, basis, sym_X, sym_Y. cbn. ring. Qed.

Lemma sym_values h U : (forall t, local_motion 1 one h U 0 t = 2 * cos t) -> repeat_samples 6 (fun n => local_motion 1 one h U 0 (sample_phase 6 n)) = sym_u.
Proof.
  intros E. apply functional_extensionality. intros k. unfold repeat_samples, sym_u. rewrite E. assert (Hn : (k mod 6 < 6)%nat) by (apply Nat.mod_upper_bound; lia). revert Hn. generalize (k mod 6)%nat. intros n Hn.
  destruct n as [|[|[|[|[|[|n]]]]]]; [| | | | | |lia]; cbn [nth sym_l].
  - replace (sample_phase 6 0) with 0 by (unfold sample_phase; simpl; field). rewrite cos_0. ring.
  - replace (sample_phase 6 1) with (PI / 3) by (unfold sample_phase; simpl; field). rewrite cos_PI3. field.
  - replace (sample_phase 6 2) with (PI - PI / 3) by (unfold sample_phase; simpl; field). rewrite Rtrigo_facts.cos_pi_minus, cos_PI3. field.
  - replace (sample_phase 6 3) with PI by (unfold sample_phase; simpl; field). rewrite cos_PI. field.
  - replace (sample_phase 6 4) with (PI / 3 + PI) by (unfold sample_phase; simpl; field). rewrite neg_cos, cos_PI3. field.
  - replace (sample_phase 6 5) with (- (PI / 3) + 2 * INR 1 * PI) by (unfold sample_phase; simpl; field). rewrite cos_period, cos_neg, cos_PI3. field.
Qed.

Ltac symstep := unfold sym_u, sym_l; cbn [Nat.modulo Nat.divmod snd Nat.sub fst nth]; unfold Slider.clamp; clamps.

Lemma sym_law u0 f0 f1 : Slider.clamp (- (1)) 1 (1 * (2 - u0)) = f0 -> Slider.clamp (- (1)) 1 (f0 + 1 * (1 - 2)) = f1 -> f1 <= 1 -> jenkins_law 1 1 sym_u u0 5 = 1.
Proof.
  intros H0 H1 Hf. assert (E0 : jenkins_law 1 1 sym_u u0 0 = f0) by (apply law_first; exact H0). assert (E1 : jenkins_law 1 1 sym_u u0 1 = f1) by (apply (law_next 1 1 sym_u u0 0 _ f1 E0); exact H1).
  assert (E2 := law_next 1 1 sym_u u0 1 _ (- (1)) E1 ltac:(symstep)). assert (E3 := law_next 1 1 sym_u u0 2 _ (- (1)) E2 ltac:(symstep)).
  assert (E4 := law_next 1 1 sym_u u0 3 _ 0 E3 ltac:(symstep)). exact (law_next 1 1 sym_u u0 4 _ 1 E4 ltac:(symstep)).
Qed.

Lemma symmetric_case : let els := [ElJenkins one one (j_new 1 1); ElInstant (cubic_nl 1 1 one one (fun _ => 2))] in
  admissible sym_h1 /\ admissible sym_h2 /\ odd_part sym_h1 sym_h2 /\ (2 * list_max sym_h2 + 1 < 6)%nat /\ Nat.even 6 = true /\
  sym_X 2%nat = 1 /\ sym_Y 5%nat = 1 /\ same_motion 1 sym_h1 sym_X sym_h2 sym_Y /\
  forall e, In e els -> symmetric_element 1 6 e /\ steady_evaluation 1 sym_h1 6 e (take 2 sym_X) /\ steady_evaluation 1 sym_h2 6 e (take 5 sym_Y).
Proof.
  intros els. destruct sym_ok as (Ha1 & Ha2 & Ho & HN & He). split; [exact Ha1|]. split; [exact Ha2|]. split; [exact Ho|]. split; [exact HN|]. split; [exact He|].
  split; [reflexivity|]. split; [reflexivity|]. split; [exact sym_same|]. intros e [<-|[<-|[]]].
  - split; [exact I|]. pose proof tol_small as TS. split; (split; [cbn; lra|]); cbv zeta; rewrite (sym_values _ _).
    + replace (local_first_coef 1 one (take 2 sym_X)) with 2 by (unfold local_first_coef, one, sym_X, take; cbn; ring). cbn [j_kt j_Fs j_new Nat.sub].
      rewrite (sym_law 2 0 (- (1))); [rewrite Rabs_R1; lra| | |lra]; unfold Slider.clamp; clamps.
    + intros t. unfold local_motion, series, sym_h1, components, dof_coefs, basis, sym_X, one, take. cbn. rewrite !Rmult_1_l. ring.
    + replace (local_first_coef 1 one (take 5 sym_Y)) with 0 by (unfold local_first_coef, one, sym_Y, take; cbn; ring). cbn [j_kt j_Fs j_new Nat.sub].
      rewrite (sym_law 0 1 0); [rewrite Rabs_R1; lra| | |lra]; unfold Slider.clamp; clamps.
    + intros t. unfold local_motion, series, sym_h2, components, dof_coefs, basis, sym_Y, one, take. cbn. rewrite !Rmult_1_l. ring.
  - destruct (symmetric_elements 1 1 one one 6) as (C & _). split; [exact (C (fun _ => 2))|].
    destruct (sampled_elements 1 1 one one sym_h1 6 Ha1 ltac:(cbn; lia) He) as (C1 & _). destruct (sampled_elements 1 1 one one sym_h2 6 Ha2 HN He) as (C2 & _).
    split; [exact (C1 (fun _ => 2) (take 2 sym_X))|exact (C2 (fun _ => 2) (take 5 sym_Y))].
Qed.
