(** A Jenkins element whose first pass ends without force, and an example of a rotated solution. *)
From Coq Require Import Reals ZArith Lra Lia Arith List FunctionalExtensionality.
From Verif.Lib Require Import RSum Py.
From Verif.Spec Require Import Harmonic Elements Slider Galerkin Rotation.
From Verif.Model Require Import Harmonic Aft VibSys SysElements Jenkins SysHistory SysHarmonic.
From Verif.Proofs Require Import HystAftP HarmonicP SliderShiftP RotationP.
Import ListNotations.
Open Scope R_scope.

Definition hex_h : list nat := [0; 1; 2]%nat.
(** u = -5/4 cos(tau) - 1/4 cos(2 tau) *)
Definition hex_U : vec := fun r => match r with 1%nat => - (5/4) | 3%nat => - (1/4) | _ => 0 end.
Definition hex_V : vec := rotate_subtract_phase hex_U 1 hex_h (- sample_phase 6 2) 1.
Definition one : mat := fun _ _ => 1.
Definition hex_s := j_new 1 1.

Lemma hex_ok : admissible hex_h /\ (2 * list_max hex_h + 1 < 6)%nat /\ Nat.even 6 = true.
Proof. repeat split; [discriminate|repeat constructor; cbn; intuition discriminate|cbn; intuition discriminate|cbn; lia]. Qed.

Lemma hex_delayed : delayed 1 hex_h (- sample_phase 6 2) hex_U hex_V.
Proof. replace (- sample_phase 6 2) with (- sample_phase 6 2 / INR 1) by (cbn [INR]; field). apply rotated. apply hex_ok. Qed.

Lemma hex_cos k : cos (INR k * sample_phase 6 1) = cos (INR k * (PI / 3)).
Proof. f_equal. unfold sample_phase. cbn [INR]. field. Qed.

Lemma hex_values n : (n < 6)%nat -> local_motion 1 one hex_h hex_U 0 (sample_phase 6 n) = nth n [- (3/2); - (1/2); 3/4; 1; 3/4; - (1/2)] 0.
Proof.
  intros Hn. assert (E : forall t, local_motion 1 one hex_h hex_U 0 t = - (5/4) * cos t - 1/4 * cos (2 * t)).
  { intros t. unfold local_motion, series, hex_h, components, dof_coefs, basis, hex_U, one. cbn. ring_simplify (0 + 1). rewrite ?Rmult_1_l. replace ((1 + 1) * t) with (2 * t) by ring. ring. }
  rewrite E. rewrite cos_2a_cos.
  assert (C : cos (sample_phase 6 n) = nth n [1; 1/2; - (1/2); - (1); - (1/2); 1/2] 0).
  { destruct n as [|[|[|[|[|[|n]]]]]]; [| | | | | |lia]; cbn [nth].
    - replace (sample_phase 6 0) with 0 by (unfold sample_phase; simpl; field). apply cos_0.
    - replace (sample_phase 6 1) with (PI / 3) by (unfold sample_phase; simpl; field). apply cos_PI3.
    - replace (sample_phase 6 2) with (PI - PI / 3) by (unfold sample_phase; simpl; field). rewrite Rtrigo_facts.cos_pi_minus, cos_PI3. reflexivity.
    - replace (sample_phase 6 3) with PI by (unfold sample_phase; simpl; field). apply cos_PI.
    - replace (sample_phase 6 4) with (PI / 3 + PI) by (unfold sample_phase; simpl; field). rewrite neg_cos, cos_PI3. reflexivity.
    - replace (sample_phase 6 5) with (- (PI / 3) + 2 * INR 1 * PI) by (unfold sample_phase; simpl; field). rewrite cos_period, cos_neg, cos_PI3. reflexivity. }
  rewrite C. destruct n as [|[|[|[|[|[|n]]]]]]; [| | | | | |lia]; cbn [nth]; field.
Qed.

Definition hex_u (k : nat) : R := nth (k mod 6) [- (3/2); - (1/2); 3/4; 1; 3/4; - (1/2)] 0.

Lemma hex_at k : at_samples 1 hex_h 6 hex_U one 0 k = hex_u k.
Proof.
  unfold hex_u. rewrite <- (hex_values (k mod 6)) by (apply Nat.mod_upper_bound; lia). unfold at_samples, local_motion. apply rsum_ext. intros j _. f_equal. symmetry.
  apply series_mod. apply hex_ok.
Qed.

Lemma law_next kt Fs u u0 k f v : jenkins_law kt Fs u u0 k = f -> clamp (- Fs) Fs (f + kt * (u (S k) - u k)) = v -> jenkins_law kt Fs u u0 (S k) = v.
Proof. intros E <-. unfold jenkins_law in *. cbn [slider]. rewrite E. reflexivity. Qed.
Lemma law_first kt Fs u u0 v : clamp (- Fs) Fs (kt * (u O - u0)) = v -> jenkins_law kt Fs u u0 O = v.
Proof. intros <-. reflexivity. Qed.

Ltac hexstep := cbn [Nat.add]; unfold hex_u; cbn [Nat.modulo Nat.divmod snd Nat.sub fst nth]; clamps.

Section Hex.
  Variables (K : nat) (V : vec).
  Hypothesis HV : delayed 1 hex_h (- sample_phase 6 K) hex_U V.

  Lemma hex_zero : - sample_phase 6 K = - sample_phase 6 K + 2 * PI * IZR 0.
  Proof. ring. Qed.

  Lemma hex_repeat : repeat_samples 6 (fun n => local_motion 1 one hex_h V 0 (sample_phase 6 n)) = fun k => hex_u (K + k).
  Proof.
    destruct hex_ok as (Ha & HN & _). rewrite (repeat_V 1 hex_h 6 (- sample_phase 6 K) K 0 HN hex_zero hex_U V HV one 0). apply functional_extensionality. intros k. apply hex_at.
  Qed.

  Lemma hex_start : local_first_coef 1 one V = 0.
  Proof.
    destruct hex_ok as (Ha & HN & _). unfold local_first_coef. cbn [rsum]. rewrite (same_mean 1 hex_h 6 (- sample_phase 6 K) K 0 Ha HN hex_zero hex_U V HV ltac:(left; reflexivity) 0 ltac:(lia)). unfold hex_U, one. ring.
  Qed.
End Hex.

Lemma hex_self : delayed 1 hex_h (- sample_phase 6 0) hex_U hex_U.
Proof. intros d t _. f_equal. unfold sample_phase. cbn [INR]. field. Qed.

Definition hex_law (K : nat) : nat -> R := jenkins_law 1 1 (fun k => hex_u (K + k)) 0.

Lemma hex_law_0 : map (hex_law 0) (seq 0 12) = [- (1); 0; 1; 1; 3/4; - (1/2); - (1); 0; 1; 1; 3/4; - (1/2)].
Proof.
  assert (E0 : hex_law 0 0 = - (1)) by (apply law_first; hexstep). assert (E1 := law_next 1 1 (fun k => hex_u (0 + k)) 0 0 _ 0 E0 ltac:(hexstep)).
  assert (E2 := law_next 1 1 (fun k => hex_u (0 + k)) 0 1 _ 1 E1 ltac:(hexstep)). assert (E3 := law_next 1 1 (fun k => hex_u (0 + k)) 0 2 _ 1 E2 ltac:(hexstep)).
  assert (E4 := law_next 1 1 (fun k => hex_u (0 + k)) 0 3 _ (3/4) E3 ltac:(hexstep)). assert (E5 := law_next 1 1 (fun k => hex_u (0 + k)) 0 4 _ (- (1/2)) E4 ltac:(hexstep)).
  assert (E6 := law_next 1 1 (fun k => hex_u (0 + k)) 0 5 _ (- (1)) E5 ltac:(hexstep)). assert (E7 := law_next 1 1 (fun k => hex_u (0 + k)) 0 6 _ 0 E6 ltac:(hexstep)).
  assert (E8 := law_next 1 1 (fun k => hex_u (0 + k)) 0 7 _ 1 E7 ltac:(hexstep)). assert (E9 := law_next 1 1 (fun k => hex_u (0 + k)) 0 8 _ 1 E8 ltac:(hexstep)).
  assert (E10 := law_next 1 1 (fun k => hex_u (0 + k)) 0 9 _ (3/4) E9 ltac:(hexstep)). assert (E11 := law_next 1 1 (fun k => hex_u (0 + k)) 0 10 _ (- (1/2)) E10 ltac:(hexstep)).
  cbn [map seq]. unfold hex_law in *. rewrite E0, E1, E2, E3, E4, E5, E6, E7, E8, E9, E10, E11. reflexivity.
Qed.

Lemma hex_law_2 : map (hex_law 2) (seq 0 6) = [3/4; 1; 3/4; - (1/2); - (1); 0].
Proof.
  assert (E0 : hex_law 2 0 = 3/4) by (apply law_first; hexstep). assert (E1 := law_next 1 1 (fun k => hex_u (2 + k)) 0 0 _ 1 E0 ltac:(hexstep)).
  assert (E2 := law_next 1 1 (fun k => hex_u (2 + k)) 0 1 _ (3/4) E1 ltac:(hexstep)). assert (E3 := law_next 1 1 (fun k => hex_u (2 + k)) 0 2 _ (- (1/2)) E2 ltac:(hexstep)).
  assert (E4 := law_next 1 1 (fun k => hex_u (2 + k)) 0 3 _ (- (1)) E3 ltac:(hexstep)). assert (E5 := law_next 1 1 (fun k => hex_u (2 + k)) 0 4 _ 0 E4 ltac:(hexstep)).
  cbn [map seq]. unfold hex_law in *. rewrite E0, E1, E2, E3, E4, E5. reflexivity.
Qed.

Lemma hex_law_3 : hex_law 3 5 = 1.
Proof.
  assert (E0 : hex_law 3 0 = 1) by (apply law_first; hexstep). assert (E1 := law_next 1 1 (fun k => hex_u (3 + k)) 0 0 _ (3/4) E0 ltac:(hexstep)).
  assert (E2 := law_next 1 1 (fun k => hex_u (3 + k)) 0 1 _ (- (1/2)) E1 ltac:(hexstep)). assert (E3 := law_next 1 1 (fun k => hex_u (3 + k)) 0 2 _ (- (1)) E2 ltac:(hexstep)).
  assert (E4 := law_next 1 1 (fun k => hex_u (3 + k)) 0 3 _ 0 E3 ltac:(hexstep)). exact (law_next 1 1 (fun k => hex_u (3 + k)) 0 4 _ 1 E4 ltac:(hexstep)).
Qed.

Lemma tol_small : default_tol < 1/2.
Proof. unfold default_tol. apply Rmult_lt_reg_l with (10 ^ 7); [lra|]. field_simplify; lra. Qed.

Lemma early_stop_delay : exists N h Nt p Q T s w U V e1 F e2 G, admissible h /\ (2 * list_max h + 1 < Nt)%nat /\ Nat.even Nt = true /\ 0 < j_kt s /\ 0 < j_Fs s /\ whole_samples Nt p /\ delayed N h p U V /\
  element_aft N (ElJenkins Q T s) U w h Nt = Ok (e1, Some F) /\ element_aft N (ElJenkins Q T s) V w h Nt = Ok (e2, Some G) /\ ~ delayed N h p F G.
Proof.
  destruct hex_ok as (Ha & HN & He).
  destruct (jenkins_aft_exact hex_s 1 one one hex_h 6 Ha HN He ltac:(cbn; lra)) as (st & F & dU & E & HF & _).
  destruct (jenkins_aft_early hex_s 1 one one hex_h 6 Ha HN He ltac:(cbn; lra) hex_V) as (st' & G & dU' & E' & HG).
  - rewrite (hex_repeat 2 hex_V hex_delayed), (hex_start 2 hex_V hex_delayed). cbn [j_kt j_Fs hex_s j_new].
    change (Rabs (hex_law 2 5) <= default_tol). pose proof hex_law_2 as L. cbn [map seq] in L. injection L as L0 L1 L2 L3 L4 L5. rewrite L5, Rabs_R0. unfold default_tol. left. apply Rinv_0_lt_compat. lra.
  - exists 1%nat, hex_h, 6%nat, (- sample_phase 6 2), one, one, hex_s, 1, hex_U, hex_V, (ElJenkins one one (st hex_U)), (F hex_U), (ElJenkins one one st'), G.
    split; [exact Ha|]. split; [exact HN|]. split; [exact He|]. split; [cbn; lra|]. split; [cbn; lra|]. split; [exists (-2)%Z; unfold sample_phase; cbn [INR]; field|].
    split; [exact hex_delayed|]. cbn [element_aft]. rewrite E, E'. cbn [bind fst]. split; [reflexivity|]. split; [reflexivity|]. intros HD.
    pose proof (same_mean 1 hex_h 6 (- sample_phase 6 2) 2 0 Ha HN ltac:(ring) (F hex_U) G HD ltac:(left; reflexivity) 0 ltac:(lia)) as M.
    pose proof (HG 0%nat 0%nat ltac:(cbn; lia) ltac:(lia)) as G0. cbn [Nat.mul Nat.add] in G0. rewrite G0 in M. clear G0.
    rewrite (hex_repeat 2 hex_V hex_delayed), (hex_start 2 hex_V hex_delayed) in M. cbn [j_kt j_Fs hex_s j_new] in M.
    pose proof (HF hex_U) as F0. cbv zeta in F0. rewrite (hex_repeat 0 hex_U hex_self), (hex_start 0 hex_U hex_self) in F0. cbn [j_kt j_Fs hex_s j_new] in F0.
    change (jenkins_law 1 1 (fun k => hex_u (0 + k)) 0) with (hex_law 0) in F0. change (jenkins_law 1 1 (fun k => hex_u (2 + k)) 0) with (hex_law 2) in M.
    pose proof hex_law_0 as L. cbn [map seq] in L. injection L as L0 L1 L2 L3 L4 L5 L6 L7 L8 L9 L10 L11.
    pose proof hex_law_2 as P. cbn [map seq] in P. injection P as P0 P1 P2 P3 P4 P5.
    specialize (F0 ltac:(cbn [Nat.sub]; rewrite L5, Rabs_Ropp, Rabs_right by lra; exact tol_small) 0%nat 0%nat ltac:(cbn; lia) ltac:(lia)). cbn [Nat.mul Nat.add] in F0. rewrite F0 in M.
    unfold one, fourier_coef in M. cbn [components hex_h flat_map app nth comp_fun rsum INR Nat.add] in M. rewrite !Rmult_0_l, cos_0 in M.
    rewrite L6, L7, L8, L9, L10, L11, P0, P1, P2, P3, P4, P5 in M. lra.
Qed.

(** the same motion rotated by half a period *)
Definition hex_X : vec := fun r => if Nat.eqb r 5 then 1 else hex_U r.

Lemma rotation_case : let els := [ElJenkins one one (j_new 1 1); ElInstant (cubic_nl 1 1 one one (fun _ => 2))] in
  let phase := - sample_phase 6 3 in let Y := rotate_subtract_phase hex_X 1 hex_h phase 1 in
  admissible hex_h /\ (2 * list_max hex_h + 1 < 6)%nat /\ Nat.even 6 = true /\ length (components hex_h) = 5%nat /\ hex_X 5%nat = 1 /\ whole_samples 6 (phase / INR 1) /\
  forall e, In e els -> steady_evaluation 1 hex_h 6 e (take 5 hex_X) /\ steady_evaluation 1 hex_h 6 e (take 5 Y).
Proof.
  intros els phase Y. destruct hex_ok as (Ha & HN & He). split; [exact Ha|]. split; [exact HN|]. split; [exact He|]. split; [reflexivity|]. split; [reflexivity|].
  split; [exists (-3)%Z; unfold phase, sample_phase; cbn [INR]; field|].
  assert (Eq : take 5 hex_X = hex_U) by (apply functional_extensionality; intros r; do 6 (destruct r as [|r]; [reflexivity|]); reflexivity).
  assert (HY : delayed 1 hex_h (- sample_phase 6 3) hex_U (take 5 Y)).
  { rewrite <- Eq. refine (delayed_take 1 hex_h (- sample_phase 6 3) hex_X Y _). pose proof (rotated 1 hex_h hex_X phase 1 (proj2 (proj2 Ha))) as P.
    replace (phase / INR 1) with (- sample_phase 6 3) in P by (unfold phase; cbn [INR]; field). exact P. }
  intros e [<-|[<-|[]]].
  - rewrite Eq. split.
    + split; [cbn; lra|]. cbv zeta. rewrite (hex_repeat 0 hex_U hex_self), (hex_start 0 hex_U hex_self). cbn [j_kt j_Fs j_new]. change (default_tol < Rabs (hex_law 0 5)).
      pose proof hex_law_0 as L. cbn [map seq] in L. injection L as L0 L1 L2 L3 L4 L5 L6 L7 L8 L9 L10 L11. rewrite L5, Rabs_Ropp, Rabs_right by lra. exact tol_small.
    + split; [cbn; lra|]. cbv zeta. rewrite (hex_repeat 3 _ HY), (hex_start 3 _ HY). cbn [j_kt j_Fs j_new]. change (default_tol < Rabs (hex_law 3 5)).
      rewrite hex_law_3, Rabs_R1. pose proof tol_small. lra.
  - destruct (sampled_elements 1 1 one one hex_h 6 Ha HN He) as (C & _). split; [exact (C (fun _ => 2) (take 5 hex_X))|exact (C (fun _ => 2) (take 5 Y))].
Qed.
