(** The elements without memory, a Jenkins element whose first pass ends without force, and an example on a doubled period. *)
From Coq Require Import Reals ZArith Lra Lia Arith List FunctionalExtensionality.
From Verif.Lib Require Import RSum Py.
From Verif.Spec Require Import Harmonic Elements Slider Galerkin Rotation Symmetry Subharmonic.
From Verif.Model Require Import Harmonic LocalForces Aft VibSys SysElements Jenkins SysHistory SysHarmonic.
From Verif.Proofs Require Import HystAftP IwanAftP ElementsP VibSysP HarmonicP FourierP HarmonicOpsP AftP SliderP SliderShiftP TrigPolyP GalerkinP RotationP RotationCaseP SymmetryP SymmetryCaseP SubharmonicP.
Import ListNotations.
Open Scope R_scope.

Lemma sampled_any N nnl Q T (law : local_law) f : (forall U w h Nt, nl_aft f U w h Nt = aft_instantaneous N nnl Q T law U w h Nt) -> sampled_element N (ElInstant f).
Proof.
  intros Hf. exists (fun u v i => rsum nnl (fun d => T i d * law_f law d (rsum N (fun j => Q d j * u j)) (rsum N (fun j => Q d j * v j)))). split.
  - intros u u' v v' i H. apply rsum_ext. intros d _. f_equal. f_equal; apply rsum_ext; intros j Hj; destruct (H j Hj) as [E1 E2]; rewrite ?E1, ?E2; reflexivity.
  - intros h Nt Ha HN He U w v Hv. destruct (aft_generic N nnl Q T h Nt Ha HN He law) as (F & dU & dw & E & HF & _). exists (F U w), (dU U w), (dw U w).
    split; [rewrite Hf; apply E|]. intros c i Hc Hi. rewrite (HF U w (fun d tau => rsum N (fun j => Q d j * v j tau))) by (try assumption; intros; apply local_phase; exact Hv).
    apply fourier_coef_ext. intros n _. apply rsum_ext. intros d _. f_equal. f_equal. rewrite <- rsum_scal_l. apply rsum_ext. intros j _. ring.
Qed.

Lemma sampled_all N nnl Q T :
  (forall k, sampled_element N (ElInstant (cubic_nl N nnl Q T k))) /\
  (forall k, sampled_element N (ElInstant (quintic_nl N nnl Q T k))) /\
  (forall c, sampled_element N (ElInstant (damping_nl N nnl Q T c))) /\
  (forall k Np delta, sampled_element N (ElInstant (unilateral_nl N nnl Q T k Np delta))) /\
  (forall kt Fs chi beta, sampled_element N (ElInstant (iwan_nl N nnl Q T kt Fs chi beta))) /\
  (forall cnl E qq, sampled_element N (ElInstant (poly_nl N nnl cnl Q T E qq))).
Proof.
  repeat split; intros; try (eapply (sampled_any N nnl Q T); intros; reflexivity).
  exists (fun u v i => rsum nnl (fun d => T i d * rsum cnl (fun m => E d m * monomial nnl (qq m) (fun e => rsum N (fun j => Q e j * u j))))). split.
  - intros u u' v v' i H. apply rsum_ext. intros d _. f_equal. apply rsum_ext. intros m _. f_equal. f_equal. apply functional_extensionality. intros e.
    apply rsum_ext. intros j Hj. destruct (H j Hj) as [-> _]. reflexivity.
  - intros h Nt Ha HN He U' w v Hv. destruct (aft_poly N nnl Q T h Nt Ha HN He cnl E qq) as (F & dU & A & HF & _). exists (F U'), (dU U'), (fun _ => 0). split; [apply A|]. intros c i Hc Hi. apply HF; assumption.
Qed.

(** * The early stop *)
Definition long_h : list nat := [0; 1; 2; 6]%nat.
Definition long_Y : vec := fun r => match r with 3%nat => - (3/2) | 4%nat => 1 + sqrt 2 / 2 | 5%nat => - (1/2) | 6%nat => - (sqrt 2 / 2) | _ => 0 end.

Lemma long_ok : admissible long_h /\ subharmonic_list 2 oct_h2 long_h /\ (2 * list_max long_h + 1 < 2 * 8)%nat.
Proof.
  split; [repeat split; [discriminate|repeat constructor; cbn; intuition discriminate|cbn; intuition discriminate]|].
  split; [|cbn; lia]. split; unfold oct_h2, long_h; intros n H; cbn [In] in *; lia.
Qed.

Lemma long_repeats : repeats 1 2 oct_h2 oct_Y long_h long_Y.
Proof.
  intros d t Hd. assert (d = O) by lia. subst. unfold series, oct_h2, long_h, components, dof_coefs, basis, oct_Y, oct_X, long_Y. cbn.
  replace ((1 + 1 + 1 + 1 + 1 + 1) * t) with ((1 + 1 + 1) * ((1 + 1) * t)) by ring. rewrite !(Rmult_1_l ((1 + 1) * t)). ring.
Qed.

Lemma oct_law_2 : map (jenkins_law 1 1 oct_u 0) (seq 8 8) = [sqrt 2 - 2; 1; 1; 0; 2 - sqrt 2; - (1); - (1); 0].
Proof.
  pose proof oct_law as L. cbn [map seq] in L. injection L as L0 L1 L2 L3 L4 L5 L6 L7.
  assert (E0 := law_next 1 1 oct_u 0 7 _ (sqrt 2 - 2) L7 ltac:(octstep)). assert (E1 := law_next 1 1 oct_u 0 8 _ 1 E0 ltac:(octstep)).
  assert (E2 := law_next 1 1 oct_u 0 9 _ 1 E1 ltac:(octstep)). assert (E3 := law_next 1 1 oct_u 0 10 _ 0 E2 ltac:(octstep)).
  assert (E4 := law_next 1 1 oct_u 0 11 _ (2 - sqrt 2) E3 ltac:(octstep)). assert (E5 := law_next 1 1 oct_u 0 12 _ (- (1)) E4 ltac:(octstep)).
  assert (E6 := law_next 1 1 oct_u 0 13 _ (- (1)) E5 ltac:(octstep)). assert (E7 := law_next 1 1 oct_u 0 14 _ 0 E6 ltac:(octstep)).
  cbn [map seq]. rewrite E0, E1, E2, E3, E4, E5, E6, E7. reflexivity.
Qed.

Lemma early_stop_repeat : exists N k Nt h1 h2 X Y Q T s w e1 F e2 G, (0 < k)%nat /\ admissible h1 /\ admissible h2 /\ subharmonic_list k h1 h2 /\
  (2 * list_max h1 + 1 < Nt)%nat /\ (2 * list_max h2 + 1 < k * Nt)%nat /\ Nat.even Nt = true /\ 0 < j_kt s /\ 0 < j_Fs s /\ repeats N k h1 X h2 Y /\
  element_aft N (ElJenkins Q T s) X w h1 Nt = Ok (e1, Some F) /\ element_aft N (ElJenkins Q T s) Y (w / INR k) h2 (k * Nt) = Ok (e2, Some G) /\ ~ repeats N k h1 F h2 G.
Proof.
  destruct oct_ok as (_ & Ha1 & _ & HN1 & He). destruct long_ok as (Ha2 & Hs & HN2).
  assert (S0 : local_first_coef 1 one oct_Y = 0) by (unfold local_first_coef, oct_Y, one; cbn; ring).
  assert (S1 : local_first_coef 1 one long_Y = 0) by (unfold local_first_coef, long_Y, one; cbn; ring).
  pose proof oct_law as L. cbn [map seq] in L. injection L as L0 L1 L2 L3 L4 L5 L6 L7.
  pose proof oct_law_2 as P. cbn [map seq] in P. injection P as P0 P1 P2 P3 P4 P5 P6 P7.
  assert (RL : repeat_samples (2 * 8) (fun n => local_motion 1 one long_h long_Y 0 (sample_phase (2 * 8) n)) = oct_u).
  { rewrite (repeat_long 1 2 8 oct_h2 long_h ltac:(lia) HN1 HN2 oct_Y long_Y long_repeats one 0), <- oct_repeat. symmetry. apply (repeat_U 1 oct_h2 8 HN1). }
  destruct (jenkins_aft_early hex_s 1 one one oct_h2 8 Ha1 HN1 He ltac:(cbn; lra) oct_Y) as (st & F & dU & E & HF).
  { rewrite oct_repeat, S0. cbn [j_kt j_Fs hex_s j_new Nat.sub]. rewrite L7, Rabs_R0. left. exact tol_pos. }
  destruct (jenkins_aft_early hex_s 1 one one long_h (2 * 8) Ha2 HN2 eq_refl ltac:(cbn; lra) long_Y) as (st' & G & dU' & E' & HG).
  { rewrite RL, S1. cbn [j_kt j_Fs hex_s j_new Nat.sub Nat.mul Nat.add]. rewrite P7, Rabs_R0. left. exact tol_pos. }
  exists 1%nat, 2%nat, 8%nat, oct_h2, long_h, oct_Y, long_Y, one, one, hex_s, 1, (ElJenkins one one st), F, (ElJenkins one one st'), G.
  split; [lia|]. split; [exact Ha1|]. split; [exact Ha2|]. split; [exact Hs|]. split; [exact HN1|]. split; [exact HN2|]. split; [exact He|]. split; [cbn; lra|]. split; [cbn; lra|]. split; [exact long_repeats|].
  cbn [element_aft]. rewrite E, E'. cbn [bind fst]. split; [reflexivity|]. split; [reflexivity|]. intros HR.
  pose proof (mean_repeats 1 2 8 oct_h2 long_h ltac:(lia) Ha1 Ha2 Hs HN1 HN2 F G HR ltac:(left; reflexivity) 0 ltac:(lia)) as M.
  pose proof (HF 0%nat 0%nat ltac:(cbn; lia) ltac:(lia)) as F0. pose proof (HG 0%nat 0%nat ltac:(cbn; lia) ltac:(lia)) as G0. cbn [Nat.mul Nat.add] in F0, G0.
  change 16%nat with (2 * 8)%nat in G0. rewrite oct_repeat, S0 in F0. rewrite RL, S1 in G0. rewrite F0, G0 in M. cbn [j_kt j_Fs hex_s j_new] in M.
  unfold one, fourier_coef in M. cbn [components oct_h2 long_h flat_map app nth comp_fun rsum INR Nat.add Nat.mul] in M. rewrite !Rmult_0_l, cos_0 in M.
  rewrite L0, L1, L2, L3, L4, L5, L6, L7, P0, P1, P2, P3, P4, P5, P6, P7 in M. pose proof r2_bounds. lra.
Qed.

(** * A Jenkins element and a cubic spring on u = 2 cos(tau), on the doubled period *)
Definition dbl_h1 : list nat := [0; 1]%nat.
Definition dbl_h2 : list nat := [0; 1; 2]%nat.
Definition dbl_X : vec := fun r => match r with 1%nat => 2 | 3%nat => 1 | _ => 0 end.
Definition dbl_Y : vec := fun r => match r with 3%nat => 2 | 5%nat => 1 / 2 | _ => 0 end.

Lemma dbl_law : jenkins_law 1 1 sym_u 0 5 = 1 /\ jenkins_law 1 1 sym_u 0 11 = 1.
Proof.
  assert (E5 : jenkins_law 1 1 sym_u 0 5 = 1) by (apply (sym_law 0 1 0); [| |lra]; unfold Slider.clamp; clamps). split; [exact E5|].
  assert (E6 := law_next 1 1 sym_u 0 5 _ 1 E5 ltac:(symstep)). assert (E7 := law_next 1 1 sym_u 0 6 _ 0 E6 ltac:(symstep)).
  assert (E8 := law_next 1 1 sym_u 0 7 _ (- (1)) E7 ltac:(symstep)). assert (E9 := law_next 1 1 sym_u 0 8 _ (- (1)) E8 ltac:(symstep)).
  assert (E10 := law_next 1 1 sym_u 0 9 _ 0 E9 ltac:(symstep)). exact (law_next 1 1 sym_u 0 10 _ 1 E10 ltac:(symstep)).
Qed.

Lemma doubled_case : let els := [ElJenkins one one (j_new 1 1); ElInstant (cubic_nl 1 1 one one (fun _ => 2))] in
  admissible dbl_h1 /\ admissible dbl_h2 /\ subharmonic_list 2 dbl_h1 dbl_h2 /\ (2 * list_max dbl_h1 + 1 < 6)%nat /\ (2 * list_max dbl_h2 + 1 < 2 * 6)%nat /\ Nat.even 6 = true /\
  dbl_X 3%nat = 1 /\ dbl_Y 5%nat = 1 / INR 2 /\ repeats 1 2 dbl_h1 dbl_X dbl_h2 dbl_Y /\
  forall e, In e els -> sampled_element 1 e /\ steady_evaluation 1 dbl_h1 6 e (take 3 dbl_X) /\ steady_evaluation 1 dbl_h2 (2 * 6) e (take 5 dbl_Y).
Proof.
  intros els. assert (A : forall l : list nat, l = dbl_h1 \/ l = dbl_h2 -> admissible l) by (intros l [->| ->]; repeat split; try discriminate; repeat constructor; cbn; intuition discriminate).
  assert (Ha1 : admissible dbl_h1) by (apply A; auto). assert (Ha2 : admissible dbl_h2) by (apply A; auto).
  assert (HN1 : (2 * list_max dbl_h1 + 1 < 6)%nat) by (cbn; lia). assert (HN2 : (2 * list_max dbl_h2 + 1 < 2 * 6)%nat) by (cbn; lia).
  assert (HR : repeats 1 2 dbl_h1 dbl_X dbl_h2 dbl_Y).
  { intros d t Hd. assert (d = O) by lia. subst. unfold series, dbl_h1, dbl_h2, components, dof_coefs, basis, dbl_X, dbl_Y. cbn. rewrite (Rmult_1_l ((1 + 1) * t)). ring. }
  split; [exact Ha1|]. split; [exact Ha2|]. split; [split; unfold dbl_h1, dbl_h2; intros n H; cbn [In] in *; lia|]. split; [exact HN1|]. split; [exact HN2|]. split; [reflexivity|]. split; [reflexivity|].
  split; [cbn; lra|]. split; [exact HR|].
  assert (V : repeat_samples 6 (fun n => local_motion 1 one dbl_h1 (take 3 dbl_X) 0 (sample_phase 6 n)) = sym_u).
  { apply sym_values. intros t. unfold local_motion, series, dbl_h1, components, dof_coefs, basis, dbl_X, one, take. cbn. rewrite !Rmult_1_l. ring. }
  pose proof dbl_law as [L5 L11]. pose proof tol_small as TS.
  intros e [<-|[<-|[]]].
  - split; [exact I|]. split; (split; [cbn; lra|]); cbv zeta.
    + rewrite V. replace (local_first_coef 1 one (take 3 dbl_X)) with 0 by (unfold local_first_coef, one, dbl_X, take; cbn; ring). cbn [j_kt j_Fs j_new Nat.sub]. rewrite L5, Rabs_R1. lra.
    + pose proof (repeat_long 1 2 6 dbl_h1 dbl_h2 ltac:(lia) HN1 HN2 (take 3 dbl_X) (take 5 dbl_Y) (repeats_take 1 2 6 dbl_h1 dbl_h2 ltac:(lia) HN1 HN2 dbl_X dbl_Y HR) one 0) as RL.
      rewrite <- (repeat_U 1 dbl_h1 6 HN1), V in RL. rewrite RL.
      replace (local_first_coef 1 one (take 5 dbl_Y)) with 0 by (unfold local_first_coef, one, dbl_Y, take; cbn; ring). cbn [j_kt j_Fs j_new Nat.sub Nat.mul Nat.add]. rewrite L11, Rabs_R1. lra.
  - destruct (sampled_all 1 1 one one) as (C & _). split; [apply C|].
    destruct (sampled_elements 1 1 one one dbl_h1 6 Ha1 HN1 eq_refl) as (C1 & _). destruct (sampled_elements 1 1 one one dbl_h2 (2 * 6) Ha2 HN2 eq_refl) as (C2 & _).
    split; [exact (C1 (fun _ => 2) (take 3 dbl_X))|exact (C2 (fun _ => 2) (take 5 dbl_Y))].
Qed.
