(** A Jenkins element whose first pass ends without force, and an example with an added harmonic. *)
From Coq Require Import Reals ZArith Lra Lia Arith List FunctionalExtensionality.
From Verif.Lib Require Import RSum Py.
From Verif.Spec Require Import Harmonic Elements Slider Galerkin Rotation Symmetry Subharmonic Truncation.
From Verif.Model Require Import Harmonic LocalForces Aft VibSys SysElements Jenkins SysHistory SysHarmonic.
From Verif.Proofs Require Import HystAftP IwanAftP ElementsP VibSysP HarmonicP FourierP HarmonicOpsP AftP SliderP SliderShiftP TrigPolyP GalerkinP RotationP RotationCaseP SymmetryP SymmetryCaseP SubharmonicP SubharmonicCaseP TruncationP.
Import ListNotations.
Open Scope R_scope.

Lemma oct_start : map (jenkins_law 1 1 oct_u (- (3/2))) (seq 0 8) = [- (1/2); 1; 1; 0; 2 - sqrt 2; - (1); - (1); 0].
Proof.
  assert (E0 : jenkins_law 1 1 oct_u (- (3/2)) 0 = - (1/2)) by (apply law_first; octstep). assert (E1 := law_next 1 1 oct_u (- (3/2)) 0 _ 1 E0 ltac:(octstep)).
  assert (E2 := law_next 1 1 oct_u (- (3/2)) 1 _ 1 E1 ltac:(octstep)). assert (E3 := law_next 1 1 oct_u (- (3/2)) 2 _ 0 E2 ltac:(octstep)).
  assert (E4 := law_next 1 1 oct_u (- (3/2)) 3 _ (2 - sqrt 2) E3 ltac:(octstep)). assert (E5 := law_next 1 1 oct_u (- (3/2)) 4 _ (- (1)) E4 ltac:(octstep)).
  assert (E6 := law_next 1 1 oct_u (- (3/2)) 5 _ (- (1)) E5 ltac:(octstep)). assert (E7 := law_next 1 1 oct_u (- (3/2)) 6 _ 0 E6 ltac:(octstep)).
  cbn [map seq]. rewrite E0, E1, E2, E3, E4, E5, E6, E7. reflexivity.
Qed.

Lemma early_stop_added : exists N Nt h1 h2 X Y Q T s w e1 F e2 G, admissible h1 /\ admissible h2 /\ incl h1 h2 /\ (2 * list_max h2 + 1 < Nt)%nat /\ Nat.even Nt = true /\
  0 < j_kt s /\ 0 < j_Fs s /\ agrees_on N h1 X h2 Y /\ zero_beyond N h1 h2 Y /\
  element_aft N (ElJenkins Q T s) X w h1 Nt = Ok (e1, Some F) /\ element_aft N (ElJenkins Q T s) Y w h2 Nt = Ok (e2, Some G) /\ ~ agrees_on N h1 F h2 G.
Proof.
  destruct oct_ok as (Ha1 & Ha2 & (_ & _ & Hi) & HN & He). assert (HN1 : (2 * list_max oct_h1 + 1 < 8)%nat) by (cbn; lia).
  assert (S0 : local_first_coef 1 one oct_Y = 0) by (unfold local_first_coef, oct_Y, one; cbn; ring).
  assert (S1 : local_first_coef 1 one oct_X = - (3/2)) by (unfold local_first_coef, oct_X, one; cbn; field).
  assert (U1 : repeat_samples 8 (fun n => local_motion 1 one oct_h1 oct_X 0 (sample_phase 8 n)) = oct_u).
  { rewrite <- oct_repeat. f_equal. apply functional_extensionality. intros n. symmetry. apply (local_equal 1 oct_h1 oct_h2 oct_X oct_Y oct_same). }
  pose proof oct_law as L. cbn [map seq] in L. injection L as L0 L1 L2 L3 L4 L5 L6 L7.
  pose proof oct_start as P. cbn [map seq] in P. injection P as P0 P1 P2 P3 P4 P5 P6 P7.
  destruct (jenkins_aft_early hex_s 1 one one oct_h1 8 Ha1 HN1 He ltac:(cbn; lra) oct_X) as (st & F & dU & E & HF).
  { rewrite U1, S1. cbn [j_kt j_Fs hex_s j_new Nat.sub]. rewrite P7, Rabs_R0. left. exact tol_pos. }
  destruct (jenkins_aft_early hex_s 1 one one oct_h2 8 Ha2 HN He ltac:(cbn; lra) oct_Y) as (st' & G & dU' & E' & HG).
  { rewrite oct_repeat, S0. cbn [j_kt j_Fs hex_s j_new Nat.sub]. rewrite L7, Rabs_R0. left. exact tol_pos. }
  destruct (motion_padded 1 8 oct_h1 oct_h2 Ha1 Ha2 Hi HN oct_X oct_Y oct_same) as [HA HZ].
  exists 1%nat, 8%nat, oct_h1, oct_h2, oct_X, oct_Y, one, one, hex_s, 1, (ElJenkins one one st), F, (ElJenkins one one st'), G.
  split; [exact Ha1|]. split; [exact Ha2|]. split; [exact Hi|]. split; [exact HN|]. split; [exact He|]. split; [cbn; lra|]. split; [cbn; lra|]. split; [exact HA|]. split; [exact HZ|].
  cbn [element_aft]. rewrite E, E'. cbn [bind fst]. split; [reflexivity|]. split; [reflexivity|]. intros HR.
  pose proof (HR 0%nat 1%nat 0%nat ltac:(cbn; lia) ltac:(cbn; lia) ltac:(lia) eq_refl) as M. cbn [Nat.mul Nat.add] in M.
  pose proof (HF 0%nat 0%nat ltac:(cbn; lia) ltac:(lia)) as F0. pose proof (HG 1%nat 0%nat ltac:(cbn; lia) ltac:(lia)) as G0. cbn [Nat.mul Nat.add] in F0, G0.
  rewrite U1, S1 in F0. rewrite oct_repeat, S0 in G0. rewrite F0, G0 in M. cbn [j_kt j_Fs hex_s j_new] in M.
  unfold one, fourier_coef in M. cbn [components oct_h1 oct_h2 flat_map app nth rsum Nat.add Nat.mul] in M.
  rewrite L0, L1, L2, L3, L4, L5, L6, L7, P0, P1, P2, P3, P4, P5, P6, P7 in M.
  assert (C : comp_fun (Cos 1) (sample_phase 8 0) = 1). { unfold sample_phase. cbn [comp_fun INR]. replace (1 * (2 * PI * 0 / _)) with 0 by (unfold Rdiv; ring). apply cos_0. }
  rewrite C in M. assert (I8 : INR 8 = 8) by (cbn; lra). rewrite I8 in M. lra.
Qed.

(** a Jenkins element and a cubic spring on u = 2 cos(tau), with the lists [0; 1] and [0; 1; 2] *)
Definition pad_Y : vec := fun r => match r with 1%nat => 2 | 5%nat => 1 | _ => 0 end.
Lemma added_case : let els := [ElJenkins one one (j_new 1 1); ElInstant (cubic_nl 1 1 one one (fun _ => 2))] in
  admissible dbl_h1 /\ admissible dbl_h2 /\ incl dbl_h1 dbl_h2 /\ (2 * list_max dbl_h2 + 1 < 6)%nat /\ Nat.even 6 = true /\
  dbl_X 3%nat = 1 /\ pad_Y 5%nat = 1 /\ agrees_on 1 dbl_h1 dbl_X dbl_h2 pad_Y /\ zero_beyond 1 dbl_h1 dbl_h2 pad_Y /\
  forall e, In e els -> sampled_element 1 e /\ same_start 1 6 dbl_h1 (take 3 dbl_X) dbl_h2 (take 5 pad_Y) e.
Proof.
  intros els. assert (A : forall l : list nat, l = dbl_h1 \/ l = dbl_h2 -> admissible l) by (intros l [->| ->]; repeat split; try discriminate; repeat constructor; cbn; intuition discriminate).
  assert (Ha1 : admissible dbl_h1) by (apply A; auto). assert (Ha2 : admissible dbl_h2) by (apply A; auto).
  assert (Hi : incl dbl_h1 dbl_h2) by (intros n [<-|[<-|[]]]; cbn; auto). assert (HN : (2 * list_max dbl_h2 + 1 < 6)%nat) by (cbn; lia).
  assert (S : same_motion 1 dbl_h1 dbl_X dbl_h2 pad_Y).
  { intros d t Hd. assert (d = O) by lia. subst. unfold series, dbl_h1, dbl_h2, components, dof_coefs, basis, dbl_X, pad_Y. cbn. ring. }
  destruct (motion_padded 1 6 dbl_h1 dbl_h2 Ha1 Ha2 Hi HN dbl_X pad_Y S) as [HA HZ].
  split; [exact Ha1|]. split; [exact Ha2|]. split; [exact Hi|]. split; [exact HN|]. split; [reflexivity|]. split; [reflexivity|]. split; [reflexivity|]. split; [exact HA|]. split; [exact HZ|].
  intros e [<-|[<-|[]]].
  - split; [exact I|]. split; [cbn; lra|]. left. left. reflexivity.
  - destruct (sampled_all 1 1 one one) as (C & _). split; [apply C|]. split; [exact I|]. left. left. reflexivity.
Qed.
