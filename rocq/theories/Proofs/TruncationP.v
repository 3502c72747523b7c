(** Adding harmonics to an analysis. *)
From Coq Require Import Reals ZArith Lra Lia Arith List FunctionalExtensionality.
From Verif.Lib Require Import RSum Py Calc.
From Verif.Spec Require Import Calculus Harmonic Elements Slider JenkinsCalls IwanCalls System Galerkin Rotation Symmetry Subharmonic Truncation.
From Verif.Model Require Import Harmonic LocalForces Aft VibSys SysElements Jenkins Iwan IwanOps JaxFriction SysHistory SysHarmonic.
From Verif.Proofs Require Import HystAftP IwanAftP JenkinsP JenkinsDerivP IwanP VectorIwanP IwanOpsP HystAftGenP HysteresisP EldryP JaxFrictionP ElementsP VibSysP HarmonicP FourierP HarmonicOpsP AftP SliderP SliderShiftP TrigPolyP GalerkinP RotationP SymmetryP SubharmonicP.
Import ListNotations.
Open Scope R_scope.

Lemma comp_in h c : In (harm c) h -> comp_ok c -> In c (components h).
Proof.
  intros Hi Hc. unfold components. apply in_flat_map. exists (harm c). split; [exact Hi|]. destruct c as [[|k]|[|k]]; cbn in *; auto; try contradiction; lia.
Qed.

Lemma comp_dec (a b : comp) : {a = b} + {a <> b}.
Proof. decide equality; apply Nat.eq_dec. Qed.

Lemma component_index h c : In c (components h) -> exists k, (k < length (components h))%nat /\ nth k (components h) (Cos O) = c.
Proof. intros H. apply (In_nth _ _ (Cos O)) in H. exact H. Qed.

Lemma iwan_aft_early s N Q T h Nt U : admissible h -> (2 * list_max h + 1 < Nt)%nat -> Nat.even Nt = true -> phi_ok s ->
  let law := bank_law (iw_n s) (iw_w s) (iw_phi s) (repeat_samples Nt (fun n => local_motion N Q h U 0 (sample_phase Nt n))) (local_first_coef N Q U) in
  Rabs (law (Nt - 1)%nat) <= default_tol ->
  exists st F dU, iwan_aft s N Q T U h Nt = Ok (st, (F, dU, fun _ => 0)) /\
    forall c i, (c < length (components h))%nat -> (i < N)%nat -> F (c * N + i)%nat = T i 0%nat * fourier_coef Nt law (nth c (components h) (Cos O)).
Proof.
  intros Ha HN Hev HP law Hes. destruct (hyst_aft_exact (iwan_lfh s) N Q T h Nt Ha HN Hev (iff s h Nt) (idd s h Nt) (iwan_lfh_ok s h Nt HN HP) s) as (st & F & dU & E & V & J).
  assert (EM : repeat_samples Nt (gsamples h Nt (loc N 1 Q h U)) = repeat_samples Nt (fun n => local_motion N Q h U 0 (sample_phase Nt n))).
  { f_equal. apply functional_extensionality. intros j. apply gsamples_motion; assumption. }
  exists (st U), (F U), (dU U). split; [apply E|]. intros c i Hc Hi. rewrite V by assumption. f_equal. apply fourier_coef_ext. intros n Hn.
  unfold iff. rewrite !bank_pass_law, EM. rewrite (loc_first N Q h Nt Ha HN). fold law. cbn [Nat.mul Nat.add]. unfold pass_no. fold law.
  rewrite (proj2 (Rltb_false _ _) Hes). reflexivity.
Qed.

Section Pair.
  Variables (N Nt : nat) (h1 h2 : list nat).
  Hypothesis Ha1 : admissible h1.
  Hypothesis Ha2 : admissible h2.
  Hypothesis Hin : incl h1 h2.
  Hypothesis HN2 : (2 * list_max h2 + 1 < Nt)%nat.
  Hypothesis He : Nat.even Nt = true.

  Lemma max_incl : (list_max h1 <= list_max h2)%nat.
  Proof. apply list_max_le. apply Forall_forall. intros k Hk. apply in_max. apply Hin. exact Hk. Qed.
  Lemma HN1 : (2 * list_max h1 + 1 < Nt)%nat.
  Proof. pose proof max_incl. lia. Qed.

  Lemma comp_incl c : In c (components h1) -> In c (components h2).
  Proof. intros H. destruct (in_components h1 c H) as [A B]. apply comp_in; [apply Hin; exact A|exact B]. Qed.

  (** padding with zeros does not change the functions *)
  Lemma padded_motion X Y : agrees_on N h1 X h2 Y -> zero_beyond N h1 h2 Y -> same_motion N h1 X h2 Y.
  Proof.
    intros HA HZ i t Hi. pose proof Ha1 as (_ & D1 & _). pose proof Ha2 as (_ & D2 & _).
    set (Psi := fun c => fourier_coef Nt (fun n => series h2 (dof_coefs N Y i) (sample_phase Nt n)) c).
    assert (C2 : forall c, (c < length (components h2))%nat -> Y (c * N + i)%nat = Psi (nth c (components h2) (Cos O))).
    { intros c Hc. symmetry. apply (series_coef Nt h2 (dof_coefs N Y i) c D2 ltac:(lia) Hc). }
    assert (C1 : forall c, (c < length (components h1))%nat -> X (c * N + i)%nat = Psi (nth c (components h1) (Cos O))).
    { intros c Hc. destruct (component_index h2 _ (comp_incl _ (nth_In (components h1) (Cos O) Hc))) as (c2 & L & E). rewrite <- E, <- C2 by exact L. apply HA; auto. }
    transitivity (series h1 (fun c => Psi (nth c (components h1) (Cos O))) t); [apply rsum_ext; intros c Hc; unfold dof_coefs; rewrite C1 by assumption; reflexivity|].
    transitivity (series h2 (fun c => Psi (nth c (components h2) (Cos O))) t); [|apply rsum_ext; intros c Hc; unfold dof_coefs; rewrite C2 by assumption; reflexivity].
    rewrite !series_parts. symmetry. apply lsum_part; [exact D1|exact D2|exact Hin|]. intros k Hk. destruct (in_dec Nat.eq_dec k h1) as [I|I]; [left; exact I|right].
    assert (Z : forall c, harm c = k -> comp_ok c -> Psi c = 0).
    { intros c Ec Oc. destruct (component_index h2 c (comp_in h2 c ltac:(rewrite Ec; exact Hk) Oc)) as (c2 & L & E). rewrite <- E, <- C2 by exact L. apply HZ; try assumption.
      rewrite E. intros F. destruct (in_components h1 c F) as [F1 _]. congruence. }
    destruct k as [|k]; cbn [part]; rewrite !Z; try reflexivity; try (cbn; auto; lia); ring.
  Qed.

  (** the converse *)
  Lemma motion_padded X Y : same_motion N h1 X h2 Y -> agrees_on N h1 X h2 Y /\ zero_beyond N h1 h2 Y.
  Proof.
    intros HS. pose proof Ha1 as (_ & D1 & _). pose proof Ha2 as (_ & D2 & _). pose proof HN1 as H1.
    assert (HA : agrees_on N h1 X h2 Y).
    { intros c1 c2 i L1 L2 Hi E. pose proof (series_coef Nt h1 (dof_coefs N X i) c1 D1 ltac:(lia) L1) as S1. pose proof (series_coef Nt h2 (dof_coefs N Y i) c2 D2 ltac:(lia) L2) as S2.
      unfold dof_coefs at 2 in S1. unfold dof_coefs at 2 in S2. rewrite <- S1, <- S2, E. apply fourier_coef_ext. intros n _. apply HS. exact Hi. }
    split; [exact HA|].
    set (Y' := fun r => if in_dec comp_dec (nth (r / N) (components h2) (Cos O)) (components h1) then Y r else 0).
    assert (S' : same_motion N h1 X h2 Y').
    { apply padded_motion.
      - intros c1 c2 i L1 L2 Hi E. unfold Y'. destruct (divmod_block N c2 i Hi) as [-> _]. destruct (in_dec comp_dec _ _) as [I|I]; [apply HA; assumption|].
        exfalso. apply I. rewrite <- E. apply nth_In. exact L1.
      - intros c i L Hi I. unfold Y'. destruct (divmod_block N c i Hi) as [-> _]. destruct (in_dec comp_dec _ _) as [J|J]; [contradiction|reflexivity]. }
    intros c i L Hi I. pose proof (series_coef Nt h2 (dof_coefs N Y i) c D2 ltac:(lia) L) as S1. pose proof (series_coef Nt h2 (dof_coefs N Y' i) c D2 ltac:(lia) L) as S2.
    unfold dof_coefs at 2 in S1. unfold dof_coefs at 2 in S2. rewrite <- S1. transitivity (Y' (c * N + i)%nat).
    - rewrite <- S2. apply fourier_coef_ext. intros n _. rewrite <- (HS i _ Hi), <- (S' i _ Hi). reflexivity.
    - unfold Y'. destruct (divmod_block N c i Hi) as [-> _]. destruct (in_dec comp_dec _ _) as [J|J]; [contradiction|reflexivity].
  Qed.

  Lemma agree_samples (F G : vec) (x y : nat -> nat -> R) (a : nat -> R) :
    (forall c i, (c < length (components h1))%nat -> (i < N)%nat -> F (c * N + i)%nat = fourier_coef Nt (x i) (nth c (components h1) (Cos O))) ->
    (forall c i, (c < length (components h2))%nat -> (i < N)%nat -> G (c * N + i)%nat = fourier_coef Nt (y i) (nth c (components h2) (Cos O))) ->
    (In O h1 -> forall i, (i < N)%nat -> a i = 0) -> (forall i n, (i < N)%nat -> (n < Nt)%nat -> x i n = y i n + a i) -> agrees_on N h1 F h2 G.
  Proof.
    intros HF HG Ha Hx c1 c2 i L1 L2 Hi E. rewrite HF, HG, <- E by assumption. set (c := nth c1 (components h1) (Cos O)).
    destruct (in_components h1 c (nth_In _ _ L1)) as [Ic _]. pose proof (in_max h1 _ Ic) as Mc. pose proof HN1 as H1.
    rewrite (fourier_coef_ext Nt (x i) (fun n => y i n + a i)) by (intros j Hj; apply Hx; assumption). destruct (Nat.eq_dec (harm c) 0) as [Z|Nz].
    - rewrite (Ha ltac:(rewrite <- Z; exact Ic) i Hi). apply fourier_coef_ext. intros. ring.
    - apply coef_shifted; lia.
  Qed.

  Variables (X Y : vec).
  Hypothesis HXY : same_motion N h1 X h2 Y.

  Lemma first_same (Q : mat) d : In O h1 -> rsum N (fun j => Q d j * X j) = rsum N (fun j => Q d j * Y j).
  Proof.
    intros H0. apply rsum_ext. intros j Hj. f_equal. destruct (first_component h1 Ha1 H0) as [L1 E1]. destruct (first_component h2 Ha2 (Hin _ H0)) as [L2 E2].
    destruct (motion_padded X Y HXY) as [HA _]. pose proof (HA O O j L1 L2 Hj ltac:(rewrite E1, E2; reflexivity)) as E. exact E.
  Qed.

  Notation at1 Q := (at_samples N h1 Nt X Q).

  Lemma local_equal Q d t : local_motion N Q h2 Y d t = local_motion N Q h1 X d t.
  Proof. apply rsum_ext. intros j Hj. f_equal. symmetry. apply HXY. exact Hj. Qed.

  Lemma repeat_equal Q d : repeat_samples Nt (fun n => local_motion N Q h2 Y d (sample_phase Nt n)) = at1 Q d.
  Proof. rewrite <- (repeat_U N h1 Nt HN1 X Q d). unfold repeat_samples. apply functional_extensionality. intros n. apply local_equal. Qed.

  Lemma jenkins_starts kt Fs Q d u0 u1 : 0 <= Fs -> exists a, (u1 = u0 -> a = 0) /\ forall n, jenkins_law kt Fs (at1 Q d) u0 (Nt + n) = jenkins_law kt Fs (at1 Q d) u1 (Nt + n) + a.
  Proof.
    intros HF. pose proof HN1 as H1. destruct (slider_starts kt Nt (fun _ => - Fs) (fun _ => Fs) (at1 Q d) ltac:(lia) ltac:(intros; lra) ltac:(intros n; reflexivity) ltac:(intros n; reflexivity) (at_samples_period N h1 Nt HN1 X Q d) u1 u0 O) as (a & Ea & A).
    exists a. split; [exact Ea|]. intros n. specialize (A n). cbn [Nat.add] in A. exact A.
  Qed.

  Lemma jenkins_agree Q T s w : steady_evaluation N h1 Nt (ElJenkins Q T s) X -> steady_evaluation N h2 Nt (ElJenkins Q T s) Y -> forces_agree N Nt w h1 X h2 Y (ElJenkins Q T s).
  Proof.
    intros [HF S1] [_ S2]. cbv zeta in S1, S2. destruct (jenkins_aft_exact s N Q T h1 Nt Ha1 HN1 He HF) as (st1 & F & dF & E1 & A1 & _).
    destruct (jenkins_aft_exact s N Q T h2 Nt Ha2 HN2 He HF) as (st2 & G & dG & E2 & A2 & _).
    exists (ElJenkins Q T (st1 X)), (F X), (ElJenkins Q T (st2 Y)), (G Y). cbn [element_aft]. rewrite E1, E2. cbn [bind fst]. split; [reflexivity|]. split; [reflexivity|].
    pose proof (A1 X S1) as B1. pose proof (A2 Y S2) as B2. clear A1 A2 S1 S2. rewrite (repeat_U N h1 Nt HN1 X Q 0) in B1. rewrite repeat_equal in B2.
    destruct (jenkins_starts (j_kt s) (j_Fs s) Q 0 (local_first_coef N Q X) (local_first_coef N Q Y) HF) as (a & Ea & L1).
    apply (agree_samples (F X) (G Y) (fun i n => T i O * jenkins_law (j_kt s) (j_Fs s) (at1 Q O) (local_first_coef N Q X) (Nt + n))
      (fun i n => T i O * jenkins_law (j_kt s) (j_Fs s) (at1 Q O) (local_first_coef N Q Y) (Nt + n)) (fun i => T i O * a)).
    - intros c i Hc Hi. rewrite fourier_coef_scal. apply B1; assumption.
    - intros c i Hc Hi. rewrite fourier_coef_scal. apply B2; assumption.
    - intros H0 i _. rewrite Ea; [ring|]. symmetry. apply first_same. exact H0.
    - intros i n _ _. rewrite L1. ring.
  Qed.

  Lemma jax_jenkins_agree Q T kt u0 Fs rf pf w : steady_evaluation N h1 Nt (ElJaxJenkins Q T kt u0 Fs rf pf) X -> steady_evaluation N h2 Nt (ElJaxJenkins Q T kt u0 Fs rf pf) Y ->
    forces_agree N Nt w h1 X h2 Y (ElJaxJenkins Q T kt u0 Fs rf pf).
  Proof.
    intros [HF S1] [_ S2]. destruct (jax_jenkins_exact N Q T kt Fs u0 h1 Nt Ha1 HN1 He S1 HF) as (F & dF & dw & E1 & A1 & _).
    destruct (jax_jenkins_exact N Q T kt Fs u0 h2 Nt Ha2 HN2 He S2 HF) as (G & dG & dw' & E2 & A2 & _).
    exists (ElJaxJenkins Q T kt u0 Fs rf pf), (F X w), (ElJaxJenkins Q T kt u0 Fs rf pf), (G Y w). cbn [element_aft]. rewrite E1, E2. cbn [bind fst]. split; [reflexivity|]. split; [reflexivity|].
    destruct (A1 X w) as [_ B1]. destruct (A2 Y w) as [_ B2]. clear A1 A2. cbv zeta in B1, B2. rewrite (repeat_U N h1 Nt HN1 X Q 0) in B1. rewrite repeat_equal in B2.
    set (s0 := match u0 with None => local_first_coef N Q X | Some x => x end) in *. set (s1 := match u0 with None => local_first_coef N Q Y | Some x => x end) in *.
    destruct (jenkins_starts kt Fs Q 0 s0 s1 HF) as (a & Ea & L1).
    apply (agree_samples (F X w) (G Y w) (fun i n => T i O * jenkins_law kt Fs (at1 Q O) s0 (Nt + n)) (fun i n => T i O * jenkins_law kt Fs (at1 Q O) s1 (Nt + n)) (fun i => T i O * a)).
    - intros c i Hc Hi. rewrite fourier_coef_scal. apply B1; assumption.
    - intros c i Hc Hi. rewrite fourier_coef_scal. apply B2; assumption.
    - intros H0 i _. rewrite Ea; [ring|]. unfold s0, s1. destruct u0; [reflexivity|]. symmetry. apply first_same. exact H0.
    - intros i n _ _. rewrite L1. ring.
  Qed.

  Lemma iwan_agree Q T s w : steady_evaluation N h1 Nt (ElIwan Q T s) X -> steady_evaluation N h2 Nt (ElIwan Q T s) Y -> forces_agree N Nt w h1 X h2 Y (ElIwan Q T s).
  Proof.
    intros [HF S1] [_ S2]. cbv zeta in S1, S2. destruct (iwan_aft_exact s N Q T h1 Nt Ha1 HN1 He HF) as (st1 & F & dF & E1 & A1 & _).
    destruct (iwan_aft_exact s N Q T h2 Nt Ha2 HN2 He HF) as (st2 & G & dG & E2 & A2 & _).
    exists (ElIwan Q T (st1 X)), (F X), (ElIwan Q T (st2 Y)), (G Y). cbn [element_aft]. rewrite E1, E2. cbn [bind fst]. split; [reflexivity|]. split; [reflexivity|].
    pose proof (A1 X S1) as B1. pose proof (A2 Y S2) as B2. clear A1 A2 S1 S2. rewrite (repeat_U N h1 Nt HN1 X Q 0) in B1. rewrite repeat_equal in B2.
    destruct (finite_choice _ 0 (iw_n s) (fun i Hi => jenkins_starts 1 (iw_phi s i) Q 0 (local_first_coef N Q X) (local_first_coef N Q Y) (HF i Hi))) as (a & Ca).
    apply (agree_samples (F X) (G Y) (fun i n => T i O * bank_law (iw_n s) (iw_w s) (iw_phi s) (at1 Q O) (local_first_coef N Q X) (Nt + n))
      (fun i n => T i O * bank_law (iw_n s) (iw_w s) (iw_phi s) (at1 Q O) (local_first_coef N Q Y) (Nt + n))
      (fun i => T i O * rsum (iw_n s) (fun k => iw_w s k * a k))).
    - intros c i Hc Hi. rewrite fourier_coef_scal. apply B1; assumption.
    - intros c i Hc Hi. rewrite fourier_coef_scal. apply B2; assumption.
    - intros H0 i _. rewrite rsum_zero; [ring|]. intros j Hj. destruct (Ca j Hj) as (Ea & _). rewrite Ea; [ring|]. symmetry. apply first_same. exact H0.
    - intros i n _ _. rewrite <- Rmult_plus_distr_l. f_equal. unfold bank_law. rewrite <- rsum_plus. apply rsum_ext. intros j Hj. destruct (Ca j Hj) as (_ & L1). rewrite L1. ring.
  Qed.

  Lemma eldry_agree q ne Q T s w : steady_evaluation N h1 Nt (ElEldry q ne Q T s) X -> steady_evaluation N h2 Nt (ElEldry q ne Q T s) Y -> forces_agree N Nt w h1 X h2 Y (ElEldry q ne Q T s).
  Proof.
    intros (H1 & H2 & H3 & H4 & H5) (_ & _ & _ & _ & H6). set (P := ed_pars s) in *.
    destruct (eldry_aft_exact q ne N Q T P (ed_u0 s) h1 Nt H1 H2 Ha1 HN1 He H5 H3 H4) as (F & dU & dw & E & HA & _).
    destruct (eldry_aft_exact q ne N Q T P (ed_u0 s) h2 Nt H1 H2 Ha2 HN2 He H6 H3 H4) as (G & dU' & dw' & E' & HB & _).
    exists (ElEldry q ne Q T s), (F X w), (ElEldry q ne Q T s), (G Y w). cbn [element_aft]. fold P. rewrite E, E'. cbn [bind fst]. split; [reflexivity|]. split; [reflexivity|].
    pose proof (HA X w) as A1. pose proof (HB Y w) as A2. clear HA HB. cbv zeta in A1, A2.
    set (s0 := match ed_u0 s with None => fun d => rsum N (fun j => Q d j * X j) | Some x => x end) in *.
    set (s1 := match ed_u0 s with None => fun d => rsum N (fun j => Q d j * Y j) | Some x => x end) in *.
    assert (Es : In O h1 -> forall d, s1 d = s0 d) by (intros H0 d; unfold s0, s1; destruct (ed_u0 s); [reflexivity|symmetry; apply first_same; exact H0]).
    assert (CD : forall d, (d < q * ne)%nat -> exists a, (s1 d = s0 d -> a = 0) /\ forall n,
      contact_history q (ep_kt P) (ep_kn P) (ep_mu P) (ep_gap P) (at1 Q) s0 d (Nt + n) = contact_history q (ep_kt P) (ep_kn P) (ep_mu P) (ep_gap P) (at1 Q) s1 d (Nt + n) + a).
    { intros d _. destruct (contact_delay N h1 Nt 0 HN1 X q (ep_kt P) (ep_kn P) (ep_mu P) (ep_gap P) Q d s1 s0 H3 H4) as [(a & Ea & A) _]. exists a. split; [exact Ea|exact A]. }
    destruct (finite_choice _ 0 (q * ne) CD) as (a & Hl).
    apply (agree_samples _ _ (fun i n => rsum (q * ne) (fun d => T i d * contact_history q (ep_kt P) (ep_kn P) (ep_mu P) (ep_gap P) (at1 Q) s0 d (Nt + n)))
      (fun i n => rsum (q * ne) (fun d => T i d * contact_history q (ep_kt P) (ep_kn P) (ep_mu P) (ep_gap P) (at1 Q) s1 d (Nt + n)))
      (fun i => rsum (q * ne) (fun d => T i d * a d))).
    - intros c i Lc Li. rewrite (A1 c i Lc Li). rewrite (fourier_coef_rsum Nt (q * ne) (fun d n => T i d * contact_history q (ep_kt P) (ep_kn P) (ep_mu P) (ep_gap P) (at1 Q) s0 d (Nt + n))).
      apply rsum_ext. intros d Hd. rewrite fourier_coef_scal. do 2 f_equal. apply functional_extensionality. intros n. f_equal. apply functional_extensionality. intros e. apply (repeat_U N h1 Nt HN1).
    - intros c i Lc Li. rewrite (A2 c i Lc Li). rewrite (fourier_coef_rsum Nt (q * ne) (fun d n => T i d * contact_history q (ep_kt P) (ep_kn P) (ep_mu P) (ep_gap P) (at1 Q) s1 d (Nt + n))).
      apply rsum_ext. intros d Hd. rewrite fourier_coef_scal. do 2 f_equal. apply functional_extensionality. intros n. f_equal. apply functional_extensionality. intros e. apply repeat_equal.
    - intros H0 i _. apply rsum_zero. intros d Hd. destruct (Hl d Hd) as [Ea _]. rewrite Ea by (apply Es; exact H0). ring.
    - intros i n _ _. rewrite <- rsum_plus. apply rsum_ext. intros d Hd. destruct (Hl d Hd) as (_ & L1). rewrite L1. ring.
  Qed.

  Lemma instant_agree f w : sampled_element N (ElInstant f) -> forces_agree N Nt w h1 X h2 Y (ElInstant f).
  Proof.
    intros (psi & Hl & Hf).
    set (v := fun j => dseries h1 (dof_coefs N X j)). assert (Hv : phase_velocity N h1 X v) by apply velocity_exists.
    assert (Hv2 : phase_velocity N h2 Y v) by (intros j t Hj; apply dlim_ext with (series h1 (dof_coefs N X j)); [intros s; apply HXY; exact Hj|apply Hv; exact Hj]).
    destruct (Hf h1 Nt Ha1 HN1 He X w v Hv) as (F & dF & dw & E1 & A1). destruct (Hf h2 Nt Ha2 HN2 He Y w v Hv2) as (G & dG & dw' & E2 & A2).
    exists (ElInstant f), F, (ElInstant f), G. cbn [element_aft]. rewrite E1, E2. cbn [bind fst]. split; [reflexivity|]. split; [reflexivity|].
    set (x := fun i n => psi (fun j => series h1 (dof_coefs N X j) (sample_phase Nt n)) (fun j => w * v j (sample_phase Nt n)) i) in *.
    apply (agree_samples F G x x (fun _ => 0)).
    - exact A1.
    - intros c i Hc Hi. rewrite (A2 c i Hc Hi). apply fourier_coef_ext. intros n _. apply Hl. intros j Hj. rewrite (HXY j _ Hj). split; reflexivity.
    - reflexivity.
    - intros. ring.
  Qed.

  Lemma jenkins_mean Q T s w : In O h1 -> 0 <= j_Fs s -> forces_agree N Nt w h1 X h2 Y (ElJenkins Q T s).
  Proof.
    intros H0 HF. set (law := jenkins_law (j_kt s) (j_Fs s) (at1 Q O) (local_first_coef N Q X)).
    assert (U1 : repeat_samples Nt (fun n => local_motion N Q h1 X 0 (sample_phase Nt n)) = at1 Q O) by (apply (repeat_U N h1 Nt HN1 X Q 0)).
    assert (U2 : local_first_coef N Q Y = local_first_coef N Q X) by (symmetry; apply first_same; exact H0).
    destruct (Rlt_dec default_tol (Rabs (law (Nt - 1)%nat))) as [S|S].
    - apply jenkins_agree; (split; [exact HF|]); cbv zeta; [rewrite U1|rewrite repeat_equal, U2]; exact S.
    - apply Rnot_lt_le in S.
      destruct (jenkins_aft_early s N Q T h1 Nt Ha1 HN1 He HF X) as (s1 & F & dF & E1 & A1); [rewrite U1; exact S|].
      destruct (jenkins_aft_early s N Q T h2 Nt Ha2 HN2 He HF Y) as (s2 & G & dG & E2 & A2); [rewrite repeat_equal, U2; exact S|].
      rewrite U1 in A1. rewrite repeat_equal, U2 in A2. fold law in A1, A2.
      exists (ElJenkins Q T s1), F, (ElJenkins Q T s2), G. cbn [element_aft]. rewrite E1, E2. cbn [bind fst]. split; [reflexivity|]. split; [reflexivity|].
      intros c1 c2 i L1 L2 Hi E. rewrite A1, A2, E by assumption. reflexivity.
  Qed.

  Lemma iwan_mean Q T s w : In O h1 -> phi_ok s -> forces_agree N Nt w h1 X h2 Y (ElIwan Q T s).
  Proof.
    intros H0 HF. set (law := bank_law (iw_n s) (iw_w s) (iw_phi s) (at1 Q O) (local_first_coef N Q X)).
    assert (U1 : repeat_samples Nt (fun n => local_motion N Q h1 X 0 (sample_phase Nt n)) = at1 Q O) by (apply (repeat_U N h1 Nt HN1 X Q 0)).
    assert (U2 : local_first_coef N Q Y = local_first_coef N Q X) by (symmetry; apply first_same; exact H0).
    destruct (Rlt_dec default_tol (Rabs (law (Nt - 1)%nat))) as [S|S].
    - apply iwan_agree; (split; [exact HF|]); cbv zeta; [rewrite U1|rewrite repeat_equal, U2]; exact S.
    - apply Rnot_lt_le in S.
      destruct (iwan_aft_early s N Q T h1 Nt X Ha1 HN1 He HF) as (s1 & F & dF & E1 & A1); [rewrite U1; exact S|].
      destruct (iwan_aft_early s N Q T h2 Nt Y Ha2 HN2 He HF) as (s2 & G & dG & E2 & A2); [rewrite repeat_equal, U2; exact S|].
      rewrite U1 in A1. rewrite repeat_equal, U2 in A2. fold law in A1, A2.
      exists (ElIwan Q T s1), F, (ElIwan Q T s2), G. cbn [element_aft]. rewrite E1, E2. cbn [bind fst]. split; [reflexivity|]. split; [reflexivity|].
      intros c1 c2 i L1 L2 Hi E. rewrite A1, A2, E by assumption. reflexivity.
  Qed.

  Lemma comps_longer : (1 < length (components h1))%nat -> (1 < length (components h2))%nat.
  Proof.
    intros H. assert (D : NoDup (components h1)) by (apply NoDup_components; apply Ha1). pose proof (NoDup_incl_length D comp_incl). lia.
  Qed.

  Lemma element_start w e : sampled_element N e -> same_start N Nt h1 X h2 Y e -> forces_agree N Nt w h1 X h2 Y e.
  Proof.
    intros Hs [Hp S]. destruct e; try contradiction.
    - apply instant_agree; exact Hs.
    - destruct S as [H0|[S1 S2]]; [apply jenkins_mean|apply jenkins_agree]; assumption.
    - destruct S as [H0|[S1 S2]]; [apply iwan_mean|apply iwan_agree]; assumption.
    - destruct Hp as (A & B & C & D & E). apply eldry_agree; repeat split; try assumption. apply comps_longer; exact E.
    - destruct Hp as (A & B). apply jax_jenkins_agree; split; try assumption. apply comps_longer; exact B.
  Qed.

  Lemma element_agree w e : sampled_element N e -> steady_evaluation N h1 Nt e X -> steady_evaluation N h2 Nt e Y -> forces_agree N Nt w h1 X h2 Y e.
  Proof.
    intros Hs S1 S2. destruct e; try contradiction; [apply instant_agree; exact Hs|apply jenkins_agree; assumption|apply iwan_agree; assumption|apply eldry_agree; assumption|apply jax_jenkins_agree; assumption].
  Qed.
End Pair.

(** * Whole systems *)
Section System.
  Variables (N Nt : nat) (h1 h2 : list nat).
  Hypothesis Ha1 : admissible h1.
  Hypothesis Ha2 : admissible h2.
  Hypothesis Hin : incl h1 h2.
  Hypothesis HN2 : (2 * list_max h2 + 1 < Nt)%nat.
  Hypothesis He : Nat.even Nt = true.
  Let n1 := (length (components h1) * N)%nat.
  Let n2 := (length (components h2) * N)%nat.

  Lemma agree_aft w X Y : forall els F0 G0, (forall e, In e els -> forces_agree N Nt w h1 X h2 Y e) -> agrees_on N h1 F0 h2 G0 ->
    exists l1 F l2 G, sys_aft N els X w h1 Nt (Some F0) = (l1, Ok (Some F)) /\ sys_aft N els Y w h2 Nt (Some G0) = (l2, Ok (Some G)) /\ agrees_on N h1 F h2 G.
  Proof.
    induction els as [|e els IH]; intros F0 G0 Hf HD; cbn [sys_aft]; [exists [], F0, [], G0; auto|].
    destruct (Hf e (or_introl eq_refl)) as (e1 & F & e2 & G & -> & -> & HFG). cbn [oadd].
    destruct (IH (vadd F0 F) (vadd G0 G)) as (l1 & F' & l2 & G' & -> & -> & H'); [intros x Hx; apply Hf; right; exact Hx| |].
    - intros c1 c2 i L1 L2 Hi E. unfold vadd. rewrite (HD c1 c2 i L1 L2 Hi E), (HFG c1 c2 i L1 L2 Hi E). reflexivity.
    - exists (e1 :: l1), F', (e2 :: l2), G'. auto.
  Qed.

  Lemma more_harmonics M C K els X Y Fl1 Fl2 : X n1 <> 0 -> Y n2 = X n1 -> agrees_on N h1 X h2 Y -> zero_beyond N h1 h2 Y -> agrees_on N h1 Fl1 h2 Fl2 ->
    (forall e, In e els -> sampled_element N e /\ same_start N Nt h1 (take n1 X) h2 (take n2 Y) e) ->
    exists l1 R1 l2 R2 l3 G, sys_hbm_res N M C K els X Fl1 h1 Nt = (l1, Ok (Some R1)) /\ sys_hbm_res N M C K els Y Fl2 h2 Nt = (l2, Ok (Some R2)) /\
      agrees_on N h1 R1 h2 R2 /\
      sys_aft N els (take n2 Y) (Y n2) h2 Nt (Some vzero) = (l3, Ok (Some G)) /\
      forall c i, (c < length (components h2))%nat -> (i < N)%nat -> ~ In (nth c (components h2) (Cos O)) (components h1) ->
        R2 (c * N + i)%nat = G (c * N + i)%nat - Fl2 (c * N + i)%nat.
  Proof.
    intros Hw Ew HA HZ HFl Hel. pose proof (padded_motion N Nt h1 h2 Ha1 Ha2 Hin HN2 X Y HA HZ) as HXY.
    destruct (same_stiffness N h1 h2 Ha1 Ha2 M C K (X n1) X Y Hw HXY) as (E1 & dE1 & E2 & dE2 & HE1 & HE2 & HD).
    destruct (motion_padded N Nt h1 h2 Ha1 Ha2 Hin HN2 _ _ HD) as [DA DZ].
    assert (Z : agrees_on N h1 vzero h2 vzero) by (intros c1 c2 i _ _ _ _; reflexivity).
    destruct (agree_aft (X n1) (take n1 X) (take n2 Y) els vzero vzero) as (l1 & F & l2 & G & A1 & A2 & HFG); [|exact Z|].
    { intros e Hin'. destruct (Hel e Hin') as (Hs & S1). apply element_start; try assumption. apply (same_take N Nt h1 h2); assumption. }
    unfold sys_hbm_res. rewrite !nhc_aft. fold n1 n2. rewrite Ew, HE1, HE2, A1, A2. cbn [bind].
    eexists l1, _, l2, _, l2, G. split; [reflexivity|]. split; [reflexivity|]. split; [|split; [reflexivity|]].
    - intros c1 c2 i L1 L2 Hi E. cbv beta. pose proof (DA c1 c2 i L1 L2 Hi E) as D. fold n1 n2 in D. rewrite D, (HFG c1 c2 i L1 L2 Hi E), (HFl c1 c2 i L1 L2 Hi E). reflexivity.
    - intros c i L Hi I. cbv beta. pose proof (DZ c i L Hi I) as D. fold n2 in D. rewrite D. ring.
  Qed.
End System.

Lemma elements_padded N Nt h1 h2 : admissible h1 -> admissible h2 -> incl h1 h2 -> (2 * list_max h2 + 1 < Nt)%nat -> Nat.even Nt = true ->
  forall X Y, agrees_on N h1 X h2 Y -> zero_beyond N h1 h2 Y -> forall w e, sampled_element N e -> same_start N Nt h1 X h2 Y e ->
  forces_agree N Nt w h1 X h2 Y e.
Proof. intros Ha1 Ha2 Hi HN He X Y HA HZ w e Hs St. apply element_start; try assumption. apply (padded_motion N Nt); assumption. Qed.

Lemma more_harmonics_solution N Nt h1 h2 : admissible h1 -> admissible h2 -> incl h1 h2 -> (2 * list_max h2 + 1 < Nt)%nat -> Nat.even Nt = true ->
  let n1 := (length (components h1) * N)%nat in let n2 := (length (components h2) * N)%nat in
  forall M C K els X Y Fl1 Fl2, X n1 <> 0 -> Y n2 = X n1 -> agrees_on N h1 X h2 Y -> zero_beyond N h1 h2 Y -> agrees_on N h1 Fl1 h2 Fl2 ->
  (forall e, In e els -> sampled_element N e /\ same_start N Nt h1 (take n1 X) h2 (take n2 Y) e) ->
  exists l1 R1 l2 R2 l3 G, sys_hbm_res N M C K els X Fl1 h1 Nt = (l1, Ok (Some R1)) /\ sys_hbm_res N M C K els Y Fl2 h2 Nt = (l2, Ok (Some R2)) /\
    sys_aft N els (take n2 Y) (Y n2) h2 Nt (Some vzero) = (l3, Ok (Some G)) /\
    ((forall r, (r < n2)%nat -> R2 r = 0) <-> (forall r, (r < n1)%nat -> R1 r = 0) /\
       forall c i, (c < length (components h2))%nat -> (i < N)%nat -> ~ In (nth c (components h2) (Cos O)) (components h1) -> G (c * N + i)%nat = Fl2 (c * N + i)%nat).
Proof.
  intros Ha1 Ha2 Hi HN He n1 n2 M C K els X Y Fl1 Fl2 Hw Ew HA HZ HFl Hel.
  destruct (more_harmonics N Nt h1 h2 Ha1 Ha2 Hi HN He M C K els X Y Fl1 Fl2 Hw Ew HA HZ HFl Hel) as (l1 & R1 & l2 & R2 & l3 & G & E1 & E2 & HR & E3 & HO).
  exists l1, R1, l2, R2, l3, G. split; [exact E1|]. split; [exact E2|]. split; [exact E3|]. split.
  - intros Z. split.
    + intros r Hr. destruct (block_form _ _ _ Hr) as (c & i & Hc & Hi' & ->).
      destruct (component_index h2 _ (comp_incl h1 h2 Hi _ (nth_In (components h1) (Cos O) Hc))) as (c2 & L & E).
      rewrite (HR c c2 i Hc L Hi' (eq_sym E)). apply Z. unfold n2. nia.
    + intros c i Hc Hi' I. assert (Q : R2 (c * N + i)%nat = 0) by (apply Z; unfold n2; nia). rewrite (HO c i Hc Hi' I) in Q. lra.
  - intros [Z Q] r Hr. destruct (block_form _ _ _ Hr) as (c & i & Hc & Hi' & ->).
    destruct (in_dec comp_dec (nth c (components h2) (Cos O)) (components h1)) as [I|I].
    + destruct (component_index h1 _ I) as (c1 & L & E). rewrite <- (HR c1 c i L Hc Hi' E). apply Z. unfold n1. nia.
    + rewrite (HO c i Hc Hi' I), (Q c i Hc Hi' I). ring.
Qed.
