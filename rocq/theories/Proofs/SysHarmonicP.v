(** Harmonic residual of a system around a static state. *)
From Coq Require Import Reals Lra Lia Arith List Bool FunctionalExtensionality.
From Verif.Lib Require Import RSum Calc Py.
From Verif.Spec Require Import Calculus Harmonic Elements System Slider Rough StaticHistory SystemCalls SysVibration.
From Verif.Model Require Import Harmonic LocalForces Aft VibSys SysElements Jenkins Iwan JaxDual JaxFloat JaxFriction RoughContact SysHistory SysHarmonic.
From Verif.Proofs Require Import HarmonicP FourierP HarmonicOpsP AftP ElementsP VibSysP SliderP JenkinsP JenkinsDerivP HystAftP EldryP RoughNormalP RoughStaticP RoughCallsP RoughSteadyP RoughHistoryP RoughAftP SysHistoryP SysWorkflowP.
Import ListNotations.
Open Scope R_scope.

Lemma abs_range x a : Rabs x <= a -> - a <= x <= a.
Proof. unfold Rabs. destruct (Rcase_abs x); lra. Qed.

(** a slider that never reaches its limits *)
Lemma slider_sticks kt lo hi u u0 : (forall j, lo j <= kt * (u j - u0) <= hi j) -> forall k, slider kt lo hi u u0 k = kt * (u k - u0).
Proof.
  intros H. induction k as [|k IH]; cbn [slider].
  - apply clamp_id. apply H.
  - rewrite IH. replace (kt * (u k - u0) + kt * (u (S k) - u k)) with (kt * (u (S k) - u0)) by ring. apply clamp_id. apply H.
Qed.
Lemma mindlin_rest kt limit u u0 : (forall j, 0 <= limit j) -> (forall j, u j = u0) -> forall k, mindlin kt limit u u0 k = 0.
Proof.
  intros Hl Hu. induction k as [|k IH]; cbn [mindlin]; rewrite ?IH, !Hu, Rminus_eq_0, Rmult_0_r, ?Rplus_0_l; apply clamp_stays; apply Hl.
Qed.

Section Around.
  Variables (N : nat) (h : list nat) (Nt : nat).
  Hypothesis Ha : admissible h.
  Hypothesis H0 : In O h.
  Hypothesis HN : (2 * list_max h + 1 < Nt)%nat.
  Hypothesis Hev : Nat.even Nt = true.
  Let nhc := length (components h).

  Lemma starts_zero : exists h', h = O :: h'.
  Proof. destruct Ha as (A & B & C). destruct h as [|k h']; [congruence|]. destruct H0 as [->|H]; [eauto|]. contradiction. Qed.
  Lemma basis_zero tau : basis h 0 tau = 1.
  Proof. destruct starts_zero as [h' ->]. unfold basis. cbn. rewrite Rmult_0_l. apply cos_0. Qed.
  Lemma nhc_some : (0 < nhc)%nat.
  Proof. unfold nhc. destruct starts_zero as [h' ->]. cbn. lia. Qed.

  Lemma coef_const a c : (c < nhc)%nat -> coefc h Nt (fun _ => a) c = if Nat.eqb c 0 then a else 0.
  Proof.
    intros Hc. rewrite <- (series_coef Nt h (fun c => if Nat.eqb c 0 then a else 0) c) by (destruct Ha as (_ & ? & _); auto; lia).
    apply coefc_ext. intros n Hn. unfold series. rewrite (rsum_single _ O) by (first [exact nhc_some|intros i _ Hi; destruct (Nat.eqb_spec i 0); [contradiction|ring]]).
    rewrite basis_zero. cbn. ring.
  Qed.
  Lemma coef_motion Q U d c : (c < nhc)%nat -> coefc h Nt (fun n => local_motion N Q h U d (sample_phase Nt n)) c = rsum N (fun j => Q d j * U (c * N + j)%nat).
  Proof.
    intros Hc. rewrite (coefc_ext h Nt _ (fun n => series h (fun c => aft_Unl N Q U c d) (sample_phase Nt n))) by (intros n _; symmetry; apply series_Unl).
    unfold coefc. rewrite series_coef by (destruct Ha as (_ & ? & _); auto; lia). reflexivity.
  Qed.

  Section Motion.
    Variables (X V U : vec).
    Hypothesis HU : vibration_about N h X V U.

    Lemma first_local Q d : rsum N (fun j => Q d j * U j) = local_at N Q X d.
    Proof. apply rsum_ext. intros j Hj. rewrite (proj1 HU) by exact Hj. reflexivity. Qed.
    Lemma coef_local Q d c : (c < nhc)%nat ->
      coefc h Nt (fun n => local_motion N Q h U d (sample_phase Nt n) - local_at N Q X d) c = if Nat.eqb c 0 then 0 else rsum N (fun j => Q d j * V (c * N + j)%nat).
    Proof.
      intros Hc. rewrite (coefc_ext h Nt _ (fun n => local_motion N Q h U d (sample_phase Nt n) + (fun _ => - local_at N Q X d) n)) by (intros; ring).
      rewrite coefc_plus, coef_motion, coef_const by exact Hc. destruct (Nat.eqb_spec c 0) as [->|Hn].
      - cbn [Nat.mul Nat.add]. rewrite first_local. ring.
      - rewrite Rplus_0_r. apply rsum_ext. intros j Hj. rewrite (proj2 HU) by (fold nhc; nia). reflexivity.
    Qed.
    (** coefficients of forces that are linear in the vibration *)
    Lemma coef_affine Q d a b c f : (c < nhc)%nat -> (forall n, (n < Nt)%nat -> f n = a + b * (local_motion N Q h U d (sample_phase Nt n) - local_at N Q X d)) ->
      coefc h Nt f c = if Nat.eqb c 0 then a else b * rsum N (fun j => Q d j * V (c * N + j)%nat).
    Proof.
      intros Hc Hf. rewrite (coefc_ext h Nt f (fun n => (fun _ => a) n + (fun n => b * (local_motion N Q h U d (sample_phase Nt n) - local_at N Q X d)) n)) by exact Hf.
      rewrite coefc_plus, (coefc_scal h Nt b), coef_const, coef_local by exact Hc. destruct (Nat.eqb c 0); ring.
    Qed.
    Lemma mean_above Q d g : (forall n, (n < Nt)%nat -> g < local_motion N Q h U d (sample_phase Nt n)) -> g < local_at N Q X d.
    Proof.
      intros H. assert (E : coefc h Nt (fun n => local_motion N Q h U d (sample_phase Nt n)) 0 = local_at N Q X d) by (rewrite coef_motion by exact nhc_some; apply first_local).
      rewrite <- E. unfold coefc. replace (nth 0 (components h) (Cos 0)) with (Cos 0) by (destruct starts_zero as [h' ->]; reflexivity).
      unfold fourier_coef. cbn [comp_fun]. assert (P : 0 < INR Nt) by (apply lt_0_INR; lia).
      assert (S0 : INR Nt * g < rsum Nt (fun n => local_motion N Q h U d (sample_phase Nt n) * cos (INR 0 * sample_phase Nt n))).
      { assert (Z : forall m, (m <= Nt)%nat -> (0 < m)%nat -> INR m * g < rsum m (fun n => local_motion N Q h U d (sample_phase Nt n) * cos (INR 0 * sample_phase Nt n))).
        { induction m as [|m IH]; intros H1 H2; [lia|]. rewrite S_INR, rsum_S. specialize (H m ltac:(lia)). cbn [INR]. rewrite Rmult_0_l, cos_0.
          destruct (Nat.eq_dec m 0) as [->|]; [cbn; lra|]. specialize (IH ltac:(lia) ltac:(lia)). cbn [INR] in IH. lra. }
        apply Z; lia. }
      apply (Rmult_lt_reg_l (INR Nt)); [exact P|]. replace (INR Nt * (1 / INR Nt * rsum Nt (fun n => local_motion N Q h U d (sample_phase Nt n) * cos (INR 0 * sample_phase Nt n)))) with (rsum Nt (fun n => local_motion N Q h U d (sample_phase Nt n) * cos (INR 0 * sample_phase Nt n))) by (field; lra). exact S0.
    Qed.
  End Motion.

  Lemma rest_motion X U Q d tau : vibration_about N h X (fun _ => 0) U -> local_motion N Q h U d tau = local_at N Q X d.
  Proof.
    intros [H1 H2]. apply rsum_ext. intros j Hj. f_equal. unfold series. rewrite (rsum_single _ O); [|exact nhc_some|].
    - rewrite basis_zero. unfold dof_coefs. cbn [Nat.mul Nat.add]. rewrite H1 by exact Hj. ring.
    - intros c Hc Hn. unfold dof_coefs. rewrite H2 by (fold nhc in Hc |- *; nia). ring.
  Qed.

  (** ---- Jenkins ---- *)
  Lemma jenkins_sticks Q T s X V U : vibration_about N h X V U -> 0 <= j_Fs s ->
    (forall t, (t < Nt)%nat -> Rabs (j_kt s * (local_motion N Q h U 0 (sample_phase Nt t) - local_at N Q X 0)) <= j_Fs s) ->
    exists st F dU dw, jenkins_aft s N Q T U h Nt = Ok (st, (F, dU, dw)) /\
      forall c i, (c < nhc)%nat -> (i < N)%nat -> F (c * N + i)%nat = if Nat.eqb c 0 then 0 else T i O * j_kt s * rsum N (fun j => Q O j * V (c * N + j)%nat).
  Proof.
    intros HU HF Hs. destruct (jenkins_aft_value s N Q T h Nt Ha HN Hev HF U) as (st & F & dU & E & EF & _).
    exists st, F, dU, (fun _ => 0). split; [exact E|]. intros c i Hc Hi. rewrite EF by nia. unfold aft_global.
    destruct (divmod_block N c i Hi) as [-> ->]. unfold matvec. rewrite rsum_S. cbn [rsum]. rewrite Rplus_0_l.
    unfold jF. rewrite (coef_affine X V U HU Q 0 0 (j_kt s) c _ Hc).
    - destruct (Nat.eqb c 0); ring.
    - intros n Hn. rewrite jhist_loc by assumption. unfold aft_history.
      destruct (jenkins_history_default s Nt (fun n => local_motion N Q h U 0 (sample_phase Nt n)) (fun n c => series h (eye_col c) (sample_phase Nt n)) (aft_Unl N Q U 0 0) ltac:(lia) HF) as [_ Hv].
      rewrite (proj1 (Hv n Hn)). unfold pass_law, jenkins_law.
      assert (Eu : aft_Unl N Q U 0 0 = local_at N Q X 0) by (rewrite <- (first_local X V U HU Q 0); reflexivity). rewrite Eu.
      rewrite slider_sticks.
      + rewrite Rplus_0_l. f_equal. f_equal. unfold repeat_samples. rewrite Nat.add_comm, Nat.mod_add, Nat.mod_small by lia. reflexivity.
      + intros j. unfold repeat_samples. pose proof (Hs (j mod Nt)%nat ltac:(apply Nat.mod_upper_bound; lia)) as Hj. apply abs_range in Hj. lra.
  Qed.

  (** ---- elastic dry friction ---- *)
  Lemma eldry_sticks p ne Q T kt kn mu gap w X V U : (0 < p)%nat -> (0 < ne)%nat -> (1 < nhc)%nat -> 0 < kn -> 0 <= mu -> vibration_about N h X V U ->
    (forall d t, (d < p * ne)%nat -> (t < Nt)%nat -> let u := fun d => local_motion N Q h U d (sample_phase Nt t) in
       gap < u (normal_dof p d) /\ (d <> normal_dof p d -> Rabs (kt * (u d - local_at N Q X d)) <= mu * (kn * (u (normal_dof p d) - gap)))) ->
    exists F dU dw, eldry_aft p ne N Q T (mkEP kt kn mu gap) (Some (matvec N Q X)) U w h Nt = Ok (F, dU, dw) /\
      forall c i, (c < nhc)%nat -> (i < N)%nat -> F (c * N + i)%nat = rsum (p * ne) (fun d => T i d *
        if Nat.eqb c 0 then contact_history p kt kn mu gap (fun d _ => local_at N Q X d) (local_at N Q X) d 0
        else (if Nat.eqb d (normal_dof p d) then kn else kt) * rsum N (fun j => Q d j * V (c * N + j)%nat)).
  Proof.
    intros Hp Hne Hnh Hkn Hmu HU Hs.
    destruct (eldry_aft_exact p ne N Q T (mkEP kt kn mu gap) (Some (matvec N Q X)) h Nt Hp Hne Ha HN Hev Hnh Hkn Hmu) as (F & dU & dw & E & EF & _).
    exists (F U w), (dU U w), (dw U w). split; [apply E|]. intros c i Hc Hi. rewrite EF by assumption. cbv zeta. cbn [ep_kt ep_kn ep_mu ep_gap].
    apply rsum_ext. intros d Hd. f_equal. change (matvec N Q X) with (local_at N Q X).
    change (coefc h Nt (fun n => contact_history p kt kn mu gap (fun d => repeat_samples Nt (fun n => local_motion N Q h U d (sample_phase Nt n))) (local_at N Q X) d (Nt + n)) c = if Nat.eqb c 0 then contact_history p kt kn mu gap (fun d _ => local_at N Q X d) (local_at N Q X) d 0 else (if Nat.eqb d (normal_dof p d) then kn else kt) * rsum N (fun j => Q d j * V (c * N + j)%nat)).
    assert (Wrap : forall n, (n < Nt)%nat -> ((Nt + n) mod Nt = n)%nat) by (intros n Hn; replace (Nt + n)%nat with (n + 1 * Nt)%nat by lia; rewrite Nat.mod_add, Nat.mod_small by lia; reflexivity).
    unfold contact_history. destruct (Nat.eqb_spec d (normal_dof p d)) as [Ed|Ed].
    - apply (coef_affine X V U HU Q d _ kn c _ Hc). intros n Hn. unfold repeat_samples. rewrite (Wrap n Hn). rewrite <- Ed.
      assert (Hx : gap < local_at N Q X d).
      { apply (mean_above X V U HU). intros m Hm. destruct (Hs d m Hd Hm) as [A _]. rewrite <- Ed in A. exact A. }
      destruct (Hs d n Hd Hn) as [A _]. cbv zeta in A. rewrite <- Ed in A.
      unfold contact_force. destruct (Rlt_dec _ _); [|contradiction]. destruct (Rlt_dec _ _); [|contradiction]. ring.
    - assert (Z : friction_law kt mu (fun _ => contact_force kn gap (local_at N Q X (normal_dof p d))) (fun _ => local_at N Q X d) (local_at N Q X d) 0 = 0).
      { unfold friction_law. rewrite slider_sticks; [rewrite Rminus_eq_0; ring|]. intros _. rewrite Rminus_eq_0, Rmult_0_r.
        assert (0 <= mu * contact_force kn gap (local_at N Q X (normal_dof p d))) by (apply Rmult_le_pos; [exact Hmu|apply contact_nonneg; lra]). lra. }
      rewrite Z. apply (coef_affine X V U HU Q d 0 kt c _ Hc). intros n Hn. unfold friction_law. rewrite slider_sticks.
      + unfold repeat_samples. rewrite (Wrap n Hn). ring.
      + intros j. unfold repeat_samples. destruct (Hs d (j mod Nt)%nat Hd ltac:(apply Nat.mod_upper_bound; lia)) as [A B]. cbv zeta in A, B. specialize (B Ed). apply abs_range in B.
        unfold contact_force. destruct (Rlt_dec _ _); [|contradiction]. lra.
  Qed.

  (** at rest the contact may also be open *)
  Lemma eldry_rests p ne Q T kt kn mu gap w X U : (0 < p)%nat -> (0 < ne)%nat -> (1 < nhc)%nat -> 0 < kn -> 0 <= mu -> vibration_about N h X (fun _ => 0) U ->
    exists F dU dw, eldry_aft p ne N Q T (mkEP kt kn mu gap) (Some (matvec N Q X)) U w h Nt = Ok (F, dU, dw) /\
      forall c i, (c < nhc)%nat -> (i < N)%nat -> F (c * N + i)%nat =
        if Nat.eqb c 0 then rsum (p * ne) (fun d => T i d * contact_history p kt kn mu gap (fun d _ => local_at N Q X d) (local_at N Q X) d 0) else 0.
  Proof.
    intros Hp Hne Hnh Hkn Hmu HU.
    destruct (eldry_aft_exact p ne N Q T (mkEP kt kn mu gap) (Some (matvec N Q X)) h Nt Hp Hne Ha HN Hev Hnh Hkn Hmu) as (F & dU & dw & E & EF & _).
    exists (F U w), (dU U w), (dw U w). split; [apply E|]. intros c i Hc Hi. rewrite EF by assumption. cbv zeta. cbn [ep_kt ep_kn ep_mu ep_gap].
    transitivity (rsum (p * ne) (fun d => T i d * (if Nat.eqb c 0 then contact_history p kt kn mu gap (fun d _ => local_at N Q X d) (local_at N Q X) d 0 else 0))).
    - apply rsum_ext. intros d Hd. f_equal. rewrite <- (coef_const _ c Hc). apply coefc_ext. intros n Hn. change (matvec N Q X) with (local_at N Q X).
      assert (Eu : (fun d => repeat_samples Nt (fun n => local_motion N Q h U d (sample_phase Nt n))) = (fun d (_ : nat) => local_at N Q X d)).
      { apply functional_extensionality. intros e. apply functional_extensionality. intros k. unfold repeat_samples. apply rest_motion. exact HU. }
      rewrite Eu. unfold contact_history. destruct (Nat.eqb d (normal_dof p d)); [reflexivity|]. unfold friction_law.
      assert (P : 0 <= mu * contact_force kn gap (local_at N Q X (normal_dof p d))) by (apply Rmult_le_pos; [exact Hmu|apply contact_nonneg; lra]).
      rewrite !slider_sticks; [reflexivity| |]; intros j; rewrite Rminus_eq_0, Rmult_0_r; lra.
    - destruct (Nat.eqb c 0); [reflexivity|]. apply rsum_zero. intros; ring.
  Qed.

  (** ---- rough contact ---- *)
  Lemma first_cycle sol x g : physical sol -> 0 <= g -> cycle_force sol x x = asperity_force sol (0 - g) 0 x.
  Proof.
    intros Hp Hg. rewrite peak_force by assumption. unfold cycle_force. destruct (Rlt_dec x _); [reflexivity|]. destruct (Rlt_dec _ x) as [Hx|]; [|reflexivity].
    pose proof (limit_pos sol Hp) as Hy. pose proof (plastic_pos sol Hp x ltac:(lra)) as P. unfold solid_unloading. destruct (mat_spec sol Hp) as (mR & _ & mE & _). rewrite <- mR, <- mE.
    apply (unloading_at_max _ (mat_good sol Hp)); lra.
  Qed.
  Lemma cycle_nonneg sol x g : physical sol -> 0 <= g -> 0 <= cycle_force sol x x.
  Proof. intros Hp Hg. rewrite (first_cycle sol x g Hp Hg). apply force_nonneg; [exact Hp|]. apply (mem_ok_start sol). exact Hg. Qed.

  Lemma rough_rests Q T r s sol w X U : physical sol -> r_mat r = mat_of sol -> (forall i, (i < r_n r)%nat -> 0 <= r_meso r + r_gaps r i) ->
    0 <= rs_mu s -> r_model r = TAN -> rs_aft_u0 s = matvec N Q X -> (1 < nhc)%nat -> vibration_about N h X (fun _ => 0) U ->
    exists F G, rough_aft r N Q T s U w h Nt 2 = Ok (Some F, G) /\
      forall c i, (c < nhc)%nat -> (i < N)%nat -> F (c * N + i)%nat =
        if Nat.eqb c 0 then rsum 3 (fun d => T i d * if Nat.ltb d 2 then 0 else rsum (r_n r) (fun a => r_weights r a *
          asperity_force sol (0 - (r_meso r + r_gaps r a)) 0 (local_at N Q X 2 - (r_meso r + r_gaps r a)))) else 0.
  Proof.
    intros Hp Hm Hg Hmu Hmod Hst Hnh HU.
    destruct (aft_forces sol r N Q T s h Nt Hp Hm Hg Hmu ltac:(rewrite Hmod; exact I) Ha HN Hev Hnh U w 1) as (F & G & E & f & EF & Ef).
    exists F, G. split; [exact E|]. intros c i Hc Hi. rewrite EF by assumption.
    transitivity (rsum 3 (fun d => T i d * (if Nat.eqb c 0 then (if Nat.ltb d 2 then 0 else rsum (r_n r) (fun a => r_weights r a *
          asperity_force sol (0 - (r_meso r + r_gaps r a)) 0 (local_at N Q X 2 - (r_meso r + r_gaps r a)))) else 0))).
    - apply rsum_ext. intros d Hd. f_equal. rewrite <- (coef_const _ c Hc). apply coefc_ext. intros t Ht. destruct (Ef t Ht) as (um & Hum & Hn & Htan).
      assert (Eum : um = local_at N Q X 2) by (destruct Hum as [_ (t' & _ & <-)]; apply rest_motion; exact HU).
      destruct (Nat.ltb_spec d 2) as [Hd2|Hd2].
      + destruct (Htan d Hd2) as [Hf _]. rewrite (Hf Hmod). apply rsum_zero. intros a Hla. unfold cycle_friction. rewrite mindlin_rest; [ring| |].
        * intros j. apply Rmult_le_pos; [exact Hmu|]. unfold repeat_samples. rewrite (rest_motion X U Q 2 _ HU), Eum. apply (cycle_nonneg sol _ (r_meso r + r_gaps r a) Hp (Hg a Hla)).
        * intros j. unfold repeat_samples. rewrite Hst. apply rest_motion. exact HU.
      + assert (d = 2%nat) by lia. subst d. rewrite Hn. apply rsum_ext. intros a Hla. f_equal. rewrite (rest_motion X U Q 2 _ HU), Eum. apply first_cycle; auto.
    - destruct (Nat.eqb c 0); [reflexivity|]. apply rsum_zero. intros; ring.
  Qed.

  (** ---- elements of the workflow ---- *)
  (** the AFT starts from X *)
  Definition ready (X : vec) (e : element) : Prop :=
    match e with
    | ElEldry _ _ Q _ s => ed_u0 s = Some (matvec N Q X)
    | ElRough Q _ _ s => rs_aft_u0 s = matvec N Q X
    | _ => True
    end.

  Lemma stuck_element l e law X V U w : tracked N (true, l ++ [(false, X)]) e law -> ready X e -> (1 < nhc)%nat -> vibration_about N h X V U -> sticks N h Nt X U e ->
    exists e' F, element_aft N e U w h Nt = Ok (e', Some F) /\ forall c i, (c < nhc)%nat -> (i < N)%nat ->
      F (c * N + i)%nat = if Nat.eqb c 0 then law (l ++ [(false, X)]) true X i else rsum N (fun j => stuck_stiffness N X e i j * V (c * N + j)%nat).
  Proof.
    intros H Hr Hnh HU Hs. inversion H as [f F J HF E1 E2|Q T s kt Fs H0' H1 H2 H3 H4 H5 E1 E2|Q T s n w' phi H1 H2 H3 H4 H5 E1 E2|p ne Q T s kt kn mu gap H0' H1 H2 H3 H4 H5 H6 E1 E2|Q T r s sol H0' H1 H2 H3 H4 H5 H6 E1 E2]; subst e law; cbn [fst snd sticks ready] in *; try contradiction.
    - cbn [friction_in_force] in H4. rewrite H2 in Hs. destruct (jenkins_sticks Q T s X V U HU ltac:(rewrite H4; exact H0') ltac:(rewrite H4; exact Hs)) as (st & F & dU & dw & E & EF).
      cbn [element_aft]. rewrite E. cbn [bind fst]. do 2 eexists. split; [reflexivity|]. intros c i Hc Hi. rewrite EF by assumption. destruct (Nat.eqb c 0).
      + unfold jenkins_static. rewrite !map_app. cbn [map fst snd]. rewrite !slide_snoc. unfold slide. cbn [fst snd friction_in_force]. rewrite (clamp_zero_width _ 0) by reflexivity. rewrite Rminus_eq_0, Rmult_0_r, Rplus_0_r, clamp_stays by exact H0'. ring.
      + cbn [stuck_stiffness]. rewrite <- rsum_scal_l. apply rsum_ext. intros j Hj. ring.
    - cbn [friction_in_force] in H3. rewrite H3, H4 in Hs. cbn [ep_kt ep_kn ep_mu ep_gap] in Hs. destruct Hs as (Hne & Hkn & Hs).
      destruct (eldry_sticks p ne Q T kt kn mu gap w X V U H0' Hne Hnh Hkn H2 HU Hs) as (F & dU & dw & E & EF).
      cbn [element_aft]. rewrite H3, Hr, E. cbn [bind fst]. do 2 eexists. split; [reflexivity|]. intros c i Hc Hi. rewrite EF by assumption. destruct (Nat.eqb c 0).
      + unfold eldry_static. apply rsum_ext. intros d Hd. rewrite last_map_snoc. reflexivity.
      + cbn [stuck_stiffness]. rewrite H3. cbn [ep_kt ep_kn ep_mu ep_gap].
        rewrite (rsum_ext N _ (fun j => rsum (p * ne) (fun d => T i d * (if Nat.eqb d (normal_dof p d) then kn else kt) * Q d j * V (c * N + j)%nat))).
        * rewrite rsum_swap. apply rsum_ext. intros d Hd. rewrite <- Rmult_assoc, <- rsum_scal_l. apply rsum_ext. intros j Hj. ring.
        * intros j Hj. rewrite <- rsum_scal_r. apply rsum_ext. intros d Hd. f_equal. f_equal. f_equal.
          destruct (Rlt_dec gap _) as [|Hn]; [reflexivity|]. exfalso. apply Hn. apply (mean_above X V U HU). intros m Hm. exact (proj1 (Hs d m Hd Hm)).
  Qed.

  Lemma resting_element l e law X U w : tracked N (true, l ++ [(false, X)]) e law -> ready X e -> (1 < nhc)%nat -> vibration_about N h X (fun _ => 0) U -> keeps_static_state N h Nt l e ->
    exists e' F, element_aft N e U w h Nt = Ok (e', Some F) /\ forall c i, (c < nhc)%nat -> (i < N)%nat -> F (c * N + i)%nat = if Nat.eqb c 0 then law (l ++ [(false, X)]) true X i else 0.
  Proof.
    intros H Hr Hnh HU Hs. inversion H as [f F J HF E1 E2|Q T s kt Fs H0' H1 H2 H3 H4 H5 E1 E2|Q T s n w' phi H1 H2 H3 H4 H5 E1 E2|p ne Q T s kt kn mu gap H0' H1 H2 H3 H4 H5 H6 E1 E2|Q T r s sol H0' H1 H2 H3 H4 H5 H6 E1 E2]; subst e law; cbn [fst snd keeps_static_state ready] in *; try contradiction.
    - destruct (Hs X U w HU) as (F' & J' & FU & dU & dw & E1 & E2 & E3 & E4). rewrite HF in E1. injection E1 as <- <-. cbn [element_aft]. rewrite E2. cbn [bind fst]. do 2 eexists. split; [reflexivity|].
      intros c i Hc Hi. destruct (Nat.eqb_spec c 0) as [->|Hn]; [apply E3; exact Hi|]. apply E4. fold nhc. nia.
    - destruct (stuck_element l (ElJenkins Q T s) _ X (fun _ => 0) U w H I Hnh HU) as (e' & F & E & EF).
      + cbn [sticks]. intros t Ht. rewrite (rest_motion X U Q 0 _ HU), Rminus_eq_0, Rmult_0_r, Rabs_R0, H2. exact H0'.
      + exists e', F. split; [exact E|]. intros c i Hc Hi. rewrite EF by assumption. destruct (Nat.eqb c 0); [reflexivity|]. apply rsum_zero. intros; ring.
    - cbn [friction_in_force] in H3. rewrite H3 in Hs. cbn [ep_kn] in Hs. destruct Hs as (Hne & Hkn). destruct (eldry_rests p ne Q T kt kn mu gap w X U H0' Hne Hnh Hkn H2 HU) as (F & dU & dw & E & EF).
      cbn [element_aft]. rewrite H3, Hr, E. cbn [bind fst]. do 2 eexists. split; [reflexivity|]. intros c i Hc Hi. rewrite EF by assumption. destruct (Nat.eqb c 0); [|reflexivity].
      unfold eldry_static. apply rsum_ext. intros d Hd. rewrite last_map_snoc. reflexivity.
    - subst l. cbn [friction_in_force] in H5. destruct (rough_rests Q T r s sol w X U H0' H1 H2 ltac:(rewrite H5; exact H3) H4 Hr Hnh HU) as (F & G & E & EF).
      cbn [element_aft]. rewrite E. cbn [bind fst]. do 2 eexists. split; [reflexivity|]. intros c i Hc Hi. rewrite EF by assumption. destruct (Nat.eqb c 0); [|reflexivity]. symmetry.
      rewrite (law_prestress N true _ _ [] X (tracked_law N _ _ _ H) eq_refl).
      + unfold rough_static. cbn [map memory_after fold_left mem_d mem_F mem_u mem_f friction_in_force]. apply rsum_ext. intros d Hd. f_equal. destruct (Nat.ltb d 2); [|reflexivity].
        apply rsum_zero. intros a Hla. unfold asperity_friction. rewrite (clamp_zero_width _ (0 * _)) by ring. ring.
      + cbn [settled]. intros sol' Hp' Hsol' a Hla. cbn [map memory_after fold_left mem_d mem_F]. right. right. apply force_nonneg; [exact Hp'|]. apply (mem_ok_start sol'). exact (H2 a Hla).
  Qed.
End Around.
