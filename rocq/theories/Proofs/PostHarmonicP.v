(** local_harmonic_forces reproduces the forces of aft. *)
From Coq Require Import Reals Lra Lia Arith List Bool FunctionalExtensionality.
From Verif.Lib Require Import RSum Calc Py.
From Verif.Spec Require Import Harmonic Calculus Elements Slider JenkinsCalls IwanCalls LocalResults.
From Verif.Model Require Import Jenkins VectorJenkins Harmonic LocalForces Aft Iwan JaxDual JaxFriction JaxVectorJenkins PostHarmonic.
From Verif.Proofs Require Import HarmonicP FourierP HarmonicOpsP AftP SliderP JenkinsP VectorJenkinsP JenkinsDerivP HysteresisP HystAftP IwanP VectorIwanP EldryP EldryCasesP.
Import ListNotations.
Open Scope R_scope.

Lemma not_converged_same tol f : (tol < Rabs f <-> default_tol < Rabs f) ->
  not_converged tol default_tol (Rabs (f - 0)) f = not_converged default_tol default_tol (Rabs (f - 0)) f.
Proof.
  intros H. unfold not_converged. f_equal. rewrite Rminus_0_r.
  destruct (Rltb tol (Rabs f)) eqn:A, (Rltb default_tol (Rabs f)) eqn:B; try reflexivity; exfalso;
    rewrite ?Rltb_true, ?Rltb_false in A; rewrite ?Rltb_true, ?Rltb_false in B; lra.
Qed.

Section Post.
  Variables (N : nat) (U : vec) (w : R) (h : list nat) (Nt : nat) (tol : R).
  Hypothesis Ha : admissible h.
  Hypothesis HN : (2 * list_max h + 1 < Nt)%nat.
  Hypothesis Hev : Nat.even Nt = true.
  Let nhc := length (components h).
  Let NtP : (0 < Nt)%nat. Proof. lia. Qed.

  Lemma rows_seq (u : vec) (cst : nat -> vec) : map (fun j => (u j, cst j)) (seq 0 Nt) = rows Nt u cst.
  Proof. reflexivity. Qed.

  (** forces of aft and of the post-processing from one force history per local degree of freedom *)
  Lemma reproduce_from (m : member) (F : nat -> vec) (ut ft Fh : nat -> vec) (Fnl : vec) :
    (forall d n, (n < Nt)%nat -> ut d n = series h (fun c => aft_Unl N (mb_Q m) U c d) (sample_phase Nt n)) ->
    (forall d c, (c < nhc)%nat -> Fh d c = coefc h Nt (ft d) c) ->
    (forall d c, (d < mb_nnl m)%nat -> (c < nhc)%nat -> F d c = Fh d c) ->
    (forall c i, (c < nhc)%nat -> (i < N)%nat -> Fnl (c * N + i)%nat = aft_global N (mb_nnl m) (mb_T m) F (c * N + i)%nat) ->
    reproduces N m U h Nt Fnl (mkLocal (fun c d => aft_Unl N (mb_Q m) U c d) ut Fh ft).
  Proof.
    intros Hut HFh HF HFnl. split; [|split; [|split]]; cbn [lr_Uh lr_ut lr_Fh lr_ft].
    - reflexivity.
    - intros d n Hn. rewrite Hut by exact Hn. apply series_Unl.
    - exact HFh.
    - intros c i Hc Hi. rewrite HFnl by assumption. unfold aft_global. destruct (divmod_block N c i Hi) as [-> ->].
      unfold matvec. apply rsum_ext. intros d Hd. rewrite HF by assumption. reflexivity.
  Qed.

  Lemma jenkins_same s (u : vec) (cst : nat -> vec) x : 0 <= j_Fs s ->
    (let f := Rabs (jenkins_law (j_kt s) (j_Fs s) (repeat_samples Nt u) x (Nt - 1)) in (tol < f <-> default_tol < f)) ->
    exists s1 os1 s2 os2,
      jenkins_local_force_history s (rows Nt u cst) x 2 tol default_tol = Ok (s1, os1) /\
      jenkins_local_force_history s (rows Nt u cst) x 2 default_tol default_tol = Ok (s2, os2) /\
      forall k, (k < Nt)%nat -> nth k (map fst os1) 0 = nth k (map fst os2) 0.
  Proof.
    intros H0 Hs.
    destruct (jenkins_history_spec s Nt u cst x 2 tol default_tol NtP H0) as (s1 & os1 & E1 & _ & _ & V1); [right; pose proof default_tol_range; lra|].
    destruct (jenkins_history_spec s Nt u cst x 2 default_tol default_tol NtP H0) as (s2 & os2 & E2 & _ & _ & V2); [right; pose proof default_tol_range; lra|].
    exists s1, os1, s2, os2. split; [exact E1|]. split; [exact E2|]. intros k Hk. cbv zeta in V1, V2.
    rewrite not_converged_same in V1 by exact Hs. destruct (V1 k Hk) as [-> _], (V2 k Hk) as [-> _]. reflexivity.
  Qed.

  Lemma iwan_same s (u : vec) (cst : nat -> vec) x : phi_ok s ->
    (let f := Rabs (bank_law (iw_n s) (iw_w s) (iw_phi s) (repeat_samples Nt u) x (Nt - 1)) in (tol < f <-> default_tol < f)) ->
    exists s1 os1 s2 os2,
      iwan_local_force_history s (rows Nt u cst) x 2 tol default_tol = Ok (s1, os1) /\
      iwan_local_force_history s (rows Nt u cst) x 2 default_tol default_tol = Ok (s2, os2) /\
      forall k, (k < Nt)%nat -> nth k (map fst os1) 0 = nth k (map fst os2) 0.
  Proof.
    intros H0 Hs.
    destruct (iwan_history_spec s Nt u cst x 2 tol default_tol NtP H0) as (s1 & os1 & E1 & _ & _ & V1); [right; pose proof default_tol_range; lra|].
    destruct (iwan_history_spec s Nt u cst x 2 default_tol default_tol NtP H0) as (s2 & os2 & E2 & _ & _ & V2); [right; pose proof default_tol_range; lra|].
    exists s1, os1, s2, os2. split; [exact E1|]. split; [exact E2|]. intros k Hk. cbv zeta in V1, V2.
    rewrite not_converged_same in V1 by (rewrite bank_pass_law; exact Hs). destruct (V1 k Hk) as [-> _], (V2 k Hk) as [-> _]. reflexivity.
  Qed.

  Lemma hyst_forces {S : Type} (lfh : nat -> vec -> (nat -> vec) -> R -> result (S * (vec * (nat -> vec)))) Q T st ft df ut u1 cst :
    ts_cols Nt h (fun d c => aft_Unl N Q U c d) 0 = Ok (Nt, ut) -> ts_cols Nt h (fun d c => aft_Unl N Q U c d) 1 = Ok (Nt, u1) ->
    ts_cols Nt h eye_col 0 = Ok (Nt, cst) ->
    lfh Nt (ut O) (fun t c => cst c t) (aft_Unl N Q U 0 0) = Ok (st, (ft, df)) ->
    exists F dU, aft_hysteretic N Q T lfh U h Nt = Ok (st, (aft_global N 1 T F, dU, fun _ => 0)) /\
      forall d c, (c < nhc)%nat -> F d c = coefc h Nt ft c.
  Proof.
    intros E0 E1 Ec El. unfold aft_hysteretic. rewrite E0. cbn [bind]. rewrite E1. cbn [bind]. rewrite Ec. cbn [bind]. rewrite El. cbn [bind].
    destruct (gfc_cols_ok h Nt Ha HN (fun _ => ft)) as [F [EF SF]]. rewrite EF. cbn [bind]. rewrite Nat.eqb_refl. cbn [negb].
    destruct (gfc_cols_ok h Nt Ha HN (fun c' t => df t c')) as [dF [EdF _]]. rewrite EdF. cbn [bind].
    eexists _, _. split; [reflexivity|]. intros d c Hc. apply SF. exact Hc.
  Qed.

  Lemma sampled_motion Q ut : (forall d n, (n < Nt)%nat -> ut d n = series h (fun c => aft_Unl N Q U c d) (sample_phase Nt n)) ->
    forall d, repeat_samples Nt (fun n => local_motion N Q h U d (sample_phase Nt n)) = repeat_samples Nt (ut d).
  Proof.
    intros H d. apply functional_extensionality. intros k. unfold repeat_samples. rewrite H by (apply Nat.mod_upper_bound; lia). symmetry. apply series_Unl.
  Qed.

  Lemma local_force_reproduces (m : member) : post_ready N U h Nt tol m ->
    exists F r, member_aft N m U w h Nt = Ok F /\ local_harmonic_force N m U w h Nt tol = Ok r /\ reproduces N m U h Nt F r.
  Proof.
    intros Hr. destruct m as [nnl Q T e].
    destruct (ts_cols0 h Nt Ha HN Hev (fun d c => aft_Unl N Q U c d)) as [ut [E0 S0]].
    destruct (ts_cols1 h Nt Ha HN Hev (fun d c => aft_Unl N Q U c d)) as [u1 [E1 S1]].
    destruct (ts_cols0 h Nt Ha HN Hev eye_col) as [cst [Ec Sc]].
    destruct (ts_cols1 h Nt Ha HN Hev eye_col) as [sct [Es Ss]].
    unfold local_harmonic_force, member_aft. cbn [mb_Q mb_T mb_nnl mb_element]. rewrite E0. cbn [bind]. rewrite E1. cbn [bind]. rewrite Ec. cbn [bind].
    unfold post_ready in Hr. cbn [mb_Q mb_T mb_nnl mb_element] in Hr. cbv zeta in Hr.
    rewrite (sampled_motion Q ut S0) in Hr.
    destruct e as [law|row|s|s|s|s|p ne P u0|kt Fs u0|kt Fs u0]; try contradiction.
    - (* instantaneous *)
      cbn [local_history bind]. set (ft := fun d t => law_f law d (ut d t) (w * u1 d t)).
      destruct (gfc_cols_ok h Nt Ha HN ft) as [Fh [EF SF]]. rewrite EF. cbn [bind].
      unfold aft_instantaneous. rewrite E0. cbn [bind]. rewrite E1. cbn [bind]. fold ft. rewrite EF. cbn [bind]. rewrite Ec. cbn [bind]. rewrite Nat.eqb_refl. cbn [negb].
      rewrite Es. cbn [bind].
      match goal with |- context [gfc_cols h Nt ?x] => destruct (gfc_cols_ok h Nt Ha HN x) as [dF [EdF _]]; rewrite EdF; cbn [bind] end.
      assert (Rep : forall Fnl, Fnl = aft_global N nnl T Fh -> reproduces N (mkMember nnl Q T (EInstant law)) U h Nt Fnl
                (mkLocal (fun c d => aft_Unl N Q U c d) ut Fh ft)).
      { intros Fnl ->. apply (reproduce_from (mkMember nnl Q T (EInstant law)) Fh); cbn [mb_Q mb_T mb_nnl]; auto. }
      destruct (Reqb w 0); cbn [bind fst].
      + eexists _, _. split; [reflexivity|]. split; [reflexivity|]. apply Rep. reflexivity.
      + match goal with |- context [gfc_cols h Nt ?x] => destruct (gfc_cols_ok h Nt Ha HN x) as [dw [Edw _]]; rewrite Edw; cbn [bind fst] end.
        eexists _, _. split; [reflexivity|]. split; [reflexivity|]. apply Rep. reflexivity.
    - (* polynomial *)
      cbn [local_history bind]. set (ft := fun d t => fst (row (fun e => ut e t)) d).
      destruct (gfc_cols_ok h Nt Ha HN ft) as [Fh [EF SF]]. rewrite EF. cbn [bind].
      unfold aft_coupled. rewrite E0. cbn [bind]. rewrite E1. cbn [bind]. fold ft. rewrite EF. cbn [bind]. rewrite Ec. cbn [bind]. rewrite Nat.eqb_refl. cbn [negb].
      match goal with |- context [gfc_cols h Nt ?x] => destruct (gfc_cols_ok h Nt Ha HN x) as [dF [EdF _]]; rewrite EdF; cbn [bind fst] end.
      eexists _, _. split; [reflexivity|]. split; [reflexivity|].
      apply (reproduce_from (mkMember nnl Q T (ECoupled row)) Fh); cbn [mb_Q mb_T mb_nnl]; auto.
    - (* Jenkins *)
      destruct Hr as (-> & HF & Hs). change (local_first_coef N Q U) with (aft_Unl N Q U 0 0) in Hs.
      destruct (jenkins_same s (ut O) (fun t c => cst c t) (aft_Unl N Q U 0 0) HF Hs) as (s1 & os1 & s2 & os2 & H1 & H2 & Hv).
      cbn [local_history]. rewrite rows_seq. rewrite H1. cbn [bind].
      destruct (gfc_cols_ok h Nt Ha HN (fun _ k => nth k (map fst os1) 0)) as [Fh [EF SF]]. rewrite EF. cbn [bind].
      destruct (hyst_forces (jenkins_lfh s) Q T s2 (fun k => nth k (map fst os2) 0) (fun k => nth k (map snd os2) (fun _ => 0)) ut u1 cst E0 E1 Ec) as (F & dU & EA & SA).
      { unfold jenkins_lfh. rewrite rows_seq, H2. reflexivity. }
      unfold jenkins_aft. rewrite EA. cbn [bind fst]. eexists _, _. split; [reflexivity|]. split; [reflexivity|].
      apply (reproduce_from (mkMember 1 Q T (EJenkins s)) F); cbn [mb_Q mb_T mb_nnl]; auto.
      intros d c Hd Hc. rewrite SA, SF by exact Hc. apply coefc_ext. intros k Hk. symmetry. apply Hv. exact Hk.
    - (* vector Jenkins *)
      destruct Hr as (-> & HF).
      destruct (vector_history_spec s Nt (ut O) (fun t c => cst c t) (aft_Unl N Q U 0 0) NtP HF) as (s' & ft & df & _ & E & _).
      cbn [local_history]. rewrite E. cbn [bind].
      destruct (gfc_cols_ok h Nt Ha HN (fun _ => ft)) as [Fh [EF SF]]. rewrite EF. cbn [bind].
      destruct (hyst_forces (vector_jenkins_lfh s) Q T s' ft df ut u1 cst E0 E1 Ec) as (F & dU & EA & SA).
      { unfold vector_jenkins_lfh. rewrite E. reflexivity. }
      unfold vector_jenkins_aft. rewrite EA. cbn [bind fst]. eexists _, _. split; [reflexivity|]. split; [reflexivity|].
      apply (reproduce_from (mkMember 1 Q T (EVectorJenkins s)) F); cbn [mb_Q mb_T mb_nnl]; auto.
      intros d c Hd Hc. rewrite SA, SF by exact Hc. reflexivity.
    - (* Iwan *)
      destruct Hr as (-> & HF & Hs). change (local_first_coef N Q U) with (aft_Unl N Q U 0 0) in Hs.
      destruct (iwan_same s (ut O) (fun t c => cst c t) (aft_Unl N Q U 0 0) HF Hs) as (s1 & os1 & s2 & os2 & H1 & H2 & Hv).
      cbn [local_history]. rewrite rows_seq. rewrite H1. cbn [bind].
      destruct (gfc_cols_ok h Nt Ha HN (fun _ k => nth k (map fst os1) 0)) as [Fh [EF SF]]. rewrite EF. cbn [bind].
      destruct (hyst_forces (iwan_lfh s) Q T s2 (fun k => nth k (map fst os2) 0) (fun k => nth k (map snd os2) (fun _ => 0)) ut u1 cst E0 E1 Ec) as (F & dU & EA & SA).
      { unfold iwan_lfh. rewrite rows_seq, H2. reflexivity. }
      unfold iwan_aft. rewrite EA. cbn [bind fst]. eexists _, _. split; [reflexivity|]. split; [reflexivity|].
      apply (reproduce_from (mkMember 1 Q T (EIwan s)) F); cbn [mb_Q mb_T mb_nnl]; auto.
      intros d c Hd Hc. rewrite SA, SF by exact Hc. apply coefc_ext. intros k Hk. symmetry. apply Hv. exact Hk.
    - (* vector Iwan *)
      destruct Hr as (-> & HF).
      destruct (vector_iwan_spec s Nt (ut O) (fun t c => cst c t) (aft_Unl N Q U 0 0) NtP HF) as (s' & ft & df & _ & E & _).
      cbn [local_history]. rewrite E. cbn [bind].
      destruct (gfc_cols_ok h Nt Ha HN (fun _ => ft)) as [Fh [EF SF]]. rewrite EF. cbn [bind].
      destruct (hyst_forces (vector_iwan_lfh s) Q T s' ft df ut u1 cst E0 E1 Ec) as (F & dU & EA & SA).
      { unfold vector_iwan_lfh. rewrite E. reflexivity. }
      unfold vector_iwan_aft. rewrite EA. cbn [bind fst]. eexists _, _. split; [reflexivity|]. split; [reflexivity|].
      apply (reproduce_from (mkMember 1 Q T (EVectorIwan s)) F); cbn [mb_Q mb_T mb_nnl]; auto.
      intros d c Hd Hc. rewrite SA, SF by exact Hc. reflexivity.
    - (* elastic dry friction *)
      destruct u0 as [[x|v]|]; try contradiction. destruct Hr as (-> & Hp & Hne & Hkn & Hmu & Hsev).
      destruct (eldry_aft_exact p ne N Q T P (Some v) h Nt Hp Hne Ha HN Hev Hsev Hkn Hmu) as (F & dU & dw & EA & V & _).
      rewrite EA. cbn [bind fst].
      destruct (eldry_local_history Nt p P (Some (inr v)) (fun t d => ut d t) v v NtP Hp ltac:(lra) (or_intror eq_refl)) as (ft & Ef & Hf).
      cbn [local_history]. rewrite Ef. cbn [bind].
      destruct (gfc_cols_ok h Nt Ha HN (fun d t => ft t d)) as [Fh [EF SF]]. rewrite EF. cbn [bind].
      eexists _, _. split; [reflexivity|]. split; [reflexivity|].
      apply (reproduce_from (mkMember (p * ne) Q T (EEldry p ne P (Some (inr v)))) Fh); cbn [mb_Q mb_T mb_nnl]; auto.
      intros c i Hc Hi. rewrite V by assumption. unfold aft_global. destruct (divmod_block N c i Hi) as [-> ->]. unfold matvec. apply rsum_ext. intros d Hd.
      f_equal. rewrite SF by exact Hc. unfold coefc. apply fourier_coef_ext. intros k Hk. rewrite Hf by exact Hk.
      f_equal. apply functional_extensionality. intros e. apply (sampled_motion Q ut S0).
  Qed.

  Lemma system_reproduces (ms : list member) : Forall (post_ready N U h Nt tol) ms ->
    exists rs, local_harmonic_forces N ms U w h Nt tol = Ok rs /\
      Forall2 (fun m r => exists F, member_aft N m U w h Nt = Ok F /\ reproduces N m U h Nt F r) ms rs.
  Proof.
    intros H. unfold local_harmonic_forces. rewrite (proj1 (Nhc_spec h) (proj1 (proj2 Ha))). cbn [bind].
    induction H as [|m ms Hm Hms IH]; [exists []; split; [reflexivity|constructor]|].
    destruct (local_force_reproduces m Hm) as (F & r & EF & Er & R). destruct IH as (rs & E & A).
    exists (r :: rs). cbn [local_loop]. rewrite Er. cbn [bind]. rewrite E. split; [reflexivity|]. constructor; [exists F; auto|exact A].
  Qed.
End Post.

(** ---- cases ---- *)
Definition one : mat := fun _ _ => 1.
Lemma phase4 : sample_phase 4 0 = 0 /\ sample_phase 4 1 = PI / 2 /\ sample_phase 4 2 = PI /\ sample_phase 4 3 = 3 * (PI / 2).
Proof. unfold sample_phase. cbn [INR]. repeat split; field. Qed.

Lemma first_harmonic_samples (U : vec) n : (n < 4)%nat ->
  local_motion 1 one [1%nat] U 0 (sample_phase 4 n) = match n with 0 => U O | 1 => U 1%nat | 2 => - U O | _ => - U 1%nat end.
Proof.
  intros Hn. assert (E : local_motion 1 one [1%nat] U 0 (sample_phase 4 n) = U O * cos (sample_phase 4 n) + U 1%nat * sin (sample_phase 4 n)).
  { unfold local_motion, series, components, dof_coefs, basis, one. cbn. rewrite ?Rmult_1_l. ring. }
  rewrite E. destruct phase4 as (P0 & P1 & P2 & P3).
  assert (C3 : cos (3 * (PI / 2)) = 0) by (apply cos_3PI2).
  destruct n as [|[|[|[|n]]]]; [rewrite P0, cos_0, sin_0|rewrite P1, cos_PI2, sin_PI2|rewrite P2, cos_PI, sin_PI|rewrite P3, C3, sin_3PI2|lia]; ring.
Qed.

Definition tol_U : vec := fun p => match p with O => 1 + / 2 * / 10 ^ 8 | 1 => - (/ 2 * / 10 ^ 8) | _ => 0 end.
Definition tol_m : member := mkMember 1 one one (EJenkins (j_new 1 1)).

Lemma tol_law : let f := jenkins_law 1 1 (repeat_samples 4 (fun n => local_motion 1 one [1%nat] tol_U 0 (sample_phase 4 n))) (local_first_coef 1 one tol_U) in
  f 0%nat = 0 /\ f 1%nat = - 1 /\ f 2%nat = - 1 /\ f 3%nat = / 10 ^ 8 /\ f 4%nat = 1 /\ f 5%nat = - / 10 ^ 8 /\ f 6%nat = - 1 /\ f 7%nat = / 10 ^ 8.
Proof.
  intros f. set (e := / 10 ^ 8).
  assert (He : 0 < e < / 2) by (unfold e; split; [apply Rinv_0_lt_compat; simpl; lra|apply Rinv_lt_contravar; simpl; lra]).
  set (u := fun n : nat => match n with 0 => 1 + / 2 * e | 1 => - (/ 2 * e) | 2 => - (1 + / 2 * e) | _ => / 2 * e end).
  assert (Eu : f = jenkins_law 1 1 (repeat_samples 4 u) (1 + / 2 * e)).
  { unfold f. f_equal.
    - apply functional_extensionality. intros k. unfold repeat_samples. pose proof (Nat.mod_upper_bound k 4 ltac:(lia)).
      rewrite first_harmonic_samples by assumption. unfold u, tol_U. fold e. destruct (k mod 4)%nat as [|[|[|m]]]; ring.
    - unfold local_first_coef, one, tol_U. cbn [rsum]. fold e. ring. }
  rewrite Eu. clear Eu f. set (f := jenkins_law 1 1 (repeat_samples 4 u) (1 + / 2 * e)).
  assert (S : forall k, f (S k) = clamp (- 1) 1 (f k + 1 * (u (S k mod 4)%nat - u (k mod 4)%nat))) by reflexivity.
  assert (E0 : f 0%nat = 0). { change (f 0%nat) with (clamp (- 1) 1 (1 * (1 + / 2 * e - (1 + / 2 * e)))). minmax. }
  assert (E1 : f 1%nat = - 1) by (rewrite S, E0; cbn; minmax).
  assert (E2 : f 2%nat = - 1) by (rewrite S, E1; cbn; minmax).
  assert (E3 : f 3%nat = e) by (rewrite S, E2; cbn; minmax).
  assert (E4 : f 4%nat = 1) by (rewrite S, E3; cbn; minmax).
  assert (E5 : f 5%nat = - e) by (rewrite S, E4; cbn; minmax).
  assert (E6 : f 6%nat = - 1) by (rewrite S, E5; cbn; minmax).
  assert (E7 : f 7%nat = e) by (rewrite S, E6; cbn; minmax).
  auto 10.
Qed.

Lemma tolerance_differs : exists F r,
  member_aft 1 tol_m tol_U 1 [1%nat] 4 = Ok F /\ local_harmonic_forces 1 [tol_m] tol_U 1 [1%nat] 4 (/ 10 ^ 7) = Ok [r] /\
  F O = 1 /\ mb_T tol_m 0%nat 0%nat * lr_Fh r 0%nat 0%nat = / 2.
Proof.
  assert (Ha : admissible [1%nat]). { split; [discriminate|]. split; [constructor; [tauto|constructor]|tauto]. }
  assert (Hl : (2 * list_max [1%nat] + 1 < 4)%nat) by (cbn; lia).
  pose proof tol_law as L. cbv zeta in L. destruct L as (L0 & L1 & L2 & L3 & L4 & L5 & L6 & L7).
  assert (T8 : 0 < / 10 ^ 8) by (apply Rinv_0_lt_compat; simpl; lra).
  assert (T7 : / 10 ^ 8 < / 10 ^ 7) by (apply Rinv_lt_contravar; simpl; lra).
  assert (T10 : default_tol < / 10 ^ 8) by (unfold default_tol; apply Rinv_lt_contravar; simpl; lra).
  destruct (jenkins_aft_exact (j_new 1 1) 1 one one [1%nat] 4 Ha Hl eq_refl ltac:(cbn; lra)) as (st & F & dU & EA & V & _).
  exists (F tol_U). unfold member_aft, tol_m. cbn [mb_element mb_Q mb_T mb_nnl]. rewrite EA. cbn [bind fst].
  unfold local_harmonic_forces. rewrite (proj1 (Nhc_spec [1%nat]) (proj1 (proj2 Ha))). cbn [bind local_loop]. unfold local_harmonic_force. cbn [mb_element mb_Q mb_T mb_nnl].
  destruct (ts_cols0 [1%nat] 4 Ha Hl eq_refl (fun d c => aft_Unl 1 one tol_U c d)) as [ut [E0 S0]].
  destruct (ts_cols1 [1%nat] 4 Ha Hl eq_refl (fun d c => aft_Unl 1 one tol_U c d)) as [u1 [E1 S1]].
  destruct (ts_cols0 [1%nat] 4 Ha Hl eq_refl eye_col) as [cst [Ec Sc]].
  rewrite E0. cbn [bind]. rewrite E1. cbn [bind]. rewrite Ec. cbn [bind]. cbn [local_history].
  change (map (fun j => (ut 0%nat j, fun c => cst c j)) (seq 0 4)) with (rows 4 (ut O) (fun t c => cst c t)).
  destruct (jenkins_history_spec (j_new 1 1) 4 (ut O) (fun t c => cst c t) (aft_Unl 1 one tol_U 0 0) 2 (/ 10 ^ 7) default_tol ltac:(lia) ltac:(cbn; lra)) as (s1 & os & Eh & _ & _ & Hv).
  { right. pose proof default_tol_range. lra. }
  rewrite Eh. cbn [bind]. destruct (gfc_cols_ok [1%nat] 4 Ha Hl (fun _ k => nth k (map fst os) 0)) as [Fh [EF SF]]. rewrite EF. cbn [bind].
  eexists. split; [reflexivity|]. split; [reflexivity|]. cbn [lr_Fh].
  assert (M : repeat_samples 4 (ut O) = repeat_samples 4 (fun n => local_motion 1 one [1%nat] tol_U 0 (sample_phase 4 n))).
  { symmetry. apply (sampled_motion 1 tol_U [1%nat] 4 Hl one ut S0). }
  destruct phase4 as (P0 & P1 & P2 & P3).
  split.
  - pose proof (V tol_U) as W. cbv zeta in W. cbn [j_kt j_Fs j_new Nat.sub] in W.
    specialize (W ltac:(rewrite L3, Rabs_pos_eq; lra) O O ltac:(cbn; lia) ltac:(lia)). cbn [Nat.mul Nat.add] in W. rewrite W. unfold fourier_coef. cbn [nth components flat_map app rsum Nat.add comp_fun].
    rewrite P0, P1, P2, P3, L4, L5, L6, L7. replace (INR 1 * 0) with 0 by (simpl; ring). replace (INR 1 * (PI / 2)) with (PI / 2) by (simpl; ring).
    replace (INR 1 * PI) with PI by (simpl; ring). replace (INR 1 * (3 * (PI / 2))) with (3 * (PI / 2)) by (simpl; ring).
    rewrite cos_0, cos_PI2, cos_PI, cos_3PI2. unfold one. replace (INR 4) with 4 by (simpl; ring). lra.
  - rewrite SF by (cbn; lia). unfold coefc, fourier_coef. cbn [nth components flat_map app rsum comp_fun].
    cbv zeta in Hv. cbn [j_kt j_Fs j_new] in Hv. unfold pass_law in Hv. change (aft_Unl 1 one tol_U 0 0) with (local_first_coef 1 one tol_U) in Hv. rewrite M in Hv.
    cbn [Nat.mul Nat.add Nat.sub] in Hv. rewrite L3 in Hv.
    assert (NC : not_converged (/ 10 ^ 7) default_tol (Rabs (/ 10 ^ 8 - 0)) (/ 10 ^ 8) = false).
    { unfold not_converged. rewrite (Rltb_ge (/ 10 ^ 7)); [reflexivity|]. rewrite Rminus_0_r, Rabs_pos_eq; lra. }
    rewrite NC in Hv. cbn [andb Nat.mul Nat.add] in Hv.
    destruct (Hv 0%nat ltac:(lia)) as [-> _], (Hv 1%nat ltac:(lia)) as [-> _], (Hv 2%nat ltac:(lia)) as [-> _], (Hv 3%nat ltac:(lia)) as [-> _].
    rewrite L0, L1, L2, L3, P0, P1, P2, P3. replace (INR 1 * 0) with 0 by (simpl; ring). replace (INR 1 * (PI / 2)) with (PI / 2) by (simpl; ring).
    replace (INR 1 * PI) with PI by (simpl; ring). replace (INR 1 * (3 * (PI / 2))) with (3 * (PI / 2)) by (simpl; ring).
    rewrite cos_0, cos_PI2, cos_PI, cos_3PI2. unfold one, tol_m. cbn [mb_T]. replace (INR 4) with 4 by (simpl; ring). lra.
Qed.

Lemma post_nhc h : admissible h -> Nhc h = Ok (length (components h)).
Proof. intros Ha. apply (proj1 (Nhc_spec h) (proj1 (proj2 Ha))). Qed.

(** the element classes that cannot be post-processed *)
Definition unsupported (e : element) : Prop :=
  match e with
  | EJaxJenkins _ _ _ | EJaxVectorJenkins _ _ _ => True
  | EEldry _ _ _ None | EEldry _ _ _ (Some (inl _)) => True
  | _ => False
  end.
Lemma unsupported_raises N m ms U w h Nt tol : admissible h -> (2 * list_max h + 1 < Nt)%nat -> Nat.even Nt = true -> unsupported (mb_element m) ->
  exists e, local_harmonic_forces N (m :: ms) U w h Nt tol = Err e.
Proof.
  intros Ha HN Hev Hu. unfold local_harmonic_forces. rewrite (post_nhc h Ha). cbn [bind local_loop]. unfold local_harmonic_force.
  destruct (ts_cols0 h Nt Ha HN Hev (fun d c => aft_Unl N (mb_Q m) U c d)) as [ut [E0 S0]].
  destruct (ts_cols1 h Nt Ha HN Hev (fun d c => aft_Unl N (mb_Q m) U c d)) as [u1 [E1 S1]].
  destruct (ts_cols0 h Nt Ha HN Hev eye_col) as [cst [Ec Sc]].
  rewrite E0. cbn [bind]. rewrite E1. cbn [bind]. rewrite Ec. cbn [bind].
  destruct (mb_element m) as [| | | | | |p ne P [[x|v]|]| |]; try contradiction; cbn [local_history bind]; eexists; reflexivity.
Qed.

Definition post_case_U : vec := fun p => match p with 1 => 5 / 4 | _ => 0 end.
Definition post_case : list member :=
  [mkMember 1 one one (EInstant (cubic_history (fun _ => 2))); tol_m;
   mkMember 2 one one (EEldry 2 1 (mkEP 1 1 (1/2) 0) (Some (inr (fun _ => 0))))].
Lemma post_case_ready : Forall (post_ready 1 post_case_U [1%nat] 4 (/ 10 ^ 7)) post_case.
Proof.
  unfold post_case. constructor; [exact I|]. constructor; [|constructor; [|constructor]].
  - cbn [post_ready mb_element tol_m mb_nnl mb_Q]. unfold post_ready, tol_m. cbn [mb_element mb_nnl mb_Q j_kt j_Fs j_new Nat.sub].
    split; [reflexivity|]. split; [lra|].
    set (u := fun n : nat => match n with 1 => 5 / 4 | 3 => - (5 / 4) | _ => 0 end).
    assert (Eu : repeat_samples 4 (fun n => local_motion 1 one [1%nat] post_case_U 0 (sample_phase 4 n)) = repeat_samples 4 u).
    { apply functional_extensionality. intros k. unfold repeat_samples. pose proof (Nat.mod_upper_bound k 4 ltac:(lia)).
      rewrite first_harmonic_samples by assumption. unfold u, post_case_U. destruct (k mod 4)%nat as [|[|[|[|m]]]]; try ring. lia. }
    assert (E0 : local_first_coef 1 one post_case_U = 0) by (unfold local_first_coef, one, post_case_U; cbn [rsum]; ring).
    rewrite Eu, E0. set (f := jenkins_law 1 1 (repeat_samples 4 u) 0).
    assert (S : forall k, f (S k) = clamp (- 1) 1 (f k + 1 * (u (S k mod 4)%nat - u (k mod 4)%nat))) by reflexivity.
    assert (F0 : f 0%nat = 0). { change (f 0%nat) with (clamp (- 1) 1 (1 * (0 - 0))). minmax. }
    assert (F1 : f 1%nat = 1) by (rewrite S, F0; cbn; minmax).
    assert (F2 : f 2%nat = - (1 / 4)) by (rewrite S, F1; cbn; minmax).
    assert (F3 : f 3%nat = - 1) by (rewrite S, F2; cbn; minmax).
    rewrite F3. replace (Rabs (-1)) with 1 by (rewrite Rabs_left; lra).
    pose proof default_tol_range. assert (/ 10 ^ 7 < 1) by (rewrite <- Rinv_1; apply Rinv_lt_contravar; simpl; lra). split; intros; lra.
  - unfold post_ready. cbn. repeat split; try lia; try lra.
Qed.
