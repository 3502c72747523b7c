(** Iwan4Force.aft and VectorIwan4.aft. *)
From Coq Require Import Reals Lra Lia Arith List Bool FunctionalExtensionality.
From Verif.Lib Require Import RSum Calc Py.
From Verif.Spec Require Import Harmonic Calculus Elements Slider JenkinsCalls IwanCalls.
From Verif.Model Require Import Jenkins VectorJenkins Harmonic LocalForces Aft Iwan IwanOps.
From Verif.Proofs Require Import HarmonicP FourierP HarmonicOpsP AftP SliderP JenkinsP JenkinsDerivP HysteresisP HystAftGenP IwanP VectorIwanP IwanOpsP.
Import ListNotations.
Open Scope R_scope.

Lemma bank_pass_ext s N u v u0 n k : (0 < N)%nat -> (forall j, (j < N)%nat -> u j = v j) -> bank_pass s N u u0 n k = bank_pass s N v u0 n k.
Proof.
  intros HN H. apply rsum_ext. intros i _. f_equal. unfold pass_law. apply slider_ext. intros j _. unfold repeat_samples. apply H. apply Nat.mod_upper_bound. lia.
Qed.

Section IAft.
  Variables (s : iwan) (N : nat) (Q T : mat) (h : list nat) (Nt : nat).
  Hypothesis Ha : admissible h.
  Hypothesis HN : (2 * list_max h + 1 < Nt)%nat.
  Hypothesis Hev : Nat.even Nt = true.
  Hypothesis HP : phi_ok s.
  Let nhc := length (components h).
  Let NtP : (0 < Nt)%nat. Proof. lia. Qed.

  Definition iff (V : vec) (k : nat) : R := bank_pass s Nt (gsamples h Nt V) (V O) (pass_no (bank_pass s Nt (gsamples h Nt V) (V O) 0 (Nt - 1))) k.
  Definition idd (V : vec) (k : nat) : vec := bank_dpass s Nt (gsamples h Nt V) (gcst h Nt) (V O) (pass_no (bank_pass s Nt (gsamples h Nt V) (V O) 0 (Nt - 1))) k.

  Lemma iwan_lfh_ok V (u : vec) (cst : nat -> vec) u0 : (forall j, (j < Nt)%nat -> u j = gsamples h Nt V j) -> (forall j c, (j < Nt)%nat -> cst j c = gcst h Nt j c) -> u0 = V O ->
    exists st ft df, iwan_lfh s Nt u cst u0 = Ok (st, (ft, df)) /\ forall k, (k < Nt)%nat -> ft k = iff V k /\ forall c, df k c = idd V k c.
  Proof.
    intros Hu Hc ->. unfold iwan_lfh.
    assert (ER : map (fun j => (u j, cst j)) (seq 0 Nt) = rows Nt (gsamples h Nt V) (gcst h Nt)).
    { unfold rows. apply map_ext_in. intros j Hj. apply in_seq in Hj. f_equal; [apply Hu; lia|]. apply functional_extensionality. intros c. apply Hc. lia. }
    rewrite ER. destruct (iwan_history_default s Nt (gsamples h Nt V) (gcst h Nt) (V O) NtP HP) as (s' & os & E & _ & _ & V1). rewrite E. cbn [bind].
    eexists _, _, _. split; [reflexivity|]. exact V1.
  Qed.

  Lemma iwan_aft_exact :
    exists (st : vec -> iwan) (F : vec -> vec) (dU : vec -> mat),
      (forall U, iwan_aft s N Q T U h Nt = Ok (st U, (F U, dU U, fun _ => 0))) /\
      (forall U,
         let u := repeat_samples Nt (fun n => local_motion N Q h U 0 (sample_phase Nt n)) in
         let law := bank_law (iw_n s) (iw_w s) (iw_phi s) u (local_first_coef N Q U) in
         default_tol < Rabs (law (Nt - 1)%nat) ->
         forall c i, (c < nhc)%nat -> (i < N)%nat ->
         F U (c * N + i)%nat = T i 0%nat * fourier_coef Nt (fun n => law (Nt + n)%nat) (nth c (components h) (Cos O))) /\
      (forall U,
         let u := repeat_samples Nt (fun n => local_motion N Q h U 0 (sample_phase Nt n)) in
         (forall i, (i < iw_n s)%nat -> forall j, (j < 2 * Nt)%nat -> Rabs (trial 1 (iw_phi s i) u (local_first_coef N Q U) j) <> iw_phi s i) ->
         Rabs (bank_law (iw_n s) (iw_w s) (iw_phi s) u (local_first_coef N Q U) (Nt - 1)) <> default_tol ->
         is_jacobian (nhc * N) (nhc * N) F U (dU U)).
  Proof.
    destruct (hyst_aft_exact (iwan_lfh s) N Q T h Nt Ha HN Hev iff idd iwan_lfh_ok s) as (st & F & dU & E & V & J).
    assert (EM : forall U, repeat_samples Nt (gsamples h Nt (loc N 1 Q h U)) = repeat_samples Nt (fun n => local_motion N Q h U 0 (sample_phase Nt n))).
    { intros U. f_equal. apply functional_extensionality. intros j. apply gsamples_motion; assumption. }
    exists st, F, dU. split; [exact E|]. split.
    - intros U u law Hes c i Hc Hi. rewrite V by assumption. f_equal. apply fourier_coef_ext. intros n Hn. unfold iff. rewrite !bank_pass_law, EM. rewrite (loc_first N Q h Nt Ha HN). fold u law. cbn [Nat.mul Nat.add].
      unfold pass_no. fold law. rewrite (proj2 (Rltb_true _ _) Hes). f_equal. lia.
    - intros U u Hne Htol. apply J.
      apply (bank_returned_jacobian s Nt nhc (gcst h Nt) NtP (AftP.nhc_pos h Nt Ha HN) HP (loc N 1 Q h U) (Nt - 1)); [lia| |].
      + intros i Hi j Hj. fold (gsamples h Nt (loc N 1 Q h U)). change (samples nhc (gcst h Nt) (loc N 1 Q h U)) with (gsamples h Nt (loc N 1 Q h U)). rewrite EM, (loc_first N Q h Nt Ha HN). apply Hne; assumption.
      + rewrite bank_pass_law. change (samples nhc (gcst h Nt) (loc N 1 Q h U)) with (gsamples h Nt (loc N 1 Q h U)). rewrite EM, (loc_first N Q h Nt Ha HN). exact Htol.
  Qed.
End IAft.
