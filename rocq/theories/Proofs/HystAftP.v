(** HystereticForce.aft and JenkinsForce.aft: Fourier coefficients of the hysteretic forces and the
    Jacobian of the returned coefficients. *)
From Coq Require Import Reals Lra Lia Arith List Bool FunctionalExtensionality.
From Verif.Lib Require Import RSum Calc Py.
From Verif.Spec Require Import Harmonic Calculus Elements Slider JenkinsCalls.
From Verif.Model Require Import Jenkins Harmonic LocalForces Aft.
From Verif.Proofs Require Import HarmonicP FourierP HarmonicOpsP AftP JenkinsP JenkinsDerivP HysteresisP.
Import ListNotations.
Open Scope R_scope.

Section JAft.
  Variables (s : jenkins) (N : nat) (Q T : mat) (h : list nat) (Nt : nat).
  Hypothesis Ha : admissible h.
  Hypothesis HN : (2 * list_max h + 1 < Nt)%nat.
  Hypothesis Hev : Nat.even Nt = true.
  Hypothesis H0 : 0 <= j_Fs s.
  Let nhc := length (components h).
  Let ph := sample_phase Nt.

  Definition jcst : nat -> vec := fun t c => series h (eye_col c) (ph t).
  Definition jhist (V : vec) :=
    jenkins_local_force_history s (rows Nt (fun j => rsum nhc (fun c => jcst j c * V c)) jcst) (V O)
                                2 default_tol default_tol.

  Lemma Nt_pos : (0 < Nt)%nat. Proof. lia. Qed.

  Lemma jcst_series V j : rsum nhc (fun c => jcst j c * V c) = series h V (ph j).
  Proof.
    unfold series. apply rsum_ext. intros c Hc. unfold jcst. rewrite series_eye by exact Hc. ring.
  Qed.

  Lemma jhist_ext V V' : (forall c, (c < nhc)%nat -> V c = V' c) -> jhist V = jhist V'.
  Proof.
    intros H. unfold jhist. rewrite (H O (AftP.nhc_pos h Nt Ha HN)). f_equal. unfold rows. apply map_ext. intros j. f_equal.
    apply rsum_ext. intros c Hc. rewrite H by exact Hc. reflexivity.
  Qed.

  Definition jF (V : vec) (d : nat) : vec := coefc h Nt (forces_at (jhist V)).
  Definition jJ (V : vec) : mat := fun r c' => coefc h Nt (fun t => derivs_at (jhist V) t c') r.

  Lemma jenkins_aft_value U : exists st F dU,
    jenkins_aft s N Q T U h Nt = Ok (st, (F, dU, fun _ => 0)) /\
    (forall r, (r < nhc * N)%nat -> F r = aft_global N 1 T (jF (loc N 1 Q h U)) r) /\
    (forall r c, dU r c = aft_dU N 1 nhc Q T (jJ (loc N 1 Q h U)) r c).
  Proof.
    unfold jenkins_aft, aft_hysteretic.
    destruct (ts_cols0 h Nt Ha HN Hev (fun d c => aft_Unl N Q U c d)) as [u0 [E0 S0]]. rewrite E0. cbn [bind].
    destruct (ts_cols1 h Nt Ha HN Hev (fun d c => aft_Unl N Q U c d)) as [u1 [E1 S1]]. rewrite E1. cbn [bind].
    destruct (ts_cols0 h Nt Ha HN Hev eye_col) as [cst [Ec Sc]]. rewrite Ec. cbn [bind].
    assert (EL : forall c, (c < nhc)%nat -> loc N 1 Q h U c = aft_Unl N Q U c 0).
    { intros c Hc. replace c with (c * 1 + 0)%nat at 1 by lia. apply loc_Unl; [exact Hc|lia]. }
    assert (ER : map (fun j => (u0 O j, (fun t c => cst c t) j : vec)) (seq 0 Nt)
                 = rows Nt (fun j => rsum nhc (fun c => jcst j c * loc N 1 Q h U c)) jcst).
    { unfold rows. apply map_ext_in. intros j Hj. apply in_seq in Hj. f_equal.
      - rewrite S0 by lia. rewrite jcst_series. apply (series_ext h). intros c Hc. symmetry. apply EL. exact Hc.
      - apply functional_extensionality. intros c. rewrite Sc by lia. reflexivity. }
    destruct (jenkins_history_default s Nt (fun j => rsum nhc (fun c => jcst j c * loc N 1 Q h U c)) jcst (loc N 1 Q h U O) Nt_pos H0)
      as [[s' [os [Eh [El Ep]]]] _].
    fold (jhist (loc N 1 Q h U)) in Eh.
    assert (Ef : forall k, forces_at (jhist (loc N 1 Q h U)) k = nth k (map fst os) 0) by (intros k; rewrite Eh; reflexivity).
    assert (Ed : forall k, derivs_at (jhist (loc N 1 Q h U)) k = nth k (map snd os) (fun _ => 0)) by (intros k; rewrite Eh; reflexivity).
    assert (EH : jenkins_lfh s Nt (u0 O) (fun t c => cst c t) (aft_Unl N Q U 0 0)
                 = Ok (s', (fun k => nth k (map fst os) 0, fun k => nth k (map snd os) (fun _ => 0)))).
    { unfold jenkins_lfh. etransitivity; [apply (f_equal (fun l => do (s1, os) <- jenkins_local_force_history s l (aft_Unl N Q U 0 0) 2 default_tol default_tol; Ok (s1, (fun k => nth k (map fst os) 0, fun k => nth k (map snd os) (fun _ => 0)))) ER)|]. cbv beta. rewrite <- (EL O (AftP.nhc_pos h Nt Ha HN)). fold (jhist (loc N 1 Q h U)).
      rewrite Eh. reflexivity. }
    rewrite EH. cbn [bind].
    destruct (gfc_cols_ok h Nt Ha HN (fun _ k => nth k (map fst os) 0)) as [F [EF SF]]. rewrite EF. cbn [bind].
    rewrite Nat.eqb_refl. cbn [negb].
    destruct (gfc_cols_ok h Nt Ha HN (fun c' t => nth t (map snd os) (fun _ => 0) c')) as [dF [EdF SdF]]. rewrite EdF. cbn [bind].
    rewrite nhc_aft. fold nhc. eexists _, _, _. split; [reflexivity|]. split.
    - intros r Hr. apply (aft_global_ext N 1 T h); [exact Hr|]. intros d c Hd Hc. rewrite SF by exact Hc.
      unfold jF. apply coefc_ext. intros t Ht. symmetry. apply Ef.
    - intros r c. apply (dU_ext N 1 Q T h). intros a b Ha' Hb. fold nhc in Ha', Hb. rewrite SdF by (fold nhc; lia).
      unfold jJ. apply coefc_ext. intros t Ht. rewrite Ed. reflexivity.
  Qed.

  Lemma jF_jacobian V :
    let u := repeat_samples Nt (fun j => series h V (ph j)) in
    (forall j, (j < 2 * Nt)%nat -> Rabs (trial (j_kt s) (j_Fs s) u (V O) j) <> j_Fs s) ->
    Rabs (jenkins_law (j_kt s) (j_Fs s) u (V O) (Nt - 1)) <> default_tol ->
    is_jacobian (nhc * 1) (nhc * 1) (fun V r => jF V (r mod 1)%nat (r / 1)%nat) V (jJ V).
  Proof.
    intros u Hne Htol.
    assert (Eu : u = repeat_samples Nt (fun j => rsum nhc (fun c => jcst j c * V c))).
    { unfold u. f_equal. apply functional_extensionality. intros j. symmetry. apply jcst_series. }
    pose proof (jenkins_history_jacobian s Nt nhc jcst V Nt_pos (AftP.nhc_pos h Nt Ha HN) H0) as J. cbv zeta in J.
    rewrite <- Eu in J. specialize (J Hne Htol).
    intros g v t0 Hg Hv r Hr. rewrite Nat.mul_1_r in *. rewrite Nat.mod_1_r, Nat.div_1_r.
    unfold jF. eapply dlim_eq.
    - apply (dlim_coefc h Nt (fun t k => forces_at (jhist (g t)) k) (fun k => rsum nhc (fun c => derivs_at (jhist V) k c * v c)) t0 r).
      intros k Hk. apply (J g v t0 Hg Hv k Hk).
    - rewrite (coefc_rsum h Nt nhc (fun c k => derivs_at (jhist V) k c * v c)). apply rsum_ext. intros c Hc.
      unfold jJ. rewrite coefc_scal_r. reflexivity.
  Qed.

  (** the history evaluated by aft *)
  Definition aft_history (U : vec) :=
    jenkins_local_force_history s
      (rows Nt (fun n => local_motion N Q h U 0 (sample_phase Nt n)) (fun n c => series h (eye_col c) (sample_phase Nt n)))
      (aft_Unl N Q U 0 0) 2 default_tol default_tol.

  Lemma jhist_loc U : jhist (loc N 1 Q h U) = aft_history U.
  Proof.
    assert (EL : forall c, (c < nhc)%nat -> loc N 1 Q h U c = aft_Unl N Q U c 0).
    { intros c Hc. replace c with (c * 1 + 0)%nat at 1 by lia. apply loc_Unl; [exact Hc|lia]. }
    unfold jhist, aft_history. rewrite (EL O (AftP.nhc_pos h Nt Ha HN)). f_equal. unfold rows. apply map_ext. intros j. f_equal.
    rewrite jcst_series, <- series_Unl. apply (series_ext h). exact EL.
  Qed.

  Lemma jenkins_aft_exact :
    exists (st : vec -> jenkins) (F : vec -> vec) (dU : vec -> mat),
      (forall U, jenkins_aft s N Q T U h Nt = Ok (st U, (F U, dU U, fun _ => 0))) /\
      (forall U,
         let u := repeat_samples Nt (fun n => local_motion N Q h U 0 (sample_phase Nt n)) in
         let law := jenkins_law (j_kt s) (j_Fs s) u (local_first_coef N Q U) in
         default_tol < Rabs (law (Nt - 1)%nat) ->
         forall c i, (c < nhc)%nat -> (i < N)%nat ->
         F U (c * N + i)%nat = T i 0%nat * fourier_coef Nt (fun n => law (Nt + n)%nat) (nth c (components h) (Cos O))) /\
      (forall U,
         let u := repeat_samples Nt (fun n => local_motion N Q h U 0 (sample_phase Nt n)) in
         (forall j, (j < 2 * Nt)%nat -> Rabs (trial (j_kt s) (j_Fs s) u (local_first_coef N Q U) j) <> j_Fs s) ->
         Rabs (jenkins_law (j_kt s) (j_Fs s) u (local_first_coef N Q U) (Nt - 1)) <> default_tol ->
         is_jacobian (nhc * N) (nhc * N) F U (dU U)).
  Proof.
    set (out := fun U => match jenkins_aft s N Q T U h Nt with Ok (st, (F, dU, _)) => (st, F, dU) | Err _ => (s, fun _ => 0, fun _ _ => 0) end).
    exists (fun U => fst (fst (out U))), (fun U => snd (fst (out U))), (fun U => snd (out U)).
    assert (Val : forall U,
       jenkins_aft s N Q T U h Nt = Ok (fst (fst (out U)), (snd (fst (out U)), snd (out U), fun _ => 0)) /\
       (forall r, (r < nhc * N)%nat -> snd (fst (out U)) r = aft_global N 1 T (jF (loc N 1 Q h U)) r) /\
       (forall r c, snd (out U) r c = aft_dU N 1 nhc Q T (jJ (loc N 1 Q h U)) r c)).
    { intros U. destruct (jenkins_aft_value U) as [st [F [dU [E [A B]]]]]. unfold out. rewrite E. cbn [fst snd]. auto. }
    split; [|split].
    - intros U. apply (Val U).
    - intros U u law Hes c i Hc Hi. destruct (Val U) as [_ [A _]]. rewrite A by nia.
      unfold aft_global. destruct (divmod_block N c i Hi) as [-> ->]. unfold matvec, jF. rewrite jhist_loc.
      cbn [rsum]. unfold coefc. rewrite Rplus_0_l. f_equal. apply fourier_coef_ext. intros n Hn.
      destruct (jenkins_history_default s Nt (fun n => local_motion N Q h U 0 (sample_phase Nt n))
         (fun n c => series h (eye_col c) (sample_phase Nt n)) (aft_Unl N Q U 0 0) Nt_pos H0) as [_ B].
      destruct (B n Hn) as [B1 _]. unfold aft_history. rewrite B1. unfold pass_law at 1, pass_no.
      replace (Rltb default_tol _) with true.
      + rewrite Nat.mul_1_l. reflexivity.
      + symmetry. apply Rltb_true. exact Hes.
    - intros U u Hne Htol.
      pose proof (assembly_jacobian N 1 Q T h jF U (jJ (loc N 1 Q h U)) (fun U => snd (fst (out U)))) as AJ.
      eapply is_jacobian_ext; [reflexivity| |apply AJ].
      + intros r c Hr Hc. symmetry. apply (proj2 (proj2 (Val U))).
      + intros U' r Hr. apply (proj1 (proj2 (Val U'))). exact Hr.
      + assert (EL : forall c, (c < nhc)%nat -> loc N 1 Q h U c = aft_Unl N Q U c 0).
        { intros c Hc. replace c with (c * 1 + 0)%nat at 1 by lia. apply loc_Unl; [exact Hc|lia]. }
        assert (Eu : u = repeat_samples Nt (fun j => series h (loc N 1 Q h U) (ph j))).
        { unfold u. f_equal. apply functional_extensionality. intros j. rewrite <- series_Unl.
          apply (series_ext h). intros c Hc. symmetry. apply EL. exact Hc. }
        change (local_first_coef N Q U) with (aft_Unl N Q U 0 0) in Hne, Htol.
        apply jF_jacobian; rewrite <- Eu, (EL O (AftP.nhc_pos h Nt Ha HN)); assumption.
  Qed.

  (** a first pass that ends without force is returned *)
  Lemma jenkins_aft_early U :
    let law := jenkins_law (j_kt s) (j_Fs s) (repeat_samples Nt (fun n => local_motion N Q h U 0 (sample_phase Nt n))) (local_first_coef N Q U) in
    Rabs (law (Nt - 1)%nat) <= default_tol ->
    exists st F dU, jenkins_aft s N Q T U h Nt = Ok (st, (F, dU, fun _ => 0)) /\
      forall c i, (c < nhc)%nat -> (i < N)%nat -> F (c * N + i)%nat = T i 0%nat * fourier_coef Nt law (nth c (components h) (Cos O)).
  Proof.
    intros law Hes. destruct (jenkins_aft_value U) as [st [F [dU [E [A B]]]]]. exists st, F, dU. split; [exact E|]. intros c i Hc Hi. rewrite A by nia.
    unfold aft_global. destruct (divmod_block N c i Hi) as [-> ->]. unfold matvec, jF. rewrite jhist_loc.
    cbn [rsum]. unfold coefc. rewrite Rplus_0_l. f_equal. apply fourier_coef_ext. intros n Hn.
    destruct (jenkins_history_default s Nt (fun n => local_motion N Q h U 0 (sample_phase Nt n))
       (fun n c => series h (eye_col c) (sample_phase Nt n)) (aft_Unl N Q U 0 0) Nt_pos H0) as [_ P].
    destruct (P n Hn) as [P1 _]. unfold aft_history. rewrite P1. unfold pass_law at 1, pass_no.
    replace (Rltb default_tol _) with false; [reflexivity|]. symmetry. apply Rltb_false. exact Hes.
  Qed.
End JAft.

Lemma repeat_samples_ext N u v : (0 < N)%nat -> (forall n, (n < N)%nat -> u n = v n) -> repeat_samples N u = repeat_samples N v.
Proof.
  intros HN H. apply functional_extensionality. intros k. unfold repeat_samples. apply H. apply Nat.mod_upper_bound. lia.
Qed.

Lemma aft_hyst_case :
  let U := fun p : nat => match p with 2 => 5 / 4 | _ => 0 end in
  let u := repeat_samples 4 (fun n => local_motion 1 (fun _ _ => 1) [O; 1%nat] U 0 (sample_phase 4 n)) in
  (forall j, (j < 2 * 4)%nat -> Rabs (trial 1 1 u (local_first_coef 1 (fun _ _ => 1) U) j) <> 1) /\
  Rabs (jenkins_law 1 1 u (local_first_coef 1 (fun _ _ => 1) U) (4 - 1)) <> default_tol.
Proof.
  intros U u.
  assert (E : u = repeat_samples 4 (fun j => rsum 2 (fun c =>
     (match c with O => 1 | _ => match j with 1%nat => 1 | 3%nat => -1 | _ => 0 end end) * (match c with O => 0 | _ => 5 / 4 end)))).
  { apply repeat_samples_ext; [lia|]. intros n Hn.
    assert (E : local_motion 1 (fun _ _ => 1) [O; 1%nat] U 0 (sample_phase 4 n) = 5 / 4 * sin (sample_phase 4 n)).
    { unfold local_motion, series, components, dof_coefs, basis, U. cbn. ring_simplify (0 + 1). rewrite ?Rmult_1_l. ring. }
    rewrite E. destruct n as [|[|[|[|n]]]]; [| | | |lia]; cbn [rsum].
    - replace (sample_phase 4 0) with 0 by (unfold sample_phase; simpl; field). rewrite sin_0. ring.
    - replace (sample_phase 4 1) with (PI / 2) by (unfold sample_phase; simpl; field). rewrite sin_PI2. ring.
    - replace (sample_phase 4 2) with PI by (unfold sample_phase; simpl; field). rewrite sin_PI. ring.
    - replace (sample_phase 4 3) with (3 * (PI / 2)) by (unfold sample_phase; simpl; field). rewrite sin_3PI2. ring. }
  assert (E0 : local_first_coef 1 (fun _ _ => 1) U = 0) by (unfold local_first_coef, U; cbn; ring).
  rewrite E, E0. exact c22_case.
Qed.
