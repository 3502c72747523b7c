(** Derivatives of the Jenkins force history with respect to harmonic coefficients. *)
From Coq Require Import Reals Lra Lia Arith List Bool FunctionalExtensionality.
From Verif.Lib Require Import RSum Calc Py.
From Verif.Spec Require Import Slider Calculus JenkinsCalls.
From Verif.Model Require Import Jenkins VectorJenkins.
From Verif.Proofs Require Import SliderP JenkinsP VectorJenkinsP.
Import ListNotations.
Open Scope R_scope.

(** continuity of a differentiable function, in epsilon form *)
Lemma dlim_cont f x l : derivable_pt_lim f x l ->
  forall e, 0 < e -> exists d, 0 < d /\ forall t, Rabs (t - x) < d -> Rabs (f t - f x) < e.
Proof.
  intros H e He.
  assert (C : continuity_pt f x) by (apply derivable_continuous_pt; exists l; exact H).
  destruct (C e He) as [d [Hd Hc]]. exists d. split; [exact Hd|].
  intros t Ht. destruct (Req_dec t x) as [->|Hne].
  - rewrite Rminus_diag_eq by reflexivity. rewrite Rabs_R0. exact He.
  - apply (Hc t). split; [|exact Ht]. split; [exact I|]. intros E. apply Hne. auto.
Qed.

Lemma dlim_clamp Fs x t0 l :
  0 <= Fs -> Rabs (x t0) <> Fs -> derivable_pt_lim x t0 l ->
  derivable_pt_lim (fun t => clamp (- Fs) Fs (x t)) t0 (if Rltb Fs (Rabs (x t0)) then 0 else l).
Proof.
  intros H0 Hne Hd.
  destruct (dlim_cont x t0 l Hd (Rabs (Rabs (x t0) - Fs))) as [d [Hdp Hc]].
  { apply Rabs_pos_lt. lra. }
  destruct (Rltb Fs (Rabs (x t0))) eqn:E.
  - apply Rltb_true in E. rewrite (Rabs_right (Rabs (x t0) - Fs)) in Hc by lra.
    apply dlim_ext_loc with (fun _ => clamp (- Fs) Fs (x t0)); [|apply dlim_const].
    exists d. split; [exact Hdp|]. intros t Ht. specialize (Hc t Ht).
    apply Rabs_def2 in Hc. unfold Rabs in E, Hc. destruct (Rcase_abs (x t0)); minmax.
  - apply Rltb_false in E. assert (E' : Rabs (x t0) < Fs) by lra.
    rewrite (Rabs_left (Rabs (x t0) - Fs)) in Hc by lra.
    apply dlim_ext_loc with x; [|exact Hd].
    exists d. split; [exact Hdp|]. intros t Ht. specialize (Hc t Ht).
    apply Rabs_def2 in Hc. unfold Rabs in E', Hc. destruct (Rcase_abs (x t0)); minmax.
Qed.

Lemma dlaw_deriv kt Fs (nc : nat) (U : R -> nat -> R) (U0 : R -> R) (cc : nat -> vec) (v : vec) t0 :
  0 <= Fs -> (0 < nc)%nat ->
  (forall j, derivable_pt_lim (fun t => U t j) t0 (rsum nc (fun c => cc j c * v c))) ->
  derivable_pt_lim U0 t0 (v O) ->
  forall k, (forall j, (j <= k)%nat -> Rabs (trial kt Fs (U t0) (U0 t0) j) <> Fs) ->
  derivable_pt_lim (fun t => jenkins_law kt Fs (U t) (U0 t) k) t0
    (rsum nc (fun c => dlaw kt Fs (U t0) cc (U0 t0) k c * v c)).
Proof.
  intros H0 Hnc HU HU0.
  induction k as [|k IH]; intros Hne.
  - eapply dlim_eq.
    + apply (dlim_clamp Fs (fun t => kt * (U t O - U0 t)) t0
               (kt * (rsum nc (fun c => cc O c * v c) - v O)) H0).
      * apply (Hne O). lia.
      * apply dlim_scal. apply dlim_minus; [apply HU|exact HU0].
    + cbn [dlaw]. destruct (Rltb _ _).
      * rewrite rsum_zero; [reflexivity|]. intros; ring.
      * replace (v O) with (rsum nc (fun c => (if Nat.eqb c 0 then 1 else 0) * v c)).
        2:{ rewrite (rsum_single nc O); [simpl; ring|exact Hnc|].
            intros i _ Hi. destruct (Nat.eqb_spec i 0); [congruence|ring]. }
        rewrite <- rsum_minus, <- rsum_scal_l. apply rsum_ext. intros c Hc. ring.
  - eapply dlim_eq.
    + apply (dlim_clamp Fs (fun t => jenkins_law kt Fs (U t) (U0 t) k + kt * (U t (S k) - U t k)) t0
               (rsum nc (fun c => dlaw kt Fs (U t0) cc (U0 t0) k c * v c)
                + kt * (rsum nc (fun c => cc (S k) c * v c) - rsum nc (fun c => cc k c * v c))) H0).
      * apply (Hne (S k)). lia.
      * apply dlim_plus; [apply IH; intros; apply Hne; lia|].
        apply dlim_scal. apply dlim_minus; apply HU.
    + cbn [dlaw]. destruct (Rltb _ _).
      * rewrite rsum_zero; [reflexivity|]. intros; ring.
      * rewrite <- rsum_minus, <- rsum_scal_l, <- rsum_plus.
        apply rsum_ext. intros; ring.
Qed.

Lemma not_converged_default_iff f :
  not_converged default_tol default_tol (Rabs (f - 0)) f = Rltb default_tol (Rabs f).
Proof.
  destruct (Rltb default_tol (Rabs f)) eqn:E.
  - apply not_converged_default. apply Rltb_true. exact E.
  - unfold not_converged. rewrite Rminus_0_r, E. reflexivity.
Qed.

(** number of the pass that is returned by default tolerances and two repeats *)
Definition pass_no (f0 : R) : nat := if Rltb default_tol (Rabs f0) then 1 else 0.

(** the returned history as a function of the harmonic coefficients X *)
Section History.
  Variables (kt Fs : R) (N nc : nat) (cst : nat -> vec).
  Hypothesis HN : (0 < N)%nat.
  Hypothesis Hnc : (0 < nc)%nat.
  Hypothesis HF : 0 <= Fs.
  (** samples of the motion with coefficients X *)
  Definition samples (X : vec) (j : nat) : R := rsum nc (fun c => cst j c * X c).

  Lemma pass_jacobian X n :
    (forall j, (j < (S n) * N)%nat ->
       Rabs (trial kt Fs (repeat_samples N (samples X)) (X O) j) <> Fs) ->
    is_jacobian nc N (fun X k => pass_law kt Fs N (samples X) (X O) n k) X
      (fun k => dpass_law kt Fs N (samples X) cst (X O) n k).
  Proof.
    intros Hne g v t0 Hg Hd k Hk.
    assert (ES : forall j, samples (g t0) j = samples X j).
    { intros j. apply rsum_ext. intros c Hc. rewrite Hg by exact Hc. reflexivity. }
    assert (EU : repeat_samples N (samples (g t0)) = repeat_samples N (samples X)).
    { apply functional_extensionality. intros j. apply ES. }
    unfold pass_law.
    eapply dlim_eq.
    - apply (dlaw_deriv kt Fs nc (fun t => repeat_samples N (samples (g t))) (fun t => g t O)
              (fun t => cst (t mod N)) v t0 HF Hnc).
      + intros j. unfold repeat_samples, samples. apply dlim_rsum.
        intros c Hc. apply dlim_scal. apply Hd. exact Hc.
      + apply Hd. exact Hnc.
      + intros j Hj. rewrite EU, Hg by exact Hnc. apply Hne. nia.
    - apply rsum_ext. intros c Hc. unfold dpass_law. rewrite EU, Hg by exact Hnc. reflexivity.
  Qed.

  (** the pass number does not change near X *)
  Lemma pass_no_local X p :
    (p < N)%nat ->
    (forall j, (j < N)%nat -> Rabs (trial kt Fs (repeat_samples N (samples X)) (X O) j) <> Fs) ->
    Rabs (pass_law kt Fs N (samples X) (X O) 0 p) <> default_tol ->
    forall (g : R -> vec) (v : vec) (t0 : R),
    (forall j, (j < nc)%nat -> g t0 j = X j) ->
    (forall j, (j < nc)%nat -> derivable_pt_lim (fun t => g t j) t0 (v j)) ->
    exists d, 0 < d /\ forall t, Rabs (t - t0) < d ->
      pass_no (pass_law kt Fs N (samples (g t)) (g t O) 0 p)
      = pass_no (pass_law kt Fs N (samples X) (X O) 0 p).
  Proof.
    intros Hp Hne Htol g v t0 Hg Hd.
    assert (J : is_jacobian nc N (fun X k => pass_law kt Fs N (samples X) (X O) 0 k) X
      (fun k => dpass_law kt Fs N (samples X) cst (X O) 0 k)).
    { apply pass_jacobian. intros j Hj. apply Hne. lia. }
    specialize (J g v t0 Hg Hd p Hp). cbv beta in J.
    assert (E0 : pass_law kt Fs N (samples (g t0)) (g t0 O) 0 p
               = pass_law kt Fs N (samples X) (X O) 0 p).
    { rewrite Hg by exact Hnc. unfold pass_law. apply slider_ext. intros i Hi.
      unfold repeat_samples. apply rsum_ext. intros c Hc. rewrite Hg by exact Hc. reflexivity. }
    set (f0 := pass_law kt Fs N (samples X) (X O) 0 p) in *.
    destruct (dlim_cont _ _ _ J (Rabs (Rabs f0 - default_tol))) as [d [Hdp Hc]].
    { apply Rabs_pos_lt. lra. }
    exists d. split; [exact Hdp|]. intros t Ht. specialize (Hc t Ht). rewrite E0 in Hc.
    unfold pass_no.
    set (f := pass_law kt Fs N (samples (g t)) (g t O) 0 p) in *.
    pose proof (Rabs_triang_inv2 f f0) as T.
    destruct (Rltb default_tol (Rabs f0)) eqn:E.
    - apply Rltb_true in E. replace (Rltb default_tol (Rabs f)) with true; [reflexivity|].
      symmetry. apply Rltb_true. rewrite (Rabs_right (Rabs f0 - default_tol)) in Hc by lra.
      assert (T' : Rabs (Rabs f - Rabs f0) < Rabs f0 - default_tol) by lra.
      apply Rabs_def2 in T'. lra.
    - apply Rltb_false in E. replace (Rltb default_tol (Rabs f)) with false; [reflexivity|].
      symmetry. apply Rltb_false. rewrite (Rabs_left (Rabs f0 - default_tol)) in Hc by lra.
      assert (T' : Rabs (Rabs f - Rabs f0) < - (Rabs f0 - default_tol)) by lra.
      apply Rabs_def2 in T'. lra.
  Qed.

  Lemma returned_jacobian X p :
    (p < N)%nat ->
    (forall j, (j < 2 * N)%nat -> Rabs (trial kt Fs (repeat_samples N (samples X)) (X O) j) <> Fs) ->
    Rabs (pass_law kt Fs N (samples X) (X O) 0 p) <> default_tol ->
    is_jacobian nc N
      (fun X k => pass_law kt Fs N (samples X) (X O)
                    (pass_no (pass_law kt Fs N (samples X) (X O) 0 p)) k) X
      (fun k => dpass_law kt Fs N (samples X) cst (X O)
                    (pass_no (pass_law kt Fs N (samples X) (X O) 0 p)) k).
  Proof.
    intros Hp Hne Htol g v t0 Hg Hd k Hk.
    destruct (pass_no_local X p Hp) with (g := g) (v := v) (t0 := t0) as [d [Hdp Hloc]]; auto.
    { intros j Hj. apply Hne. lia. }
    set (n := pass_no (pass_law kt Fs N (samples X) (X O) 0 p)) in *.
    apply dlim_ext_loc with (fun t => pass_law kt Fs N (samples (g t)) (g t O) n k).
    - exists d. split; [exact Hdp|]. intros t Ht. rewrite Hloc by exact Ht. reflexivity.
    - apply (pass_jacobian X n); auto. intros j Hj. apply Hne.
      assert (n <= 1)%nat by (unfold n, pass_no; destruct (Rltb _ _); lia). nia.
  Qed.
End History.

Lemma jenkins_history_default s N u cst u0 :
  (0 < N)%nat -> 0 <= j_Fs s ->
  let r := jenkins_local_force_history s (rows N u cst) u0 2 default_tol default_tol in
  let n := pass_no (pass_law (j_kt s) (j_Fs s) N u u0 0 (N - 1)) in
  (exists s' os, r = Ok (s', os) /\ length os = N /\ same_params s s') /\
  forall k, (k < N)%nat ->
    forces_at r k = pass_law (j_kt s) (j_Fs s) N u u0 n k /\
    forall i, derivs_at r k i = dpass_law (j_kt s) (j_Fs s) N u cst u0 n k i.
Proof.
  intros HN H0 r n.
  destruct (jenkins_history_spec s N u cst u0 2 default_tol default_tol HN H0)
    as (s' & os & E & El & Ep & Hv).
  { left. unfold default_tol. left. apply Rinv_0_lt_compat. simpl; lra. }
  cbv zeta in Hv. rewrite not_converged_default_iff in Hv.
  replace (Nat.ltb 1 2) with true in Hv by reflexivity. rewrite andb_true_r in Hv.
  split; [exists s', os; auto|].
  unfold r. rewrite E. exact Hv.
Qed.

Lemma jenkins_history_jacobian s N nc (cst : nat -> vec) X :
  (0 < N)%nat -> (0 < nc)%nat -> 0 <= j_Fs s ->
  let hist := fun X : vec =>
    jenkins_local_force_history s (rows N (fun j => rsum nc (fun c => cst j c * X c)) cst) (X O)
                                2 default_tol default_tol in
  let u := repeat_samples N (fun j => rsum nc (fun c => cst j c * X c)) in
  (forall j, (j < 2 * N)%nat -> Rabs (trial (j_kt s) (j_Fs s) u (X O) j) <> j_Fs s) ->
  Rabs (jenkins_law (j_kt s) (j_Fs s) u (X O) (N - 1)) <> default_tol ->
  is_jacobian nc N (fun X k => forces_at (hist X) k) X (fun k c => derivs_at (hist X) k c).
Proof.
  intros HN Hnc H0 hist u Hne Htol.
  pose proof (returned_jacobian (j_kt s) (j_Fs s) N nc cst HN Hnc H0 X (N - 1) ltac:(lia) Hne Htol) as J.
  intros g v t0 Hg Hd k Hk. specialize (J g v t0 Hg Hd k Hk).
  eapply dlim_ext; [|eapply dlim_eq; [exact J|]].
  - intros t. cbv beta. symmetry.
    destruct (jenkins_history_default s N (samples nc cst (g t)) cst (g t O) HN H0) as [_ A].
    apply (A k Hk).
  - apply rsum_ext. intros c Hc. f_equal. symmetry.
    destruct (jenkins_history_default s N (samples nc cst X) cst (X O) HN H0) as [_ A].
    apply (A k Hk).
Qed.
