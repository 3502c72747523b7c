(** Elements with their state, in other units. *)
From Coq Require Import Reals List Arith Bool Lra Lia FunctionalExtensionality.
From Verif.Lib Require Import RSum Py.
From Verif.Spec Require Import Harmonic Elements Slider Coordinates Units.
From Verif.Model Require Import Harmonic LocalForces Aft VibSys SysElements Jenkins Iwan JaxDual JaxFloat JaxFriction RoughContact SysHistory SysHarmonic.
From Verif.Proofs Require Import HarmonicP AftP JenkinsP IwanP VectorIwanP PostHarmonicP CoordinatesP UnitsFloatP UnitsRoughP UnitsP UnitsElementP.
Import ListNotations.
Open Scope R_scope.

Section State.
  Variable u : units.
  Hypothesis Hu : positive_units u.
  Let L := u_length u.
  Let F := u_force u.
  Let W := u_freq u.
  Let HL : 0 < L. Proof. exact (proj1 Hu). Qed.
  Let HF : 0 < F. Proof. exact (proj1 (proj2 Hu)). Qed.
  Let HW : 0 < W. Proof. exact (proj2 (proj2 Hu)). Qed.
  Let kE : u_stiffness u = F / L. Proof. reflexivity. Qed.
  Let kP : 0 < u_stiffness u. Proof. rewrite kE. apply Rdiv_lt_0_compat; assumption. Qed.
  Let kL : u_stiffness u * L = F. Proof. rewrite kE. field. lra. Qed.

  Lemma local_in N Q U V : times L U V -> matvec N Q V = fun d => L * matvec N Q U d.
  Proof. intros H. extensionality d. unfold matvec. rewrite <- rsum_scal_l. apply rsum_ext. intros j _. rewrite H. ring. Qed.

  (** ** static forces *)
  Lemma poly_product (nnl cnl : nat) (T E D Q : mat) i j : matmul nnl (matmul cnl (matmul nnl T E) D) Q i j = matmul nnl (matmul nnl T (matmul cnl E D)) Q i j.
  Proof.
    unfold matmul at 1 4. apply rsum_ext. intros e _. f_equal. unfold matmul. rewrite (rsum_ext cnl _ (fun k => rsum nnl (fun d => T i d * E d k * D k e))) by (intros; rewrite <- rsum_scal_r; reflexivity).
    rewrite rsum_swap. apply rsum_ext. intros d _. rewrite <- rsum_scal_l. apply rsum_ext. intros; ring.
  Qed.

  Lemma spring_static N f g U V : spring_in u N f g -> times L U V -> same_result (scaled2 u) (nl_force f U) (nl_force g V).
  Proof.
    intros H E. destruct H; cbn [nl_force cubic_nl quintic_nl unilateral_nl iwan_nl poly_nl instantaneous_nl same_result].
    - unfold cubic_force. rewrite (local_in N Q U V E). split; [apply matvec_out|apply tdq_times; apply diag_times]; intros d; rewrite ?kE; fold L F; field; lra.
    - unfold quintic_force. rewrite (local_in N Q U V E). split; [apply matvec_out|apply tdq_times; apply diag_times]; intros d; rewrite ?kE; fold L F; field; lra.
    - unfold unilateral_force. rewrite (local_in N Q U V E). cbv zeta. split; [apply matvec_out|apply tdq_times; apply diag_times]; intros d; fold L F.
      + apply (unilateral_force_value u Hu).
      + rewrite (unilateral_force_value u Hu). fold F. replace (- (F * Np d)) with (F * (- Np d)) by ring. rewrite Rltb_scale by exact HF. ring.
    - unfold iwan_force. rewrite (local_in N Q U V E). cbv zeta. rewrite (iwan_phi_in u Hu) by assumption. fold L F.
      assert (S : forall d, Rsign (L * matvec N Q U d) * (L * matvec N Q U d) = L * (Rsign (matvec N Q U d) * matvec N Q U d)) by (intros d; rewrite Rsign_scale by exact HL; ring).
      split; [apply matvec_out|apply tdq_times; apply diag_times]; intros d; rewrite S, Rltb_scale by exact HL.
      + rewrite Rleb_scale, (iwan_value u Hu), Rsign_scale by (try exact HL; try assumption; rewrite sign_abs; apply Rabs_pos). fold F. ring.
      + rewrite (iwan_slope u Hu) by (try assumption; rewrite sign_abs; apply Rabs_pos). ring.
    - unfold poly_force. rewrite (local_in N Q U V E). cbv zeta. split; cbn [fst snd].
      + apply matvec_out. intros d. apply (poly_row u Hu).
      + intros i j. rewrite !poly_product, !tdq, <- rsum_scal_l. apply rsum_ext. intros d _. rewrite <- rsum_scal_l. apply rsum_ext. intros e He. fold L F.
        rewrite (poly_slope u Hu) by exact He. ring.
  Qed.

  (** ** friction histories *)
  Definition cin (x : R * vec) : R * vec := (L * fst x, snd x).

  Lemma jenkins_law_in kt Fs up fp x : j_law (u_stiffness u * kt) (F * Fs) (L * up) (F * fp) (L * x) =
    let '(f, d1, d2, d3) := j_law kt Fs up fp x in (F * f, u_stiffness u * d1, u_stiffness u * d2, d3).
  Proof.
    unfold j_law. replace (u_stiffness u * kt * (L * x - L * up) + F * fp) with (F * (kt * (x - up) + fp)) by (rewrite kE; field; lra). cbv zeta.
    rewrite Rabs_scale, Rltb_scale, Rsign_scale by exact HF. destruct (Rltb Fs (Rabs (kt * (x - up) + fp))); f_equal; try ring; f_equal; try ring; f_equal; ring.
  Qed.

  Lemma jenkins_step_in s x : jenkins_step (jenkins_units u s) (cin x) = rmap (fun p => (jenkins_units u (fst p), co F (u_stiffness u) (snd p))) (jenkins_step s x).
  Proof.
    unfold jenkins_step, j_instant_force_harmonic, j_instant_force. cbn [j_hist j_kt j_Fs jenkins_units cin fst snd]. destruct (j_hist s) as [[up fp]|]; [|reflexivity]. cbn [option_map fst snd].
    fold L F. rewrite jenkins_law_in. destruct (j_law (j_kt s) (j_Fs s) up fp (fst x)) as [[[f d1] d2] d3]. cbn [bind j_f j_dhist j_set_hist jenkins_units option_map].
    destruct (j_dhist s) as [[dup dfp]|]; [|reflexivity]. cbn [rmap option_map fst snd co]. unfold j_set_dhist, jenkins_units. cbn [j_kt j_Fs j_prestress_Fs j_real_Fs j_hist j_dhist j_set_hist option_map fst snd].
    assert (E : (fun c => u_stiffness u * d1 * snd x c + u_stiffness u * d2 * dup c + d3 * (u_stiffness u * dfp c)) = fun c => u_stiffness u * (d1 * snd x c + d2 * dup c + d3 * dfp c)) by (extensionality c; ring).
    rewrite E. reflexivity.
  Qed.
  Lemma jenkins_start_in s x : j_init_history_harmonic (jenkins_units u s) (L * x) = jenkins_units u (j_init_history_harmonic s x).
  Proof.
    unfold j_init_history_harmonic, j_set_dhist, j_set_hist, jenkins_units. cbn [j_kt j_Fs j_prestress_Fs j_real_Fs j_hist j_dhist option_map fst snd]. fold L. f_equal; f_equal; [f_equal; ring|]. f_equal. extensionality c. ring.
  Qed.

  Lemma slider_in phi up fs x : iw_slider (L * phi) (L * up) (L * fs) (L * x) = let '(f, b) := iw_slider phi up fs x in (L * f, b).
  Proof.
    unfold iw_slider. replace (L * x - L * up + L * fs) with (L * (x - up + fs)) by ring. cbv zeta. rewrite Rabs_scale, Rleb_scale, Rsign_scale by exact HL.
    destruct (Rleb (Rabs (x - up + fs)) phi); f_equal; ring.
  Qed.
  Lemma slider_fst phi up fs x : fst (iw_slider (L * phi) (L * up) (L * fs) (L * x)) = L * fst (iw_slider phi up fs x).
  Proof. rewrite slider_in. destruct (iw_slider phi up fs x). reflexivity. Qed.
  Lemma slider_snd phi up fs x : snd (iw_slider (L * phi) (L * up) (L * fs) (L * x)) = snd (iw_slider phi up fs x).
  Proof. rewrite slider_in. destruct (iw_slider phi up fs x). reflexivity. Qed.

  Lemma iwan_instant_in s x upd : iw_instant_force (iwan_units u s) (L * x) upd =
    let '(s', (f, d, b)) := iw_instant_force s x upd in (iwan_units u s', (F * f, u_stiffness u * d, b)).
  Proof.
    unfold iw_instant_force. cbn [iw_phi iw_up iw_fs iw_n iw_w iwan_units]. fold L F.
    assert (A : (fun i => fst (iw_slider (L * iw_phi s i) (L * iw_up s) (L * iw_fs s i) (L * x))) = fun i => L * fst (iw_slider (iw_phi s i) (iw_up s) (iw_fs s i) x)) by (extensionality i; apply slider_fst).
    assert (B : (fun i => snd (iw_slider (L * iw_phi s i) (L * iw_up s) (L * iw_fs s i) (L * x))) = fun i => snd (iw_slider (iw_phi s i) (iw_up s) (iw_fs s i) x)) by (extensionality i; apply slider_snd).
    assert (C : rsum (iw_n s) (fun i => fst (iw_slider (L * iw_phi s i) (L * iw_up s) (L * iw_fs s i) (L * x)) * (u_stiffness u * iw_w s i)) = F * rsum (iw_n s) (fun i => fst (iw_slider (iw_phi s i) (iw_up s) (iw_fs s i) x) * iw_w s i)).
    { rewrite <- rsum_scal_l. apply rsum_ext. intros i _. rewrite slider_fst, <- kL. ring. }
    assert (D : rsum (iw_n s) (fun i => b2R (snd (iw_slider (L * iw_phi s i) (L * iw_up s) (L * iw_fs s i) (L * x))) * (u_stiffness u * iw_w s i)) = u_stiffness u * rsum (iw_n s) (fun i => b2R (snd (iw_slider (iw_phi s i) (iw_up s) (iw_fs s i) x)) * iw_w s i)).
    { rewrite <- rsum_scal_l. apply rsum_ext. intros i _. rewrite slider_snd. ring. }
    cbv zeta. rewrite A, B, C, D. destruct upd; reflexivity.
  Qed.

  Lemma iwan_step_in s x : iw_step (iwan_units u s) (cin x) = rmap (fun p => (iwan_units u (fst p), co F (u_stiffness u) (snd p))) (iw_step s x).
  Proof.
    unfold iw_step, iw_instant_force_harmonic. cbn [cin fst snd]. rewrite iwan_instant_in. destruct (iw_instant_force s (fst x) true) as [s1 [[f d] b]]. cbn [iw_dhist iw_n iw_w iwan_units].
    destruct (iw_dhist s1) as [[dup dfs]|]; [|reflexivity]. cbn [rmap fst snd co]. unfold iw_set_dhist, iwan_units. cbn [iw_n iw_phi iw_w iw_up iw_fp iw_fs iw_dhist]. do 2 f_equal. unfold co. cbn [fst snd]. f_equal.
    extensionality c. rewrite <- rsum_scal_l. apply rsum_ext. intros; ring.
  Qed.
  Lemma iwan_start_in s x : iw_init_history_harmonic (iwan_units u s) (L * x) = iwan_units u (iw_init_history_harmonic s x).
  Proof.
    unfold iw_init_history_harmonic, iw_set_dhist, iw_set_hist, iwan_units. cbn [iw_n iw_phi iw_w iw_up iw_fp iw_fs iw_dhist]. f_equal; [ring|]. extensionality i. unfold vzero. ring.
  Qed.

  (** the first pass *)
  Lemma first_jenkins s n x cst x0 s1 os : (0 < n)%nat -> 0 <= j_Fs s -> time_loop jenkins_step (j_init_history_harmonic s x0) (map (fun j => (x j, cst j)) (seq 0 n)) = Ok (s1, os) ->
    last_force os = jenkins_law (j_kt s) (j_Fs s) (repeat_samples n x) x0 (n - 1).
  Proof.
    intros Hn H0 E. destruct (jenkins_history_spec s n x cst x0 1 default_tol default_tol Hn H0 tol_nonneg) as (s' & os' & E' & Hl & _ & V).
    unfold jenkins_local_force_history, local_force_history in E'. rewrite rows_seq in E. destruct (JenkinsCalls.rows n x cst) as [|r rs] eqn:R; [destruct n; [lia|discriminate]|].
    rewrite E in E'. cbn [bind Nat.sub repeat_loop] in E'. injection E' as <- <-. cbv zeta in V. destruct (V (n - 1)%nat ltac:(lia)) as [V1 _]. cbn [Nat.ltb] in V1. rewrite andb_false_r in V1.
    unfold last_force. rewrite last_nth, map_length, Hl, V1. unfold pass_law. reflexivity.
  Qed.
  Lemma first_iwan s n x cst x0 s1 os : (0 < n)%nat -> phi_ok s -> time_loop iw_step (iw_init_history_harmonic s x0) (map (fun j => (x j, cst j)) (seq 0 n)) = Ok (s1, os) ->
    last_force os = bank_law (iw_n s) (iw_w s) (iw_phi s) (repeat_samples n x) x0 (n - 1).
  Proof.
    intros Hn H0 E. destruct (iwan_history_spec s n x cst x0 1 default_tol default_tol Hn H0 tol_nonneg) as (s' & os' & E' & Hl & _ & V).
    unfold iwan_local_force_history, local_force_history in E'. rewrite rows_seq in E. destruct (JenkinsCalls.rows n x cst) as [|r rs] eqn:R; [destruct n; [lia|discriminate]|].
    rewrite E in E'. cbn [bind Nat.sub repeat_loop] in E'. injection E' as <- <-. cbv zeta in V. destruct (V (n - 1)%nat ltac:(lia)) as [V1 _]. cbn [Nat.ltb] in V1. rewrite andb_false_r in V1.
    unfold last_force. rewrite last_nth, map_length, Hl, V1. rewrite bank_pass_law. reflexivity.
  Qed.

  Definition lfh_in {S : Type} (c : S -> S) (a b : result (S * (vec * (nat -> vec)))) : Prop :=
    same_result (fun p q => fst q = c (fst p) /\ times F (fst (snd p)) (fst (snd q)) /\ mtimes (u_stiffness u) (snd (snd p)) (snd (snd q))) a b.

  Lemma repeats_in f : (default_tol < Rabs f <-> default_tol < F * Rabs f) -> not_converged default_tol default_tol (Rabs (F * f - 0)) (F * f) = not_converged default_tol default_tol (Rabs (f - 0)) f.
  Proof.
    intros H. rewrite !converged_iff, Rabs_scale by exact HF.
    destruct (Rltb default_tol (F * Rabs f)) eqn:A, (Rltb default_tol (Rabs f)) eqn:B; try reflexivity; exfalso; rewrite ?Rltb_true, ?Rltb_false in A; rewrite ?Rltb_true, ?Rltb_false in B; lra.
  Qed.

  Lemma inputs_in n (x : vec) (cst : nat -> vec) : map (fun j => (L * x j, cst j)) (seq 0 n) = map cin (map (fun j => (x j, cst j)) (seq 0 n)).
  Proof. rewrite map_map. reflexivity. Qed.

  Lemma jenkins_lfh_in s n x cst x0 : (0 < n)%nat -> 0 <= j_Fs s ->
    (let f := Rabs (jenkins_law (j_kt s) (j_Fs s) (repeat_samples n x) x0 (n - 1)) in (default_tol < f <-> default_tol < F * f)) ->
    lfh_in (jenkins_units u) (jenkins_lfh s n x cst x0) (jenkins_lfh (jenkins_units u s) n (fun t => L * x t) cst (L * x0)).
  Proof.
    intros Hn H0 Hf. unfold jenkins_lfh, jenkins_local_force_history. rewrite inputs_in, jenkins_start_in.
    rewrite (history_scale jenkins_step (jenkins_units u) cin F (u_stiffness u) jenkins_step_in).
    2:{ intros s1 os E. apply repeats_in. rewrite (first_jenkins s n x cst x0 s1 os Hn H0 E). exact Hf. }
    destruct (local_force_history _ _ _ _ _ _ _) as [[s1 os]|e]; [|reflexivity]. cbn [rmap bind]. unfold lfh_in. cbn [same_result fst snd]. split; [reflexivity|]. split; [intros i; apply nth_fst_scale|intros i j; apply nth_snd_scale].
  Qed.
  Lemma iwan_lfh_in s n x cst x0 : (0 < n)%nat -> phi_ok s ->
    (let f := Rabs (bank_law (iw_n s) (iw_w s) (iw_phi s) (repeat_samples n x) x0 (n - 1)) in (default_tol < f <-> default_tol < F * f)) ->
    lfh_in (iwan_units u) (iwan_lfh s n x cst x0) (iwan_lfh (iwan_units u s) n (fun t => L * x t) cst (L * x0)).
  Proof.
    intros Hn H0 Hf. unfold iwan_lfh, iwan_local_force_history. rewrite inputs_in, iwan_start_in.
    rewrite (history_scale iw_step (iwan_units u) cin F (u_stiffness u) iwan_step_in).
    2:{ intros s1 os E. apply repeats_in. rewrite (first_iwan s n x cst x0 s1 os Hn H0 E). exact Hf. }
    destruct (local_force_history _ _ _ _ _ _ _) as [[s1 os]|e]; [|reflexivity]. cbn [rmap bind]. unfold lfh_in. cbn [same_result fst snd]. split; [reflexivity|]. split; [intros i; apply nth_fst_scale|intros i j; apply nth_snd_scale].
  Qed.

  Lemma hysteretic_in {S : Type} (c : S -> S) lfh lfh' N Q T U V h Nt : times L U V ->
    (forall n x m y m2 cst, ts_cols Nt h (fun d c => aft_Unl N Q U c d) 0 = Ok (n, x) -> ts_cols Nt h (fun d c => aft_Unl N Q U c d) 1 = Ok (m, y) -> ts_cols Nt h eye_col 0 = Ok (m2, cst) ->
       lfh_in c (lfh n (x O) (fun t c => cst c t) (aft_Unl N Q U 0 0)) (lfh' n (fun t => L * x O t) (fun t c => cst c t) (L * aft_Unl N Q U 0 0))) ->
    same_result (fun a b => fst b = c (fst a) /\ scaled3 u (snd a) (snd b)) (@aft_hysteretic S N Q T lfh U h Nt) (@aft_hysteretic S N Q T lfh' V h Nt).
  Proof.
    intros HV H. unfold aft_hysteretic. cbv zeta.
    replace (fun d c => aft_Unl N Q V c d) with (fun d c => L * aft_Unl N Q U c d) by (extensionality d; extensionality i; symmetry; apply Unl_times, HV).
    rewrite (Unl_times N Q U V L 0 0 HV), !(ts_cols_scale Nt h (fun d c => aft_Unl N Q U c d) L).
    destruct (ts_cols Nt h (fun d c => aft_Unl N Q U c d) 0) as [[n x]|e]; [|reflexivity]. cbn [rmap bind fst snd].
    destruct (ts_cols Nt h (fun d c => aft_Unl N Q U c d) 1) as [[n1 x1]|e]; [|reflexivity]. cbn [rmap bind fst snd].
    destruct (ts_cols Nt h eye_col 0) as [[n2 cst]|e]; [|reflexivity]. cbn [bind].
    apply (bind_map _ _ _ _ _ _ (H n x n1 x1 n2 cst eq_refl eq_refl eq_refl)). intros [s [ft df]] [s' [ft' df']] (A & B & C). cbn [fst snd] in A, B, C. subst s'.
    replace (fun _ : nat => ft') with (fun (_ : nat) t => F * ft t) by (extensionality d; extensionality t; symmetry; apply B).
    rewrite (gfc_cols_scale h n (fun _ => ft) F). destruct (gfc_cols h n (fun _ => ft)) as [G|e]; [|reflexivity]. cbn [rmap bind]. destruct (negb (Nat.eqb n Nt)); [reflexivity|].
    replace (fun c' t => df' t c') with (fun c' t => u_stiffness u * df t c') by (extensionality c'; extensionality t; symmetry; apply C).
    rewrite (gfc_cols_scale h n (fun c' t => df t c') (u_stiffness u)). destruct (gfc_cols h n (fun c' t => df t c')) as [dG|e]; [|reflexivity]. cbn [rmap bind same_result fst snd].
    split; [reflexivity|]. split; [apply global_times; reflexivity|split; [apply dU_times; reflexivity|intros r; cbn; ring]].
  Qed.
End State.
