(** The alternating frequency-time evaluations return Fourier coefficients of the sampled forces and
    their exact Jacobians. *)
From Coq Require Import Reals Lra Lia Arith List Bool FunctionalExtensionality.
From Verif.Lib Require Import RSum Calc Py.
From Verif.Spec Require Import Harmonic Calculus Elements.
From Verif.Model Require Import Harmonic LocalForces Aft.
From Verif.Proofs Require Import HarmonicP FourierP HarmonicOpsP.
Import ListNotations.
Open Scope R_scope.

(** ---- derivative of the basis functions ---- *)
Definition comp_dfun (c : comp) (tau : R) : R :=
  match c with Cos k => - (INR k * sin (INR k * tau)) | Sin k => INR k * cos (INR k * tau) end.
Definition dbasis (h : list nat) (c : nat) (tau : R) : R := comp_dfun (nth c (components h) (Cos O)) tau.
Definition dseries (h : list nat) (X : vec) (tau : R) : R :=
  rsum (length (components h)) (fun c => X c * dbasis h c tau).

Lemma series_dseries h X tau : derivable_pt_lim (series h X) tau (dseries h X tau).
Proof.
  unfold series, dseries.
  apply (dlim_rsum _ (fun c t => X c * basis h c t) tau (fun c => X c * dbasis h c tau)).
  intros c Hc. apply dlim_scal. unfold basis, dbasis.
  destruct (nth c (components h) (Cos O)); cbn [comp_fun comp_dfun]; [apply dlim_cos_lin|apply dlim_sin_lin].
Qed.

Section Samples.
  Variables (h : list nat) (Nt : nat).
  Hypothesis Ha : admissible h.
  Hypothesis HN : (2 * list_max h + 1 < Nt)%nat.
  Hypothesis Hev : Nat.even Nt = true.

  Lemma nhc_aft : aft_Nhc h = length (components h).
  Proof. unfold aft_Nhc. symmetry. apply length_components. Qed.

  Lemma nhc_pos : (0 < length (components h))%nat.
  Proof.
    destruct Ha as [Hne [_ Hz]]. destruct h as [|k l]; [congruence|]. unfold components. cbn [flat_map].
    rewrite app_length. destruct k; cbn [length]; lia.
  Qed.

  Lemma ts0 X : exists x, time_series_deriv Nt h X 0 = Ok (Nt, x) /\
    forall n, (n < Nt)%nat -> x n = series h X (sample_phase Nt n).
  Proof.
    destruct (time_series_even Nt h X 0 Ha HN Hev) as [x [g [E [D S]]]]. exists x. split; [exact E|].
    intros n Hn. rewrite S by exact Hn. symmetry. apply D.
  Qed.

  Lemma ts1 X : exists x, time_series_deriv Nt h X 1 = Ok (Nt, x) /\
    forall n, (n < Nt)%nat -> x n = dseries h X (sample_phase Nt n).
  Proof.
    destruct (time_series_even Nt h X 1 Ha HN Hev) as [x [g [E [[g' [D1 D2]] S]]]]. exists x. split; [exact E|].
    intros n Hn. rewrite S by exact Hn. rewrite <- D2.
    apply (uniqueness_limite (series h X) (sample_phase Nt n)); [apply D1|apply series_dseries].
  Qed.

  Lemma ts_cols0 X : exists x, ts_cols Nt h X 0 = Ok (Nt, x) /\
    forall d n, (n < Nt)%nat -> x d n = series h (X d) (sample_phase Nt n).
  Proof.
    unfold ts_cols. destruct (ts0 (fun _ => 0)) as [x0 [E0 _]]. rewrite E0. cbn [bind].
    eexists. split; [reflexivity|]. intros d n Hn. destruct (ts0 (X d)) as [x [E S]]. cbv beta. rewrite E. auto.
  Qed.

  Lemma ts_cols1 X : exists x, ts_cols Nt h X 1 = Ok (Nt, x) /\
    forall d n, (n < Nt)%nat -> x d n = dseries h (X d) (sample_phase Nt n).
  Proof.
    unfold ts_cols. destruct (ts1 (fun _ => 0)) as [x0 [E0 _]]. rewrite E0. cbn [bind].
    eexists. split; [reflexivity|]. intros d n Hn. destruct (ts1 (X d)) as [x [E S]]. cbv beta. rewrite E. auto.
  Qed.

  Definition coefc (x : vec) (c : nat) : R := fourier_coef Nt x (nth c (components h) (Cos O)).

  Lemma gfc_cols_ok x : exists F, gfc_cols h Nt x = Ok F /\
    forall d c, (c < length (components h))%nat -> F d c = coefc (x d) c.
  Proof.
    destruct Ha as [Hne [_ Hz]]. assert (L : (list_max h < Nt)%nat) by lia.
    unfold gfc_cols. destruct (get_fourier_coeff_spec h Nt (fun _ => 0) Hne Hz L) as [v0 [E0 _]]. rewrite E0. cbn [bind].
    eexists. split; [reflexivity|]. intros d c Hc.
    destruct (get_fourier_coeff_spec h Nt (x d) Hne Hz L) as [v [E S]]. cbv beta. rewrite E. apply S. exact Hc.
  Qed.

  Lemma series_eye c tau : (c < length (components h))%nat -> series h (eye_col c) tau = basis h c tau.
  Proof.
    intros Hc. unfold series. rewrite (rsum_single _ c); [|exact Hc|].
    - unfold eye_col. rewrite Nat.eqb_refl. ring.
    - intros i Hi Hne. unfold eye_col. destruct (Nat.eqb_spec i c); [contradiction|ring].
  Qed.
  Lemma dseries_eye c tau : (c < length (components h))%nat -> dseries h (eye_col c) tau = dbasis h c tau.
  Proof.
    intros Hc. unfold dseries. rewrite (rsum_single _ c); [|exact Hc|].
    - unfold eye_col. rewrite Nat.eqb_refl. ring.
    - intros i Hi Hne. unfold eye_col. destruct (Nat.eqb_spec i c); [contradiction|ring].
  Qed.

  Lemma coefc_ext x y c : (forall n, (n < Nt)%nat -> x n = y n) -> coefc x c = coefc y c.
  Proof. intros H. apply fourier_coef_ext. exact H. Qed.
  Lemma coefc_rsum m (f : nat -> vec) c : coefc (fun n => rsum m (fun i => f i n)) c = rsum m (fun i => coefc (f i) c).
  Proof. apply fourier_coef_rsum. Qed.
  Lemma coefc_scal a x c : coefc (fun n => a * x n) c = a * coefc x c.
  Proof. apply fourier_coef_scal. Qed.
  Lemma coefc_scal_r a x c : coefc (fun n => x n * a) c = coefc x c * a.
  Proof. rewrite (coefc_ext _ (fun n => a * x n)) by (intros; ring). rewrite coefc_scal. ring. Qed.
  Lemma coefc_plus x y c : coefc (fun n => x n + y n) c = coefc x c + coefc y c.
  Proof. apply fourier_coef_plus. Qed.

  Lemma dlim_coefc (f : R -> vec) (f' : vec) t c :
    (forall n, (n < Nt)%nat -> derivable_pt_lim (fun s => f s n) t (f' n)) ->
    derivable_pt_lim (fun s => coefc (f s) c) t (coefc f' c).
  Proof.
    intros H. unfold coefc, fourier_coef. apply dlim_scal.
    apply (dlim_rsum Nt (fun n s => f s n * comp_fun _ (sample_phase Nt n)) t (fun n => f' n * comp_fun _ (sample_phase Nt n))).
    intros n Hn. apply dlim_scal_r. apply H. exact Hn.
  Qed.
End Samples.

(** ---- Kronecker products ---- *)
Lemma divmod_block nd c i : (i < nd)%nat -> ((c * nd + i) / nd = c /\ (c * nd + i) mod nd = i)%nat.
Proof.
  intros Hi. split.
  - rewrite Nat.div_add_l by lia. rewrite Nat.div_small by exact Hi. lia.
  - rewrite Nat.add_comm, Nat.mod_add by lia. apply Nat.mod_small. exact Hi.
Qed.

Lemma block_form nb nd r : (r < nb * nd)%nat -> exists c i, (c < nb)%nat /\ (i < nd)%nat /\ r = (c * nd + i)%nat.
Proof.
  intros H. assert (nd <> 0)%nat by lia. exists (r / nd)%nat, (r mod nd)%nat.
  split; [apply Nat.div_lt_upper_bound; lia|]. split; [apply Nat.mod_upper_bound; assumption|].
  pose proof (Nat.div_mod r nd H0). lia.
Qed.

Lemma kron_entry nr nc A c i c' j : (i < nr)%nat -> (j < nc)%nat ->
  kron_eye nr nc A (c * nr + i)%nat (c' * nc + j)%nat = if Nat.eqb c c' then A i j else 0.
Proof.
  intros Hi Hj. unfold kron_eye. destruct (divmod_block nr c i Hi) as [-> ->].
  destruct (divmod_block nc c' j Hj) as [-> ->]. reflexivity.
Qed.

Lemma kron_matvec nb nr nc A x c i : (c < nb)%nat -> (i < nr)%nat ->
  matvec (nb * nc) (kron_eye nr nc A) x (c * nr + i)%nat = matvec nc A (fun d => x (c * nc + d)%nat) i.
Proof.
  intros Hc Hi. unfold matvec. rewrite rsum_blocks. rewrite (rsum_single nb c _ Hc).
  - apply rsum_ext. intros j Hj. rewrite kron_entry by assumption. rewrite Nat.eqb_refl. reflexivity.
  - intros b Hb Hne. apply rsum_zero. intros j Hj. rewrite kron_entry by assumption.
    destruct (Nat.eqb_spec c b); [lia|ring].
Qed.

(** chain rule with linear maps on both sides *)
Lemma jacobian_linear_chain n m (A B : mat) (F : vec -> vec) U J ng :
  is_jacobian n m F (matvec ng B U) J ->
  is_jacobian ng ng (fun U => matvec m A (F (matvec ng B U))) U (matmul n (matmul m A J) B).
Proof.
  intros HJ g v t0 Hg Hv i Hi.
  assert (D : forall r, (r < m)%nat ->
     derivable_pt_lim (fun t => F (matvec ng B (g t)) r) t0 (rsum n (fun s => J r s * matvec ng B v s))).
  { intros r Hr. apply (HJ (fun t => matvec ng B (g t)) (matvec ng B v) t0).
    - intros j Hj. apply matvec_ext. exact Hg.
    - intros j Hj. apply dlim_matvec. exact Hv.
    - exact Hr. }
  eapply dlim_eq.
  - apply (dlim_matvec m A (fun t => F (matvec ng B (g t))) t0 (fun r => rsum n (fun s => J r s * matvec ng B v s))).
    exact D.
  - change (rsum ng (fun j => matmul n (matmul m A J) B i j * v j)) with (matvec ng (matmul n (matmul m A J) B) v i).
    rewrite matvec_matmul. rewrite matvec_matmul. reflexivity.
Qed.

(** the same with a frequency; C gives the derivative in the frequency after the linear map A *)
Lemma joint_linear_chain n m (A B : mat) (F : vec -> R -> vec) U w J Jw ng :
  is_joint_jacobian n m F (matvec ng B U) w J Jw ->
  is_joint_jacobian ng ng (fun U w => matvec m A (F (matvec ng B U) w)) U w (matmul n (matmul m A J) B) (matvec m A Jw).
Proof.
  intros HJ g v om dom t0 Hg Hom Hv Hdom i Hi.
  assert (D : forall r, (r < m)%nat ->
     derivable_pt_lim (fun t => F (matvec ng B (g t)) (om t) r) t0 (rsum n (fun s => J r s * matvec ng B v s) + Jw r * dom)).
  { intros r Hr. apply (HJ (fun t => matvec ng B (g t)) (matvec ng B v) om dom t0).
    - intros j Hj. apply matvec_ext. exact Hg.
    - exact Hom.
    - intros j Hj. apply dlim_matvec. exact Hv.
    - exact Hdom.
    - exact Hr. }
  eapply dlim_eq.
  - apply (dlim_matvec m A (fun t => F (matvec ng B (g t)) (om t)) t0 (fun r => rsum n (fun s => J r s * matvec ng B v s) + Jw r * dom)).
    exact D.
  - change (rsum ng (fun j => matmul n (matmul m A J) B i j * v j)) with (matvec ng (matmul n (matmul m A J) B) v i).
    rewrite matvec_matmul. rewrite matvec_matmul.
    change (rsum m (fun r => A i r * (rsum n (fun s => J r s * matvec ng B v s) + Jw r * dom))
            = rsum m (fun r => A i r * rsum n (fun s => J r s * matvec ng B v s)) + rsum m (fun r => A i r * Jw r) * dom).
    rewrite <- rsum_scal_r, <- rsum_plus. apply rsum_ext. intros r Hr. ring.
Qed.

(** keeping the frequency fixed *)
Lemma joint_fixed n m (F : vec -> R -> vec) U w J Jw :
  is_joint_jacobian n m F U w J Jw -> is_jacobian n m (fun U => F U w) U J.
Proof.
  intros H g v t0 Hg Hv i Hi. eapply dlim_eq.
  - exact (H g v (fun _ => w) 0 t0 Hg eq_refl Hv (dlim_const w t0) i Hi).
  - ring.
Qed.

Section Assembly.
  Variables (N nnl : nat) (Q T : mat) (h : list nat).
  Let nhc := length (components h).

  (** local coefficients: position c*nnl+d *)
  Definition loc (U : vec) : vec := matvec (nhc * N) (kron_eye nnl N Q) U.

  Lemma loc_Unl U c d : (c < nhc)%nat -> (d < nnl)%nat -> loc U (c * nnl + d)%nat = aft_Unl N Q U c d.
  Proof. intros Hc Hd. unfold loc. rewrite kron_matvec by assumption. reflexivity. Qed.

  Lemma global_kron (F : nat -> vec) c i : (c < nhc)%nat -> (i < N)%nat ->
    aft_global N nnl T F (c * N + i)%nat
    = matvec (nhc * nnl) (kron_eye N nnl T) (fun s => F (s mod nnl)%nat (s / nnl)%nat) (c * N + i)%nat.
  Proof.
    intros Hc Hi. rewrite kron_matvec by assumption. unfold aft_global.
    destruct (divmod_block N c i Hi) as [-> ->]. apply matvec_ext. intros d Hd.
    destruct (divmod_block nnl c d Hd) as [-> ->]. reflexivity.
  Qed.

  (** from a local Jacobian to the returned global one *)
  Lemma assembly_jacobian (Floc : vec -> nat -> vec) U J G :
    (forall U r, (r < nhc * N)%nat -> G U r = aft_global N nnl T (Floc (loc U)) r) ->
    is_jacobian (nhc * nnl) (nhc * nnl) (fun V s => Floc V (s mod nnl)%nat (s / nnl)%nat) (loc U) J ->
    is_jacobian (nhc * N) (nhc * N) G U (aft_dU N nnl nhc Q T J).
  Proof.
    intros HG HJ. unfold aft_dU.
    pose proof (jacobian_linear_chain (nhc * nnl) (nhc * nnl) (kron_eye N nnl T) (kron_eye nnl N Q)
                  (fun V s => Floc V (s mod nnl)%nat (s / nnl)%nat) U J (nhc * N) HJ) as C.
    intros g v t0 Hg Hv r Hr. specialize (C g v t0 Hg Hv r Hr). cbv beta in C.
    eapply dlim_ext; [|exact C]. intros t. cbv beta. rewrite HG by exact Hr. symmetry.
    destruct (block_form nhc N r Hr) as [c [i [Hc [Hi ->]]]]. apply (global_kron (Floc (loc (g t)))); assumption.
  Qed.

  Lemma assembly_joint (Floc : R -> vec -> nat -> vec) U w J Jw G :
    (forall U w r, (r < nhc * N)%nat -> G U w r = aft_global N nnl T (Floc w (loc U)) r) ->
    is_joint_jacobian (nhc * nnl) (nhc * nnl) (fun V w s => Floc w V (s mod nnl)%nat (s / nnl)%nat) (loc U) w J
      (fun s => Jw (s mod nnl)%nat (s / nnl)%nat) ->
    is_joint_jacobian (nhc * N) (nhc * N) G U w (aft_dU N nnl nhc Q T J) (aft_global N nnl T Jw).
  Proof.
    intros HG HJ. unfold aft_dU.
    pose proof (joint_linear_chain (nhc * nnl) (nhc * nnl) (kron_eye N nnl T) (kron_eye nnl N Q)
                  (fun V w s => Floc w V (s mod nnl)%nat (s / nnl)%nat) U w J _ (nhc * N) HJ) as C.
    intros g v om dom t0 Hg Hom Hv Hdom r Hr. specialize (C g v om dom t0 Hg Hom Hv Hdom r Hr). cbv beta in C.
    destruct (block_form nhc N r Hr) as [c [i [Hc [Hi ->]]]].
    rewrite <- (global_kron Jw) in C by assumption.
    eapply dlim_ext; [|exact C]. intros t. cbv beta. rewrite HG by exact Hr. symmetry.
    apply (global_kron (Floc (om t) (loc (g t)))); assumption.
  Qed.

  (** the local displacement of local degree of freedom d *)
  Lemma series_Unl U d tau :
    series h (fun c => aft_Unl N Q U c d) tau = local_motion N Q h U d tau.
  Proof.
    unfold local_motion, series, aft_Unl, matvec, dof_coefs.
    rewrite (rsum_ext N _ (fun j => rsum nhc (fun c => Q d j * (U (c * N + j)%nat * basis h c tau))))
      by (intros; rewrite rsum_scal_l; reflexivity).
    rewrite rsum_swap. apply rsum_ext. intros c Hc. rewrite <- rsum_scal_r. apply rsum_ext. intros; ring.
  Qed.

  Lemma local_motion_deriv U d tau :
    derivable_pt_lim (local_motion N Q h U d) tau (dseries h (fun c => aft_Unl N Q U c d) tau).
  Proof.
    eapply dlim_ext; [intros t; apply (series_Unl U d t)|]. apply series_dseries.
  Qed.
End Assembly.

(** ---- separable elements ---- *)
Section Inst.
  Variables (N nnl : nat) (Q T : mat) (law : local_law) (h : list nat) (Nt : nat).
  Hypothesis Ha : admissible h.
  Hypothesis HN : (2 * list_max h + 1 < Nt)%nat.
  Hypothesis Hev : Nat.even Nt = true.
  Let nhc := length (components h).
  Let ph := sample_phase Nt.

  (** local evaluation: V holds the local coefficients at c*nnl+d *)
  Definition lser (V : vec) d tau := series h (fun c => V (c * nnl + d)%nat) tau.
  Definition ldser (V : vec) d tau := dseries h (fun c => V (c * nnl + d)%nat) tau.
  Definition locF (w : R) (V : vec) (d : nat) : vec :=
    coefc h Nt (fun t => law_f law d (lser V d (ph t)) (w * ldser V d (ph t))).
  Definition locJ (w : R) (V : vec) : mat := fun r s =>
    if Nat.eqb (r mod nnl) (s mod nnl)
    then coefc h Nt (fun t => law_du law (r mod nnl) (lser V (r mod nnl) (ph t)) (w * ldser V (r mod nnl) (ph t)) * basis h (s / nnl) (ph t)
                    + law_dv law (r mod nnl) (lser V (r mod nnl) (ph t)) (w * ldser V (r mod nnl) (ph t)) * (w * dbasis h (s / nnl) (ph t)))
                    (r / nnl)
    else 0.
  Definition locW (w : R) (V : vec) (d : nat) : vec :=
    coefc h Nt (fun t => law_dv law d (lser V d (ph t)) (w * ldser V d (ph t)) * ldser V d (ph t)).

  Lemma locJ_joint w V :
    (forall d t, (d < nnl)%nat -> (t < Nt)%nat ->
       exact_partials (law_f law d) (lser V d (ph t)) (w * ldser V d (ph t))
         (law_du law d (lser V d (ph t)) (w * ldser V d (ph t))) (law_dv law d (lser V d (ph t)) (w * ldser V d (ph t)))) ->
    is_joint_jacobian (nhc * nnl) (nhc * nnl) (fun V w s => locF w V (s mod nnl)%nat (s / nnl)%nat) V w (locJ w V)
      (fun s => locW w V (s mod nnl)%nat (s / nnl)%nat).
  Proof.
    intros Hex g v om dom t0 Hg Hom Hv Hdom r Hr. destruct (block_form nhc nnl r Hr) as [c [d [Hc [Hd ->]]]].
    destruct (divmod_block nnl c d Hd) as [E1 E2].
    assert (Hlt : forall c', (c' < nhc)%nat -> (c' * nnl + d < nhc * nnl)%nat) by (intros; nia).
    assert (Es : forall tau, lser (g t0) d tau = lser V d tau).
    { intros tau. unfold lser, series. apply rsum_ext. intros c' Hc'. rewrite Hg by (apply Hlt; exact Hc'). reflexivity. }
    assert (Ed : forall tau, ldser (g t0) d tau = ldser V d tau).
    { intros tau. unfold ldser, dseries. apply rsum_ext. intros c' Hc'. rewrite Hg by (apply Hlt; exact Hc'). reflexivity. }
    assert (D : forall t, (t < Nt)%nat ->
      derivable_pt_lim (fun s => law_f law d (lser (g s) d (ph t)) (om s * ldser (g s) d (ph t))) t0
       (law_du law d (lser V d (ph t)) (w * ldser V d (ph t)) * lser v d (ph t)
        + law_dv law d (lser V d (ph t)) (w * ldser V d (ph t)) * (dom * ldser V d (ph t) + w * ldser v d (ph t)))).
    { intros t Ht. apply (Hex d t Hd Ht (fun s => lser (g s) d (ph t)) (fun s => om s * ldser (g s) d (ph t))).
      - apply Es.
      - rewrite Ed, Hom. reflexivity.
      - unfold lser, series.
        apply (dlim_rsum _ (fun c' s => g s (c' * nnl + d)%nat * basis h c' (ph t)) t0 (fun c' => v (c' * nnl + d)%nat * basis h c' (ph t))).
        intros c' Hc'. apply dlim_scal_r. apply Hv. apply Hlt. exact Hc'.
      - rewrite <- (Ed (ph t)), <- Hom. apply (dlim_mult om (fun s => ldser (g s) d (ph t)) t0 dom (ldser v d (ph t))); [exact Hdom|]. unfold ldser, dseries.
        apply (dlim_rsum _ (fun c' s => g s (c' * nnl + d)%nat * dbasis h c' (ph t)) t0 (fun c' => v (c' * nnl + d)%nat * dbasis h c' (ph t))).
        intros c' Hc'. apply dlim_scal_r. apply Hv. apply Hlt. exact Hc'. }
    rewrite E1, E2. unfold locF.
    eapply dlim_eq; [apply (dlim_coefc h Nt (fun s t => law_f law d (lser (g s) d (ph t)) (om s * ldser (g s) d (ph t))) _ t0 c D)|].
    rewrite rsum_blocks. unfold locW. rewrite <- (coefc_scal_r h Nt dom).
    rewrite (rsum_ext nhc _ (fun c' => coefc h Nt (fun t =>
        (law_du law d (lser V d (ph t)) (w * ldser V d (ph t)) * basis h c' (ph t)
         + law_dv law d (lser V d (ph t)) (w * ldser V d (ph t)) * (w * dbasis h c' (ph t))) * v (c' * nnl + d)%nat) c)).
    - rewrite <- coefc_rsum, <- coefc_plus. apply coefc_ext. intros t Ht.
      rewrite (rsum_ext nhc _ (fun c' => law_du law d (lser V d (ph t)) (w * ldser V d (ph t)) * (v (c' * nnl + d)%nat * basis h c' (ph t))
         + law_dv law d (lser V d (ph t)) (w * ldser V d (ph t)) * w * (v (c' * nnl + d)%nat * dbasis h c' (ph t)))) by (intros; ring).
      rewrite rsum_plus, !rsum_scal_l.
      change (rsum nhc (fun c' => v (c' * nnl + d)%nat * basis h c' (ph t))) with (lser v d (ph t)).
      change (rsum nhc (fun c' => v (c' * nnl + d)%nat * dbasis h c' (ph t))) with (ldser v d (ph t)). ring.
    - intros c' Hc'. rewrite (rsum_single nnl d _ Hd).
      + unfold locJ. rewrite E1, E2. destruct (divmod_block nnl c' d Hd) as [-> ->]. rewrite Nat.eqb_refl.
        rewrite <- coefc_scal_r. reflexivity.
      + intros d' Hd' Hne. unfold locJ. rewrite E2. destruct (divmod_block nnl c' d' Hd') as [_ ->].
        destruct (Nat.eqb_spec d d'); [lia|ring].
  Qed.

  Lemma locJ_jacobian w V :
    (forall d t, (d < nnl)%nat -> (t < Nt)%nat ->
       exact_partials (law_f law d) (lser V d (ph t)) (w * ldser V d (ph t))
         (law_du law d (lser V d (ph t)) (w * ldser V d (ph t))) (law_dv law d (lser V d (ph t)) (w * ldser V d (ph t)))) ->
    is_jacobian (nhc * nnl) (nhc * nnl) (fun V s => locF w V (s mod nnl)%nat (s / nnl)%nat) V (locJ w V).
  Proof. intros Hex. exact (joint_fixed _ _ _ _ _ _ _ (locJ_joint w V Hex)). Qed.

  Lemma series_ext X Y tau : (forall c, (c < nhc)%nat -> X c = Y c) -> series h X tau = series h Y tau.
  Proof. intros H. unfold series. apply rsum_ext. intros c Hc. rewrite H by exact Hc. reflexivity. Qed.
  Lemma dseries_ext X Y tau : (forall c, (c < nhc)%nat -> X c = Y c) -> dseries h X tau = dseries h Y tau.
  Proof. intros H. unfold dseries. apply rsum_ext. intros c Hc. rewrite H by exact Hc. reflexivity. Qed.

  Lemma lser_loc U d tau : (d < nnl)%nat -> lser (loc N nnl Q h U) d tau = local_motion N Q h U d tau.
  Proof.
    intros Hd. rewrite <- series_Unl. apply series_ext. intros c Hc. apply loc_Unl; assumption.
  Qed.
  Lemma ldser_loc U d tau : (d < nnl)%nat -> ldser (loc N nnl Q h U) d tau = dseries h (fun c => aft_Unl N Q U c d) tau.
  Proof. intros Hd. apply dseries_ext. intros c Hc. apply loc_Unl; assumption. Qed.

  Lemma aft_global_ext (F G : nat -> vec) r :
    (r < nhc * N)%nat -> (forall d c, (d < nnl)%nat -> (c < nhc)%nat -> F d c = G d c) ->
    aft_global N nnl T F r = aft_global N nnl T G r.
  Proof.
    intros Hr H. destruct (block_form nhc N r Hr) as [c [i [Hc [Hi ->]]]]. unfold aft_global.
    destruct (divmod_block N c i Hi) as [-> ->]. apply matvec_ext. intros d Hd. apply H; assumption.
  Qed.

  Lemma dU_ext J J' r s : (forall a b, (a < nhc * nnl)%nat -> (b < nhc * nnl)%nat -> J a b = J' a b) ->
    aft_dU N nnl nhc Q T J r s = aft_dU N nnl nhc Q T J' r s.
  Proof.
    intros H. unfold aft_dU, matmul. apply rsum_ext. intros a Ha'. f_equal. apply rsum_ext. intros b Hb. rewrite H by assumption. reflexivity.
  Qed.

  Lemma is_jacobian_ext n m F F' X J J' :
    (forall X i, (i < m)%nat -> F X i = F' X i) -> (forall i j, (i < m)%nat -> (j < n)%nat -> J i j = J' i j) ->
    is_jacobian n m F X J -> is_jacobian n m F' X J'.
  Proof.
    intros HF HJ H g v t0 Hg Hv i Hi. specialize (H g v t0 Hg Hv i Hi).
    eapply dlim_ext; [intros t; apply HF; exact Hi|]. eapply dlim_eq; [exact H|].
    apply rsum_ext. intros j Hj. rewrite HJ by assumption. reflexivity.
  Qed.

  Lemma is_joint_ext n m F F' X w J J' Jw Jw' :
    (forall X w i, (i < m)%nat -> F X w i = F' X w i) -> (forall i j, (i < m)%nat -> (j < n)%nat -> J i j = J' i j) ->
    (forall i, (i < m)%nat -> Jw i = Jw' i) ->
    is_joint_jacobian n m F X w J Jw -> is_joint_jacobian n m F' X w J' Jw'.
  Proof.
    intros HF HJ HW H g v om dom t0 Hg Hom Hv Hdom i Hi. specialize (H g v om dom t0 Hg Hom Hv Hdom i Hi).
    eapply dlim_ext; [intros t; apply HF; exact Hi|]. eapply dlim_eq; [exact H|].
    rewrite <- HW by exact Hi. f_equal. apply rsum_ext. intros j Hj. rewrite HJ by assumption. reflexivity.
  Qed.

  (** the value returned by aft *)
  Lemma aft_inst_value U w : exists F dU dw,
    aft_instantaneous N nnl Q T law U w h Nt = Ok (F, dU, dw) /\
    (forall r, (r < nhc * N)%nat -> F r = aft_global N nnl T (locF w (loc N nnl Q h U)) r) /\
    (forall r s, dU r s = aft_dU N nnl nhc Q T (locJ w (loc N nnl Q h U)) r s) /\
    (w <> 0 -> forall r, (r < nhc * N)%nat -> dw r = aft_global N nnl T (locW w (loc N nnl Q h U)) r).
  Proof.
    unfold aft_instantaneous.
    destruct (ts_cols0 h Nt Ha HN Hev (fun d c => aft_Unl N Q U c d)) as [u0 [E0 S0]]. rewrite E0. cbn [bind].
    destruct (ts_cols1 h Nt Ha HN Hev (fun d c => aft_Unl N Q U c d)) as [u1 [E1 S1]]. rewrite E1. cbn [bind].
    set (ft := fun d t => law_f law d (u0 d t) (w * u1 d t)).
    destruct (gfc_cols_ok h Nt Ha HN ft) as [F [EF SF]]. rewrite EF. cbn [bind].
    destruct (ts_cols0 h Nt Ha HN Hev eye_col) as [cst [Ec Sc]]. rewrite Ec. cbn [bind].
    rewrite Nat.eqb_refl. cbn [negb].
    destruct (ts_cols1 h Nt Ha HN Hev eye_col) as [sct [Es Ss]]. rewrite Es. cbn [bind].
    set (dfduh := fun e t => law_du law (e mod nnl) (u0 (e mod nnl)%nat t) (w * u1 (e mod nnl)%nat t) * cst (e / nnl)%nat t
             + law_dv law (e mod nnl) (u0 (e mod nnl)%nat t) (w * u1 (e mod nnl)%nat t) * (w * sct (e / nnl)%nat t)).
    destruct (gfc_cols_ok h Nt Ha HN dfduh) as [dF [EdF SdF]]. rewrite EdF. cbn [bind].
    rewrite nhc_aft. fold nhc.
    assert (U0 : forall d t, (d < nnl)%nat -> (t < Nt)%nat -> u0 d t = lser (loc N nnl Q h U) d (ph t)).
    { intros d t Hd Ht. rewrite S0 by exact Ht. rewrite lser_loc by exact Hd. apply series_Unl. }
    assert (U1 : forall d t, (d < nnl)%nat -> (t < Nt)%nat -> u1 d t = ldser (loc N nnl Q h U) d (ph t)).
    { intros d t Hd Ht. rewrite S1 by exact Ht. rewrite ldser_loc by exact Hd. reflexivity. }
    assert (VF : forall r, (r < nhc * N)%nat -> aft_global N nnl T F r = aft_global N nnl T (locF w (loc N nnl Q h U)) r).
    { intros r Hr. apply aft_global_ext; [exact Hr|]. intros d c Hd Hc. rewrite SF by exact Hc. unfold locF.
      apply coefc_ext. intros t Ht. unfold ft. rewrite U0, U1 by assumption. reflexivity. }
    set (J := fun r s : nat => if Nat.eqb (r mod nnl) (s mod nnl)
                  then dF (r mod nnl + nnl * (s / nnl))%nat (r / nnl)%nat else 0).
    assert (VJ : forall r s, aft_dU N nnl nhc Q T J r s = aft_dU N nnl nhc Q T (locJ w (loc N nnl Q h U)) r s).
    { intros r s. apply dU_ext. intros a b Ha' Hb.
      destruct (block_form nhc nnl a Ha') as [c [d [Hc [Hd ->]]]].
      destruct (block_form nhc nnl b Hb) as [c' [d' [Hc' [Hd' ->]]]].
      unfold J, locJ. destruct (divmod_block nnl c d Hd) as [-> ->]. destruct (divmod_block nnl c' d' Hd') as [-> ->].
      destruct (Nat.eqb_spec d d') as [<-|]; [|reflexivity].
      rewrite SdF by exact Hc. apply coefc_ext. intros t Ht. unfold dfduh.
      replace (d + nnl * c')%nat with (c' * nnl + d)%nat by lia.
      destruct (divmod_block nnl c' d Hd) as [-> ->].
      rewrite U0, U1, Sc, Ss by assumption. rewrite series_eye, dseries_eye by assumption. reflexivity. }
    destruct (Reqb w 0) eqn:Ew.
    - exists (aft_global N nnl T F), (aft_dU N nnl nhc Q T J), (fun _ => 0).
      split; [reflexivity|]. split; [exact VF|]. split; [exact VJ|].
      intros Hw. exfalso. unfold Reqb in Ew. destruct (Req_EM_T w 0); [contradiction|discriminate].
    - assert (Hw : w <> 0) by (unfold Reqb in Ew; destruct (Req_EM_T w 0); [discriminate|assumption]).
      set (gw := fun d t => law_dv law d (u0 d t) (w * u1 d t) * (w * u1 d t / w)).
      destruct (gfc_cols_ok h Nt Ha HN gw) as [dW [EW SW]]. fold gw in EW.
      match goal with |- context [gfc_cols h Nt ?x] => change x with gw end. rewrite EW. cbn [bind].
      exists (aft_global N nnl T F), (aft_dU N nnl nhc Q T J), (aft_global N nnl T dW).
      split; [reflexivity|]. split; [exact VF|]. split; [exact VJ|].
      intros _ r Hr. apply aft_global_ext; [exact Hr|]. intros d c Hd Hc. rewrite SW by exact Hc. unfold locW.
      apply coefc_ext. intros t Ht. unfold gw. rewrite U0, U1 by assumption. f_equal. field. exact Hw.
  Qed.

  Notation exact_samples := (exact_samples N nnl Q (law_f law) (law_du law) (law_dv law) h Nt).

  Lemma exact_samples_loc U w : exact_samples U w -> forall d t, (d < nnl)%nat -> (t < Nt)%nat ->
     exact_partials (law_f law d) (lser (loc N nnl Q h U) d (ph t)) (w * ldser (loc N nnl Q h U) d (ph t))
         (law_du law d (lser (loc N nnl Q h U) d (ph t)) (w * ldser (loc N nnl Q h U) d (ph t)))
         (law_dv law d (lser (loc N nnl Q h U) d (ph t)) (w * ldser (loc N nnl Q h U) d (ph t))).
  Proof.
    intros H d t Hd Ht. rewrite lser_loc, ldser_loc by exact Hd. apply H; auto. apply local_motion_deriv.
  Qed.

  Lemma aft_instantaneous_exact :
    exists (F : vec -> R -> vec) (dU : vec -> R -> mat) (dw : vec -> R -> vec),
      (forall U w, aft_instantaneous N nnl Q T law U w h Nt = Ok (F U w, dU U w, dw U w)) /\
      (forall U w (v : nat -> R -> R), (forall d tau, derivable_pt_lim (local_motion N Q h U d) tau (v d tau)) ->
         forall c i, (c < nhc)%nat -> (i < N)%nat ->
           F U w (c * N + i)%nat = fourier_coef Nt (fun n => rsum nnl (fun d => T i d *
               law_f law d (local_motion N Q h U d (sample_phase Nt n)) (w * v d (sample_phase Nt n))))
               (nth c (components h) (Cos O))) /\
      (forall U w, exact_samples U w -> is_jacobian (nhc * N) (nhc * N) (fun U => F U w) U (dU U w)) /\
      (forall U w, w <> 0 -> exact_samples U w ->
         is_joint_jacobian (nhc * N) (nhc * N) F U w (dU U w) (dw U w)).
  Proof.
    set (out := fun U w => match aft_instantaneous N nnl Q T law U w h Nt with Ok o => o | Err _ => (fun _ => 0, fun _ _ => 0, fun _ => 0) end).
    exists (fun U w => fst (fst (out U w))), (fun U w => snd (fst (out U w))), (fun U w => snd (out U w)).
    assert (Val : forall U w,
       aft_instantaneous N nnl Q T law U w h Nt = Ok (fst (fst (out U w)), snd (fst (out U w)), snd (out U w)) /\
       (forall r, (r < nhc * N)%nat -> fst (fst (out U w)) r = aft_global N nnl T (locF w (loc N nnl Q h U)) r) /\
       (forall r s, snd (fst (out U w)) r s = aft_dU N nnl nhc Q T (locJ w (loc N nnl Q h U)) r s) /\
       (w <> 0 -> forall r, (r < nhc * N)%nat -> snd (out U w) r = aft_global N nnl T (locW w (loc N nnl Q h U)) r)).
    { intros U w. destruct (aft_inst_value U w) as [F [dU [dw [E [A [B C]]]]]]. unfold out. rewrite E. cbn [fst snd]. auto. }
    split; [|split; [|split]].
    - intros U w. apply (Val U w).
    - intros U w v Hv c i Hc Hi. destruct (Val U w) as [_ [A _]]. rewrite A by nia.
      unfold aft_global. destruct (divmod_block N c i Hi) as [-> ->]. unfold matvec, locF, coefc.
      rewrite (fourier_coef_rsum Nt nnl (fun d n => T i d * law_f law d (local_motion N Q h U d (sample_phase Nt n)) (w * v d (sample_phase Nt n)))).
      apply rsum_ext. intros d Hd. rewrite fourier_coef_scal. f_equal. apply fourier_coef_ext. intros n Hn.
      rewrite lser_loc, ldser_loc by exact Hd. f_equal. f_equal.
      apply (uniqueness_limite (local_motion N Q h U d) (ph n)); [apply local_motion_deriv|apply Hv].
    - intros U w Hex.
      pose proof (assembly_jacobian N nnl Q T h (locF w) U (locJ w (loc N nnl Q h U)) (fun U => fst (fst (out U w)))) as AJ.
      eapply is_jacobian_ext; [reflexivity| |apply AJ].
      + intros r s Hr Hs. symmetry. apply (proj1 (proj2 (proj2 (Val U w)))).
      + intros U' r Hr. apply (proj1 (proj2 (Val U' w))). exact Hr.
      + apply locJ_jacobian. apply exact_samples_loc. exact Hex.
    - intros U w Hw Hex.
      pose proof (assembly_joint N nnl Q T h locF U w (locJ w (loc N nnl Q h U)) (locW w (loc N nnl Q h U))
                    (fun U w => fst (fst (out U w)))) as AJ.
      eapply is_joint_ext; [reflexivity| | |apply AJ].
      + intros r s Hr Hs. symmetry. apply (proj1 (proj2 (proj2 (Val U w)))).
      + intros r Hr. symmetry. apply (proj2 (proj2 (proj2 (Val U w)))); assumption.
      + intros U' w' r Hr. apply (proj1 (proj2 (Val U' w'))). exact Hr.
      + apply locJ_joint. apply exact_samples_loc. exact Hex.
  Qed.
End Inst.

(** ---- coupled (polynomial) elements ---- *)
Section Coupled.
  Variables (N nnl : nat) (Q T : mat) (row : vec -> vec * mat) (h : list nat) (Nt : nat).
  Hypothesis Ha : admissible h.
  Hypothesis HN : (2 * list_max h + 1 < Nt)%nat.
  Hypothesis Hev : Nat.even Nt = true.
  Hypothesis Hrow : forall u, is_jacobian nnl nnl (fun u => fst (row u)) u (snd (row u)).
  Hypothesis Hext : forall u u', (forall d, (d < nnl)%nat -> u d = u' d) ->
     (forall d, (d < nnl)%nat -> fst (row u) d = fst (row u') d) /\
     (forall d e, (d < nnl)%nat -> (e < nnl)%nat -> snd (row u) d e = snd (row u') d e).
  Let nhc := length (components h).
  Let ph := sample_phase Nt.

  Definition crow (V : vec) (t : nat) : vec := fun d => lser nnl h V d (ph t).
  Definition cF (V : vec) (d : nat) : vec := coefc h Nt (fun t => fst (row (crow V t)) d).
  Definition cJ (V : vec) : mat := fun r s =>
    coefc h Nt (fun t => snd (row (crow V t)) (r mod nnl)%nat (s mod nnl)%nat * basis h (s / nnl) (ph t)) (r / nnl).

  Lemma cJ_jacobian V :
    is_jacobian (nhc * nnl) (nhc * nnl) (fun V s => cF V (s mod nnl)%nat (s / nnl)%nat) V (cJ V).
  Proof.
    intros g v t0 Hg Hv r Hr. destruct (block_form nhc nnl r Hr) as [c [d [Hc [Hd ->]]]].
    destruct (divmod_block nnl c d Hd) as [E1 E2].
    assert (Hlt : forall c' d', (c' < nhc)%nat -> (d' < nnl)%nat -> (c' * nnl + d' < nhc * nnl)%nat) by (intros; nia).
    assert (D : forall t, (t < Nt)%nat ->
      derivable_pt_lim (fun s => fst (row (crow (g s) t)) d) t0
        (rsum nnl (fun e => snd (row (crow V t)) d e * lser nnl h v e (ph t)))).
    { intros t Ht. apply (Hrow (crow V t) (fun s => crow (g s) t) (fun e => lser nnl h v e (ph t)) t0); [| |exact Hd].
      - intros e He. unfold crow, lser, series. apply rsum_ext. intros c' Hc'. rewrite Hg by (apply Hlt; assumption). reflexivity.
      - intros e He. unfold crow, lser, series.
        apply (dlim_rsum _ (fun c' s => g s (c' * nnl + e)%nat * basis h c' (ph t)) t0 (fun c' => v (c' * nnl + e)%nat * basis h c' (ph t))).
        intros c' Hc'. apply dlim_scal_r. apply Hv. apply Hlt; assumption. }
    rewrite E1, E2. unfold cF.
    eapply dlim_eq; [apply (dlim_coefc h Nt (fun s t => fst (row (crow (g s) t)) d) _ t0 c D)|].
    rewrite rsum_blocks.
    rewrite (rsum_ext nhc _ (fun c' => rsum nnl (fun e => coefc h Nt (fun t =>
        snd (row (crow V t)) d e * basis h c' (ph t) * v (c' * nnl + e)%nat) c))).
    - rewrite rsum_swap. rewrite (rsum_ext nnl (fun i => rsum nhc _)
        (fun e => coefc h Nt (fun t => snd (row (crow V t)) d e * lser nnl h v e (ph t)) c)).
      + rewrite <- coefc_rsum. reflexivity.
      + intros e He. rewrite <- coefc_rsum. apply coefc_ext. intros t Ht. unfold lser, series.
        rewrite <- rsum_scal_l. apply rsum_ext. intros; ring.
    - intros c' Hc'. apply rsum_ext. intros e He. unfold cJ. rewrite E1, E2.
      destruct (divmod_block nnl c' e He) as [-> ->]. rewrite <- coefc_scal_r. reflexivity.
  Qed.

  Lemma aft_coupled_value U w : exists F dU,
    aft_coupled N nnl Q T row U w h Nt = Ok (F, dU, fun _ => 0) /\
    (forall r, (r < nhc * N)%nat -> F r = aft_global N nnl T (cF (loc N nnl Q h U)) r) /\
    (forall r s, dU r s = aft_dU N nnl nhc Q T (cJ (loc N nnl Q h U)) r s).
  Proof.
    unfold aft_coupled.
    destruct (ts_cols0 h Nt Ha HN Hev (fun d c => aft_Unl N Q U c d)) as [u0 [E0 S0]]. rewrite E0. cbn [bind].
    destruct (ts_cols1 h Nt Ha HN Hev (fun d c => aft_Unl N Q U c d)) as [u1 [E1 S1]]. rewrite E1. cbn [bind].
    set (ft := fun d t => fst (row (fun e => u0 e t)) d).
    destruct (gfc_cols_ok h Nt Ha HN ft) as [F [EF SF]]. rewrite EF. cbn [bind].
    destruct (ts_cols0 h Nt Ha HN Hev eye_col) as [cst [Ec Sc]]. rewrite Ec. cbn [bind].
    rewrite Nat.eqb_refl. cbn [negb].
    set (dfduh := fun e t => snd (row (fun e0 => u0 e0 t)) (e mod nnl)%nat ((e / nnl) mod nnl)%nat * cst (e / nnl / nnl)%nat t).
    destruct (gfc_cols_ok h Nt Ha HN dfduh) as [dF [EdF SdF]]. rewrite EdF. cbn [bind].
    rewrite nhc_aft. fold nhc.
    assert (U0 : forall d t, (d < nnl)%nat -> (t < Nt)%nat -> u0 d t = crow (loc N nnl Q h U) t d).
    { intros d t Hd Ht. rewrite S0 by exact Ht. unfold crow. rewrite (lser_loc N nnl Q h U d) by exact Hd. apply series_Unl. }
    set (J := fun r s : nat => dF (r mod nnl + nnl * (s mod nnl + nnl * (s / nnl)))%nat (r / nnl)%nat).
    exists (aft_global N nnl T F), (aft_dU N nnl nhc Q T J). split; [reflexivity|]. split.
    - intros r Hr. apply (aft_global_ext N nnl T h); [exact Hr|]. intros d c Hd Hc. rewrite SF by exact Hc. unfold cF.
      apply coefc_ext. intros t Ht. unfold ft. apply (proj1 (Hext _ (crow (loc N nnl Q h U) t) (fun e He => U0 e t He Ht))). exact Hd.
    - intros r s. apply (dU_ext N nnl Q T h). intros a b Ha' Hb.
      destruct (block_form nhc nnl a Ha') as [c [d [Hc [Hd ->]]]].
      destruct (block_form nhc nnl b Hb) as [c' [d' [Hc' [Hd' ->]]]].
      unfold J, cJ. destruct (divmod_block nnl c d Hd) as [-> ->]. destruct (divmod_block nnl c' d' Hd') as [-> ->].
      rewrite SdF by exact Hc. apply coefc_ext. intros t Ht. unfold dfduh.
      replace (d + nnl * (d' + nnl * c'))%nat with ((c' * nnl + d') * nnl + d)%nat by lia.
      destruct (divmod_block nnl (c' * nnl + d') d Hd) as [-> ->]. destruct (divmod_block nnl c' d' Hd') as [-> ->].
      rewrite Sc by exact Ht. rewrite series_eye by exact Hc'. f_equal.
      apply (proj2 (Hext _ (crow (loc N nnl Q h U) t) (fun e He => U0 e t He Ht))); assumption.
  Qed.

  Lemma aft_coupled_exact :
    exists (F : vec -> vec) (dU : vec -> mat),
      (forall U w, aft_coupled N nnl Q T row U w h Nt = Ok (F U, dU U, fun _ => 0)) /\
      (forall U c i, (c < nhc)%nat -> (i < N)%nat ->
           F U (c * N + i)%nat = fourier_coef Nt (fun n => rsum nnl (fun d => T i d *
               fst (row (fun e => local_motion N Q h U e (sample_phase Nt n))) d))
               (nth c (components h) (Cos O))) /\
      (forall U, is_jacobian (nhc * N) (nhc * N) F U (dU U)).
  Proof.
    set (out := fun U => match aft_coupled N nnl Q T row U 0 h Nt with Ok o => o | Err _ => (fun _ => 0, fun _ _ => 0, fun _ => 0) end).
    exists (fun U => fst (fst (out U))), (fun U => snd (fst (out U))).
    assert (Val : forall U w,
       aft_coupled N nnl Q T row U w h Nt = Ok (fst (fst (out U)), snd (fst (out U)), fun _ => 0) /\
       (forall r, (r < nhc * N)%nat -> fst (fst (out U)) r = aft_global N nnl T (cF (loc N nnl Q h U)) r) /\
       (forall r s, snd (fst (out U)) r s = aft_dU N nnl nhc Q T (cJ (loc N nnl Q h U)) r s)).
    { intros U w. change (aft_coupled N nnl Q T row U w h Nt) with (aft_coupled N nnl Q T row U 0 h Nt).
      destruct (aft_coupled_value U 0) as [F [dU [E [A B]]]]. unfold out. rewrite E. cbn [fst snd]. auto. }
    split; [|split].
    - intros U w. apply (Val U w).
    - intros U c i Hc Hi. destruct (Val U 0) as [_ [A _]]. rewrite A by nia.
      unfold aft_global. destruct (divmod_block N c i Hi) as [-> ->]. unfold matvec, cF, coefc.
      rewrite (fourier_coef_rsum Nt nnl (fun d n => T i d * fst (row (fun e => local_motion N Q h U e (sample_phase Nt n))) d)).
      apply rsum_ext. intros d Hd. rewrite fourier_coef_scal. f_equal. apply fourier_coef_ext. intros n Hn.
      apply (proj1 (Hext _ (fun e => local_motion N Q h U e (sample_phase Nt n))
                (fun e He => lser_loc N nnl Q h U e (ph n) He))). exact Hd.
    - intros U. 
      pose proof (assembly_jacobian N nnl Q T h cF U (cJ (loc N nnl Q h U)) (fun U => fst (fst (out U)))) as AJ.
      eapply is_jacobian_ext; [reflexivity| |apply AJ].
      + intros r s Hr Hs. symmetry. apply (proj2 (proj2 (Val U 0))).
      + intros U' r Hr. apply (proj1 (proj2 (Val U' 0))). exact Hr.
      + apply cJ_jacobian.
  Qed.
End Coupled.
