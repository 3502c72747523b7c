(** The JAX friction elements: aft gives the Fourier coefficients of the steady contact forces and their Jacobian. *)
From Coq Require Import Reals Lra Lia Arith List Bool FunctionalExtensionality.
From Verif.Lib Require Import RSum Calc Py.
From Verif.Spec Require Import Harmonic Calculus Slider Elements.
From Verif.Model Require Import Harmonic LocalForces Aft JaxDual JaxFriction.
From Verif.Proofs Require Import HarmonicP FourierP HarmonicOpsP AftP SliderP HysteresisP JaxDualP.
Import ListNotations.
Open Scope R_scope.

(** ---- the harmonic transforms ---- *)
Section Transforms.
  Variables (h : list nat) (Nt : nat).
  Hypothesis Ha : admissible h.
  Hypothesis HN : (2 * list_max h + 1 < Nt)%nat.
  Hypothesis Hev : Nat.even Nt = true.
  Let nhc := length (components h).
  Variable m : nat.

  Lemma ts_dual_grad (Xf : vec -> nat -> nat -> dual) :
    exists unl : vec -> nat -> nat -> dual,
      (forall V, ts_dual Nt h (Xf V) = Ok (Nt, unl V)) /\
      (forall V t d, (t < Nt)%nat -> dv (unl V t d) = series h (fun c => dv (Xf V c d)) (sample_phase Nt t) /\
                     forall i, dt (unl V t d) i = series h (fun c => dt (Xf V c d) i) (sample_phase Nt t)) /\
      (forall X t d, (t < Nt)%nat -> (forall c, (c < nhc)%nat -> dgrad m (fun V => Xf V c d) X) -> dgrad m (fun V => unl V t d) X).
  Proof.
    set (out := fun V => match ts_dual Nt h (Xf V) with Ok (_, u) => u | Err _ => fun _ _ => dconst 0 end). exists out.
    assert (E : forall V, ts_dual Nt h (Xf V) = Ok (Nt, out V) /\ forall t d, (t < Nt)%nat -> dv (out V t d) = series h (fun c => dv (Xf V c d)) (sample_phase Nt t) /\ forall i, dt (out V t d) i = series h (fun c => dt (Xf V c d) i) (sample_phase Nt t)).
    { intros V. unfold out, ts_dual. destruct (ts_cols0 h Nt Ha HN Hev (fun d c => dv (Xf V c d))) as [x [Ex Sx]]. rewrite Ex. cbn [bind]. split; [reflexivity|]. intros t d Ht. cbn [dv dt]. split; [apply Sx; exact Ht|].
      intros i. destruct (ts0 h Nt Ha HN Hev (fun c => dt (Xf V c d) i)) as [y [Ey Sy]]. rewrite Ey. apply Sy. exact Ht. }
    split; [intros V; apply (E V)|]. split; [intros V t d Ht; apply (E V); exact Ht|].
    intros X t d Ht HX g v t0 Hg Hv. cbv beta. eapply dlim_ext; [intros s; symmetry; apply (proj1 (proj2 (E (g s)) t d Ht))|]. unfold series. fold nhc.
    eapply dlim_eq.
    - apply (dlim_rsum nhc (fun c s => dv (Xf (g s) c d) * basis h c (sample_phase Nt t)) t0 (fun c => rsum m (fun j => dt (Xf X c d) j * v j) * basis h c (sample_phase Nt t))). intros c Hc. apply dlim_scal_r. apply (HX c Hc g v t0 Hg Hv).
    - rewrite (rsum_ext m (fun j => dt (out X t d) j * v j) (fun j => rsum nhc (fun c => dt (Xf X c d) j * v j * basis h c (sample_phase Nt t)))).
      + rewrite rsum_swap. apply rsum_ext. intros c Hc. rewrite <- rsum_scal_r. reflexivity.
      + intros j Hj. rewrite (proj2 (proj2 (E X) t d Ht)). unfold series. fold nhc. rewrite <- rsum_scal_r. apply rsum_ext. intros; ring.
  Qed.

  Lemma gfc_dual_grad (Xf : vec -> nat -> nat -> dual) :
    exists F : vec -> nat -> nat -> dual,
      (forall V, gfc_dual h Nt (Xf V) = Ok (F V)) /\
      (forall V c d, (c < nhc)%nat -> dv (F V c d) = coefc h Nt (fun t => dv (Xf V t d)) c /\ forall i, dt (F V c d) i = coefc h Nt (fun t => dt (Xf V t d) i) c) /\
      (forall X c d, (c < nhc)%nat -> (forall t, (t < Nt)%nat -> dgrad m (fun V => Xf V t d) X) -> dgrad m (fun V => F V c d) X).
  Proof.
    set (out := fun V => match gfc_dual h Nt (Xf V) with Ok u => u | Err _ => fun _ _ => dconst 0 end). exists out.
    assert (E : forall V, gfc_dual h Nt (Xf V) = Ok (out V) /\ forall c d, (c < nhc)%nat -> dv (out V c d) = coefc h Nt (fun t => dv (Xf V t d)) c /\ forall i, dt (out V c d) i = coefc h Nt (fun t => dt (Xf V t d) i) c).
    { intros V. unfold out, gfc_dual. destruct (gfc_cols_ok h Nt Ha HN (fun d t => dv (Xf V t d))) as [x [Ex Sx]]. rewrite Ex. cbn [bind]. split; [reflexivity|]. intros c d Hc. cbn [dv dt]. split; [apply Sx; exact Hc|].
      intros i. destruct Ha as [Hne [_ Hz]]. assert (L : (list_max h < Nt)%nat) by lia. destruct (get_fourier_coeff_spec h Nt (fun t => dt (Xf V t d) i) Hne Hz L) as [y [Ey Sy]]. rewrite Ey. apply Sy. exact Hc. }
    split; [intros V; apply (E V)|]. split; [intros V c d Hc; apply (E V); exact Hc|].
    intros X c d Hc HX g v t0 Hg Hv. cbv beta. eapply dlim_ext; [intros s; symmetry; apply (proj1 (proj2 (E (g s)) c d Hc))|].
    eapply dlim_eq.
    - apply (dlim_coefc h Nt (fun s t => dv (Xf (g s) t d)) (fun t => rsum m (fun j => dt (Xf X t d) j * v j)) t0 c). intros t Ht. apply (HX t Ht g v t0 Hg Hv).
    - rewrite (coefc_rsum h Nt m (fun j t => dt (Xf X t d) j * v j)). apply rsum_ext. intros j Hj. rewrite coefc_scal_r. rewrite (proj2 (proj2 (E X) c d Hc)). reflexivity.
  Qed.
End Transforms.

(** ---- assembly ---- *)
Lemma nhc_ok h : admissible h -> Nhc h = Ok (length (components h)).
Proof.
  intros (Hne & Hnd & Hz). unfold Nhc. rewrite nodup_fixed_point by exact Hnd. rewrite Nat.eqb_refl. f_equal. apply (nhc_aft h).
Qed.

Section Assembly.
  Variables (N nnl : nat) (Q T : mat) (h : list nat).
  Hypothesis Ha : admissible h.
  Hypothesis Hnnl : (0 < nnl)%nat.
  Let nhc := length (components h).
  Hypothesis Htwo : (1 < nhc)%nat.
  Variable local_coefs : (nat -> nat -> dual) -> result (nat -> nat -> dual).
  Let m := (nhc * nnl + 1)%nat.
  (** seeded local coefficients *)
  Definition seeded (V : vec) : nat -> nat -> dual := fun c d => dseed V (c * nnl + d)%nat.
  Variable F : vec -> nat -> nat -> dual.
  Hypothesis HF : forall V, local_coefs (seeded V) = Ok (F V).

  Definition join (V : vec) (w : R) : vec := fun i => if Nat.ltb i (nhc * nnl) then V i else w.
  (** the values do not depend on anything else than the local coefficients *)
  Variable Floc : vec -> nat -> vec.
  Hypothesis HFloc : forall V c d, (c < nhc)%nat -> (d < nnl)%nat -> dv (F V c d) = Floc V d c.
  Hypothesis Fext : forall V W d c, (c < nhc)%nat -> (d < nnl)%nat -> (forall j, (j < nhc * nnl)%nat -> V j = W j) -> Floc V d c = Floc W d c.
  (** no tangent with respect to the frequency *)
  Hypothesis Hdw : forall V c d, (c < nhc)%nat -> (d < nnl)%nat -> dt (F V c d) (nhc * nnl)%nat = 0.

  Lemma join_grad V w c d : (c < nhc)%nat -> (d < nnl)%nat -> dgrad m (fun W => F W c d) (join V w) -> is_gradient (nhc * nnl) (fun W => Floc W d c) V (dt (F (join V w) c d)).
  Proof.
    intros Hc Hd G g v t0 Hg Hv. specialize (G (fun t => join (g t) w) (fun j => if Nat.ltb j (nhc * nnl) then v j else 0) t0).
    assert (G' : derivable_pt_lim (fun t => dv (F (join (g t) w) c d)) t0 (rsum m (fun j => dt (F (join V w) c d) j * (if Nat.ltb j (nhc * nnl) then v j else 0)))).
    { apply G.
      - intros j Hj. unfold join. destruct (Nat.ltb_spec j (nhc * nnl)); [apply Hg; assumption|reflexivity].
      - intros j Hj. unfold join. destruct (Nat.ltb_spec j (nhc * nnl)); [apply Hv; assumption|apply dlim_const]. }
    eapply dlim_ext; [|eapply dlim_eq; [exact G'|]].
    - intros t. cbv beta. rewrite HFloc by assumption. apply Fext; try assumption. intros j Hj. unfold join. destruct (Nat.ltb_spec j (nhc * nnl)); [reflexivity|lia].
    - unfold m. rewrite rsum_split. cbn [rsum]. rewrite Nat.add_0_r. destruct (Nat.ltb_spec (nhc * nnl) (nhc * nnl)); [lia|]. rewrite Rmult_0_r, !Rplus_0_r. apply rsum_ext. intros j Hj. destruct (Nat.ltb_spec j (nhc * nnl)); [reflexivity|lia].
  Qed.

  Lemma jax_aft_value U w : exists dw,
    jax_aft N nnl Q T local_coefs U w h = Ok (aft_global N nnl T (fun d c => dv (F (join (loc N nnl Q h U) w) c d)),
      aft_dU N nnl nhc Q T (fun r s => dt (F (join (loc N nnl Q h U) w) (r / nnl)%nat (r mod nnl)%nat) s), dw) /\
    forall r, (r < nhc * N)%nat -> dw r = 0.
  Proof.
    unfold jax_aft. rewrite (nhc_ok h Ha). cbn [bind]. rewrite (nhc_aft h). fold nhc.
    destruct (Nat.eqb_spec nhc 0); [lia|]. assert (ED : ((nhc * nnl + 1) / nhc = nnl)%nat) by (rewrite (Nat.mul_comm nhc nnl), Nat.div_add_l by lia; rewrite Nat.div_small by lia; lia).
    rewrite ED. rewrite (Nat.mul_comm nnl nhc), Nat.eqb_refl. cbn [negb].
    assert (EV : (fun c d => dseed (fun i => if (i <? nhc * nnl)%nat then aft_Unl N Q U (i / nnl) (i mod nnl) else w) (c * nnl + d)%nat) = seeded (join (loc N nnl Q h U) w)).
    { unfold seeded. extensionality c. extensionality d. unfold dseed. f_equal. unfold join. destruct (Nat.ltb_spec (c * nnl + d) (nhc * nnl)); [|reflexivity].
      destruct (block_form nhc nnl (c * nnl + d) H) as (c' & d' & Hc' & Hd' & E). rewrite E. destruct (divmod_block nnl c' d' Hd') as [-> ->]. symmetry. apply loc_Unl; assumption. }
    rewrite EV, HF. cbn [bind]. eexists. split; [reflexivity|]. intros r Hr. cbv beta. destruct (block_form nhc N r Hr) as (c & i & Hc & Hi & ->). destruct (divmod_block N c i Hi) as [-> ->].
    unfold matvec. apply rsum_zero. intros d Hd.
    assert (L : (d * nhc + c < nhc * nnl)%nat) by nia. destruct (block_form nhc nnl _ L) as (c' & d' & Hc' & Hd' & E). rewrite E. destruct (divmod_block nnl c' d' Hd') as [-> ->]. rewrite Hdw by assumption. ring.
  Qed.

  Lemma jax_aft_exact :
    exists (FF : vec -> R -> vec) (dU : vec -> R -> mat) (dw : vec -> R -> vec),
      (forall U w, jax_aft N nnl Q T local_coefs U w h = Ok (FF U w, dU U w, dw U w)) /\
      (forall U w c i, (c < nhc)%nat -> (i < N)%nat -> FF U w (c * N + i)%nat = rsum nnl (fun d => T i d * Floc (loc N nnl Q h U) d c)) /\
      (forall U w r, (r < nhc * N)%nat -> dw U w r = 0) /\
      (forall U w, (forall c d, (c < nhc)%nat -> (d < nnl)%nat -> dgrad m (fun W => F W c d) (join (loc N nnl Q h U) w)) ->
         is_joint_jacobian (nhc * N) (nhc * N) FF U w (dU U w) (dw U w)).
  Proof.
    set (out := fun U w => match jax_aft N nnl Q T local_coefs U w h with Ok r => r | Err _ => (vzero, mzero, vzero) end).
    exists (fun U w => fst (fst (out U w))), (fun U w => snd (fst (out U w))), (fun U w => snd (out U w)).
    assert (Val : forall U w, jax_aft N nnl Q T local_coefs U w h = Ok (fst (fst (out U w)), snd (fst (out U w)), snd (out U w)) /\
      (forall r, (r < nhc * N)%nat -> fst (fst (out U w)) r = aft_global N nnl T (Floc (loc N nnl Q h U)) r) /\
      (forall r, (r < nhc * N)%nat -> snd (out U w) r = 0) /\
      snd (fst (out U w)) = aft_dU N nnl nhc Q T (fun r s => dt (F (join (loc N nnl Q h U) w) (r / nnl)%nat (r mod nnl)%nat) s)).
    { intros U w. destruct (jax_aft_value U w) as (dw & E & Hdw'). unfold out. rewrite E. cbn [fst snd]. split; [reflexivity|]. split; [|split; [exact Hdw'|reflexivity]].
      intros r Hr. apply (aft_global_ext N nnl T h); [exact Hr|]. intros d c Hd Hc. fold nhc in Hc. rewrite HFloc by assumption. apply Fext; try assumption. intros j Hj. unfold join. destruct (Nat.ltb_spec j (nhc * nnl)); [reflexivity|lia]. }
    split; [intros U w; apply (Val U w)|]. split; [|split].
    - intros U w c i Hc Hi. rewrite (proj1 (proj2 (Val U w))) by nia. unfold aft_global. destruct (divmod_block N c i Hi) as [-> ->]. reflexivity.
    - intros U w r Hr. apply (Val U w). exact Hr.
    - intros U w HG.
      assert (J : is_jacobian (nhc * N) (nhc * N) (fun U => aft_global N nnl T (Floc (loc N nnl Q h U))) U (snd (fst (out U w)))).
      { rewrite (proj2 (proj2 (proj2 (Val U w)))). apply (assembly_jacobian N nnl Q T h Floc U _ (fun U => aft_global N nnl T (Floc (loc N nnl Q h U)))); [reflexivity|].
        fold nhc. intros g v t0 Hg Hv r Hr. destruct (block_form nhc nnl r Hr) as (c & d & Hc & Hd & ->). destruct (divmod_block nnl c d Hd) as [-> ->].
        apply (join_grad (loc N nnl Q h U) w c d Hc Hd (HG c d Hc Hd) g v t0 Hg Hv). }
      intros g v om dom t0 Hg Hom Hv Hdom i Hi. eapply dlim_ext; [intros t; symmetry; apply (proj1 (proj2 (Val (g t) (om t))) i Hi)|].
      eapply dlim_eq; [exact (J g v t0 Hg Hv i Hi)|]. rewrite (proj1 (proj2 (proj2 (Val U w))) i Hi). ring.
  Qed.
End Assembly.

(** ---- sliders on the rows of a period ---- *)
Lemma prev_row_mod Nt j : (0 < Nt)%nat -> prev_row Nt (S j mod Nt) = (j mod Nt)%nat.
Proof.
  intros H. unfold prev_row. destruct (Nat.eq_dec (S (j mod Nt)) Nt) as [E|E].
  - assert (S j mod Nt = 0)%nat as ->. { rewrite <- (Nat.add_1_r j), <- Nat.add_mod_idemp_l, Nat.add_1_r, E by lia. apply Nat.mod_same. lia. }
    rewrite Nat.mod_small by lia. lia.
  - assert (S j mod Nt = S (j mod Nt))%nat as ->. { rewrite <- (Nat.add_1_r j), <- Nat.add_mod_idemp_l, Nat.add_1_r by lia. apply Nat.mod_small. pose proof (Nat.mod_upper_bound j Nt). lia. }
    replace (S (j mod Nt) + Nt - 1)%nat with (j mod Nt + 1 * Nt)%nat by lia. rewrite Nat.mod_add by lia. apply Nat.mod_mod. lia.
Qed.

Section DSlider.
  Variables (Nt m : nat) (kt : R).
  Hypothesis HNt : (0 < Nt)%nat.
  (** displacements, limits and start of one column, as functions of the inputs *)
  Variables (u hi : vec -> nat -> dual) (u0 : vec -> dual).
  Hypothesis Hhi : forall V k, (k < Nt)%nat -> 0 <= dv (hi V k).

  Definition dsl_step (V : vec) (i : nat) (x : dual) : dual :=
    dmax (dmin (dadd (dscal kt (dsub (u V i) (u V (prev_row Nt i)))) x) (hi V i)) (dscal (-1) (hi V i)).
  Definition dsl_start (V : vec) : dual := dscal kt (dsub (u V (Nt - 1)%nat) (u0 V)).
  Fixpoint dsl (V : vec) (k : nat) : dual :=
    match k with O => dsl_step V O (dsl_start V) | S j => dsl_step V (S j mod Nt) (dsl V j) end.

  Definition uval (V : vec) : nat -> R := repeat_samples Nt (fun k => dv (u V k)).
  Definition hval (V : vec) : nat -> R := repeat_samples Nt (fun k => dv (hi V k)).
  Definition sval (V : vec) (k : nat) : R := slider kt (fun k => - hval V k) (hval V) (uval V) (dv (u0 V)) k.
  Definition strial (V : vec) (k : nat) : R := slider_trial kt (fun k => - hval V k) (hval V) (uval V) (dv (u0 V)) k.

  Definition dsl_trial (V : vec) (k : nat) : dual :=
    match k with
    | O => dadd (dscal kt (dsub (u V O) (u V (prev_row Nt O)))) (dsl_start V)
    | S j => dadd (dscal kt (dsub (u V (S j mod Nt)%nat) (u V (prev_row Nt (S j mod Nt))))) (dsl V j)
    end.
  Lemma dsl_trial_step V k : dsl V k = dmax (dmin (dsl_trial V k) (hi V (k mod Nt)%nat)) (dscal (-1) (hi V (k mod Nt)%nat)).
  Proof. destruct k; [rewrite Nat.mod_0_l by lia|]; reflexivity. Qed.

  Lemma dsl_value V k : dv (dsl V k) = sval V k /\ dv (dsl_trial V k) = strial V k.
  Proof.
    assert (C : forall x y, Rmax (Rmin x y) (-1 * y) = clamp (- y) y x). { intros x y. unfold clamp. rewrite (Rmin_comm x y), Rmax_comm. f_equal. ring. }
    induction k as [|k [IH _]].
    - assert (T0 : dv (dsl_trial V 0) = strial V 0).
      { unfold strial. cbn [slider_trial dsl_trial dadd dscal dsub dv dsl_start]. rewrite prev_row_0 by exact HNt. unfold uval, repeat_samples. rewrite Nat.mod_0_l by lia. ring. }
      split; [|exact T0]. rewrite dsl_trial_step, dv_max, dv_min, T0. cbn [dscal dv]. rewrite C. unfold sval. cbn [slider]. unfold strial. cbn [slider_trial]. reflexivity.
    - assert (T1 : dv (dsl_trial V (S k)) = strial V (S k)).
      { unfold strial. cbn [slider_trial dsl_trial dadd dscal dsub dv]. rewrite IH. fold (sval V k). rewrite prev_row_mod by exact HNt. unfold uval, repeat_samples. ring. }
      split; [|exact T1]. rewrite dsl_trial_step, dv_max, dv_min, T1. cbn [dscal dv]. rewrite C. unfold sval. cbn [slider]. unfold strial. cbn [slider_trial]. reflexivity.
  Qed.

  Lemma dsl_grad X K :
    (forall k, (k < Nt)%nat -> dlocal m (fun V => u V k) /\ dgrad m (fun V => u V k) X) ->
    (forall k, (k < Nt)%nat -> dlocal m (fun V => hi V k) /\ dgrad m (fun V => hi V k) X) ->
    dlocal m u0 -> dgrad m u0 X ->
    (forall k, (k < K)%nat -> strial X k <> hval X k /\ strial X k <> - hval X k) ->
    forall k, (k < K)%nat -> dlocal m (fun V => dsl V k) /\ dgrad m (fun V => dsl V k) X.
  Proof.
    intros Hu Hh L0 G0 Hne.
    assert (Step : forall k, (k < K)%nat -> dlocal m (fun V => dsl_trial V k) -> dgrad m (fun V => dsl_trial V k) X -> dlocal m (fun V => dsl V k) /\ dgrad m (fun V => dsl V k) X).
    { intros k Hk LT GT. assert (Hm : (k mod Nt < Nt)%nat) by (apply Nat.mod_upper_bound; lia). destruct (Hh _ Hm) as [Lh Gh].
      assert (E : (fun V => dsl V k) = (fun V => dmax (dmin (dsl_trial V k) (hi V (k mod Nt)%nat)) (dscal (-1) (hi V (k mod Nt)%nat)))) by (extensionality V; apply dsl_trial_step).
      rewrite E. split.
      - apply dlocal_clamp; [exact LT|exact Lh|]. intros V W EV. cbn. rewrite (Lh V W EV). reflexivity.
      - destruct (Hne k Hk) as [A B]. apply (dgrad_clamp m X (fun V => dsl_trial V k) (fun V => hi V (k mod Nt)%nat)); try assumption.
        + intros V. apply Hhi. exact Hm.
        + reflexivity.
        + rewrite (proj2 (dsl_value X k)). exact A.
        + rewrite (proj2 (dsl_value X k)). exact B. }
    induction k as [|k IH]; intros Hk.
    - apply Step; [exact Hk| |].
      + intros V W E. cbn. rewrite (proj1 (Hu O HNt) V W E), (L0 V W E). assert (P : (prev_row Nt 0 < Nt)%nat) by (rewrite prev_row_0; lia). rewrite (proj1 (Hu _ P) V W E). rewrite (proj1 (Hu (Nt - 1)%nat ltac:(lia)) V W E). reflexivity.
      + cbn [dsl_trial]. assert (P : (prev_row Nt 0 < Nt)%nat) by (rewrite prev_row_0; lia). apply (dgrad_add m X (fun V => dscal kt (dsub (u V O) (u V (prev_row Nt O)))) dsl_start).
        * apply (dgrad_scal m X kt (fun V => dsub (u V O) (u V (prev_row Nt O)))). apply (dgrad_sub m X (fun V => u V O) (fun V => u V (prev_row Nt O))); [apply Hu; exact HNt|apply Hu; exact P].
        * apply (dgrad_scal m X kt (fun V => dsub (u V (Nt - 1)%nat) (u0 V))). apply (dgrad_sub m X (fun V => u V (Nt - 1)%nat) u0); [apply Hu; lia|exact G0].
    - destruct (IH ltac:(lia)) as [Lk Gk]. assert (Hm : (S k mod Nt < Nt)%nat) by (apply Nat.mod_upper_bound; lia). assert (P : (prev_row Nt (S k mod Nt) < Nt)%nat) by (rewrite prev_row_mod by exact HNt; apply Nat.mod_upper_bound; lia).
      apply Step; [exact Hk| |].
      + intros V W E. cbn [dsl_trial dadd dscal dsub dv]. rewrite (proj1 (Hu _ Hm) V W E), (proj1 (Hu _ P) V W E), (Lk V W E). reflexivity.
      + apply (dgrad_add m X (fun V => dscal kt (dsub (u V (S k mod Nt)%nat) (u V (prev_row Nt (S k mod Nt))))) (fun V => dsl V k)); [|exact Gk].
        apply (dgrad_scal m X kt (fun V => dsub (u V (S k mod Nt)%nat) (u V (prev_row Nt (S k mod Nt))))). apply (dgrad_sub m X (fun V => u V (S k mod Nt)%nat) (fun V => u V (prev_row Nt (S k mod Nt)))); apply Hu; assumption.
  Qed.

  (** no tangent with respect to input q *)
  Lemma dsl_no_tangent V q : (forall k, (k < Nt)%nat -> dt (u V k) q = 0) -> (forall k, (k < Nt)%nat -> dt (hi V k) q = 0) -> dt (u0 V) q = 0 -> forall k, dt (dsl V k) q = 0.
  Proof.
    intros Hu Hh H0.
    assert (Cl : forall x y, dt x q = 0 -> dt y q = 0 -> dt (dmax (dmin x y) (dscal (-1) y)) q = 0).
    { intros x y A B. assert (M : dt (dmin x y) q = 0). { unfold dmin. destruct (Rltb (dv x) (dv y)); [exact A|]. destruct (Rltb (dv y) (dv x)); [exact B|]. cbn. rewrite A, B. field. }
      unfold dmax. destruct (Rltb _ _); [exact M|]. destruct (Rltb _ _); [cbn; rewrite B; ring|]. cbn. rewrite M, B. field. }
    induction k as [|k IH]; rewrite dsl_trial_step; apply Cl; try (apply Hh; apply Nat.mod_upper_bound; lia); cbn [dsl_trial dadd dscal dsub dt dsl_start].
    - rewrite H0, !Hu by (try rewrite prev_row_0; lia). ring.
    - rewrite IH, !Hu; [ring| |apply Nat.mod_upper_bound; lia]. rewrite prev_row_mod by exact HNt. apply Nat.mod_upper_bound; lia.
  Qed.
End DSlider.

Lemma dlocal_more q q' x : (q <= q')%nat -> dlocal q x -> dlocal q' x.
Proof. intros Hq L A B E. apply L. intros j Hj. apply E. lia. Qed.

(** ---- samples of the seeded local coefficients ---- *)
Section Samples.
  Variables (nnl : nat) (h : list nat) (Nt : nat).
  Hypothesis Ha : admissible h.
  Hypothesis HN : (2 * list_max h + 1 < Nt)%nat.
  Hypothesis Hev : Nat.even Nt = true.
  Hypothesis Hnnl : (0 < nnl)%nat.
  Let nhc := length (components h).
  Let m := (nhc * nnl + 1)%nat.

  Lemma seeded_samples : exists unl : vec -> nat -> nat -> dual,
    (forall V, ts_dual Nt h (seeded nnl V) = Ok (Nt, unl V)) /\
    forall t d, (t < Nt)%nat -> (d < nnl)%nat ->
      (forall V, dv (unl V t d) = lser nnl h V d (sample_phase Nt t)) /\
      dlocal (nhc * nnl) (fun V => unl V t d) /\
      (forall X, dgrad m (fun V => unl V t d) X) /\
      (forall V, dt (unl V t d) (nhc * nnl)%nat = 0).
  Proof.
    destruct (ts_dual_grad h Nt Ha HN Hev m (seeded nnl)) as (unl & E & V & G). exists unl. split; [exact E|]. intros t d Ht Hd.
    assert (In : forall c, (c < nhc)%nat -> (c * nnl + d < nhc * nnl)%nat) by (intros; nia).
    split; [intros W; apply (V W t d Ht)|]. split; [|split].
    - intros A B EAB. cbv beta. rewrite (proj1 (V A t d Ht)), (proj1 (V B t d Ht)). apply (series_ext h). intros c Hc. cbn. apply EAB. apply In. exact Hc.
    - intros X. apply (G X t d Ht). intros c Hc. apply dgrad_seed. specialize (In c Hc). fold nhc in Hc. unfold m. lia.
    - intros W. rewrite (proj2 (V W t d Ht)). unfold series. apply rsum_zero. intros c Hc. fold nhc in Hc. specialize (In c Hc). cbn. destruct (Nat.eqb_spec (nhc * nnl) (c * nnl + d)); [lia|ring].
  Qed.
End Samples.

(** ---- JAX Jenkins ---- *)
Section JaxJenkins.
  Variables (N : nat) (Q T : mat) (kt Fs : R) (u0 : option R) (h : list nat) (Nt : nat).
  Hypothesis Ha : admissible h.
  Hypothesis HN : (2 * list_max h + 1 < Nt)%nat.
  Hypothesis Hev : Nat.even Nt = true.
  Let nhc := length (components h).
  Hypothesis Htwo : (1 < nhc)%nat.
  Hypothesis HFs : 0 <= Fs.
  Let m := (nhc * 1 + 1)%nat.

  Definition jstart (V : vec) : R := match u0 with None => V O | Some x => x end.
  Definition jlocF (V : vec) (d : nat) : vec :=
    coefc h Nt (fun n => jenkins_law kt Fs (repeat_samples Nt (fun t => lser 1 h V 0 (sample_phase Nt t))) (jstart V) (Nt + n)).

  Lemma jenkins_law_const u s k : slider kt (fun k => - repeat_samples Nt (fun _ => Fs) k) (repeat_samples Nt (fun _ => Fs)) u s k = jenkins_law kt Fs u s k.
  Proof. reflexivity. Qed.

  Lemma jax_jenkins_local : exists F : vec -> nat -> nat -> dual,
    (forall V, jj_local kt Fs u0 h Nt (seeded 1 V) = Ok (F V)) /\
    (forall V c d, (c < nhc)%nat -> (d < 1)%nat -> dv (F V c d) = jlocF V d c) /\
    (forall V c d, (c < nhc)%nat -> (d < 1)%nat -> dt (F V c d) (nhc * 1)%nat = 0) /\
    (forall X, (forall j, (j < 2 * Nt)%nat -> Rabs (trial kt Fs (repeat_samples Nt (fun t => lser 1 h X 0 (sample_phase Nt t))) (jstart X) j) <> Fs) ->
       forall c d, (c < nhc)%nat -> (d < 1)%nat -> dgrad m (fun V => F V c d) X).
  Proof.
    destruct (seeded_samples 1 h Nt Ha HN Hev ltac:(lia)) as (unl & E & S).
    set (start := fun V : vec => match u0 with None => seeded 1 V O O | Some x => dconst x end).
    destruct (gfc_dual_grad h Nt Ha HN m (fun V => jj_history Nt (unl V) kt Fs (start V))) as (F & EF & VF & GF).
    assert (HNt : (0 < Nt)%nat) by lia.
    assert (Hist : forall V k, (k < Nt)%nat -> jj_history Nt (unl V) kt Fs (start V) k O = dsl Nt kt (fun V k => unl V k O) (fun _ _ => dconst Fs) start V (Nt + k)).
    { intros V k Hk. unfold jj_history.
      set (g := fun (i c : nat) (x : dual) => dmax (dmin (dadd (dscal kt (dsub (unl V i c) (unl V (prev_row Nt i) c))) x) (dconst Fs)) (dconst (- Fs))).
      rewrite (two_passes Nt g HNt (jj_body Nt (unl V) kt Fs) (fun _ => True)); [| |exact I|exact Hk].
      - assert (Z : forall j, rowsteps Nt g (aset (fun _ _ => dconst 0) (Nt - 1) (fun d => dscal kt (dsub (unl V (Nt - 1)%nat d) (start V))) (Nt - 1)%nat) j 0 = dsl Nt kt (fun V k => unl V k O) (fun _ _ => dconst Fs) start V j).
        { assert (Cm : dconst (- Fs) = dscal (-1) (dconst Fs)) by (apply dual_eq; cbn; intros; ring).
          assert (Gd : forall i x, g i O x = dsl_step Nt kt (fun V k => unl V k O) (fun _ _ => dconst Fs) V i x) by (intros i x; unfold g, dsl_step; rewrite Cm; reflexivity).
          induction j as [|j IH]; cbn [rowsteps dsl].
          - rewrite Gd. unfold aset. rewrite Nat.eqb_refl. reflexivity.
          - rewrite Gd. f_equal. exact IH. }
        apply Z.
      - intros i ft Hi _. split; [exact I|]. unfold jj_body, aset. split; [intros c; rewrite Nat.eqb_refl; reflexivity|]. intros t c Ht. destruct (Nat.eqb_spec t i); [contradiction|reflexivity]. }
    assert (Uv : forall V, uval Nt (fun V k => unl V k O) V = repeat_samples Nt (fun t => lser 1 h V 0 (sample_phase Nt t))).
    { intros V. unfold uval, repeat_samples. extensionality k. apply (S (k mod Nt)%nat O); [apply Nat.mod_upper_bound; lia|lia]. }
    assert (Sv : forall V, dv (start V) = jstart V) by (intros V; unfold start, jstart; destruct u0; reflexivity).
    assert (Val : forall V k, (k < Nt)%nat -> dv (jj_history Nt (unl V) kt Fs (start V) k O) = jenkins_law kt Fs (repeat_samples Nt (fun t => lser 1 h V 0 (sample_phase Nt t))) (jstart V) (Nt + k)).
    { intros V k Hk. rewrite Hist by exact Hk. rewrite (proj1 (dsl_value Nt kt HNt _ _ _ V _)). unfold sval. rewrite Uv, Sv. reflexivity. }
    exists F. split; [|split; [|split]].
    - intros V. unfold jj_local. rewrite E. cbn [bind]. exact (EF V).
    - intros V c d Hc Hd. replace d with O by lia. rewrite (proj1 (VF V c O Hc)). unfold jlocF. apply coefc_ext. intros k Hk. apply Val. exact Hk.
    - intros V c d Hc Hd. replace d with O by lia. rewrite (proj2 (VF V c O Hc)). rewrite (coefc_ext h Nt _ (fun _ => 0 * 0)); [rewrite coefc_scal; ring|].
      intros k Hk. rewrite Hist by exact Hk. rewrite Rmult_0_l. apply dsl_no_tangent; [exact HNt| | |].
      + intros t Ht. apply (S t O Ht ltac:(lia)).
      + reflexivity.
      + unfold start. destruct u0; [reflexivity|]. cbn. destruct (Nat.eqb_spec (nhc * 1) 0); [lia|reflexivity].
    - intros X HX c d Hc Hd. replace d with O by lia. apply GF; [exact Hc|]. intros k Hk.
      assert (EH : (fun V => jj_history Nt (unl V) kt Fs (start V) k O) = (fun V => dsl Nt kt (fun V k => unl V k O) (fun _ _ => dconst Fs) start V (Nt + k))) by (extensionality V; apply Hist; exact Hk).
      rewrite EH. apply (dsl_grad Nt m kt HNt (fun V k => unl V k O) (fun _ _ => dconst Fs) start) with (K := (2 * Nt)%nat); [intros; exact HFs| | | | | |lia].
      + intros t Ht. destruct (S t O Ht ltac:(lia)) as (_ & L & G & _). split; [apply (dlocal_more (nhc * 1)); [unfold m; lia|exact L]|apply G].
      + intros t Ht. split; [intros A B _; reflexivity|apply dgrad_const].
      + intros A B EAB. unfold start. destruct u0; [reflexivity|]. cbn. apply EAB. unfold m. lia.
      + unfold start. destruct u0 as [x|]; [apply (dgrad_const m X x)|]. apply (dgrad_seed m X O). unfold m. lia.
      + intros j Hj. specialize (HX j Hj). unfold strial. rewrite Uv, Sv. change (hval Nt (fun _ _ => dconst Fs) X j) with Fs.
        assert (ET : slider_trial kt (fun k => - hval Nt (fun _ _ => dconst Fs) X k) (hval Nt (fun _ _ => dconst Fs) X) (repeat_samples Nt (fun t => lser 1 h X 0 (sample_phase Nt t))) (jstart X) j = trial kt Fs (repeat_samples Nt (fun t => lser 1 h X 0 (sample_phase Nt t))) (jstart X) j) by (destruct j; reflexivity).
        rewrite ET. split; intros Z; apply HX; rewrite Z; [apply Rabs_right; lra|rewrite Rabs_Ropp; apply Rabs_right; lra].
  Qed.

  Lemma jax_jenkins_exact :
    exists (F : vec -> R -> vec) (dU : vec -> R -> mat) (dw : vec -> R -> vec),
      (forall U w, jax_jenkins_aft N Q T kt Fs u0 U w h Nt = Ok (F U w, dU U w, dw U w)) /\
      (forall U w,
         let start := match u0 with None => local_first_coef N Q U | Some x => x end in
         let law := jenkins_law kt Fs (repeat_samples Nt (fun n => local_motion N Q h U 0 (sample_phase Nt n))) start in
         steady_state Nt law (fun n => law (Nt + n)%nat) /\
         forall c i, (c < nhc)%nat -> (i < N)%nat -> F U w (c * N + i)%nat = T i 0%nat * fourier_coef Nt (fun n => law (Nt + n)%nat) (nth c (components h) (Cos O))) /\
      (forall U w r, (r < nhc * N)%nat -> dw U w r = 0) /\
      (forall U w,
         let start := match u0 with None => local_first_coef N Q U | Some x => x end in
         let u := repeat_samples Nt (fun n => local_motion N Q h U 0 (sample_phase Nt n)) in
         (forall j, (j < 2 * Nt)%nat -> Rabs (trial kt Fs u start j) <> Fs) ->
         is_joint_jacobian (nhc * N) (nhc * N) F U w (dU U w) (dw U w)).
  Proof.
    destruct jax_jenkins_local as (F & EF & VF & DF & GF).
    assert (Fext : forall V W d c, (c < nhc)%nat -> (d < 1)%nat -> (forall j, (j < nhc * 1)%nat -> V j = W j) -> jlocF V d c = jlocF W d c).
    { intros V W d c Hc Hd E. unfold jlocF. assert (ES : jstart V = jstart W) by (unfold jstart; destruct u0; [reflexivity|apply E; lia]). rewrite ES. f_equal. extensionality n. f_equal. f_equal. extensionality t. unfold lser. apply (series_ext h). intros c' Hc'. apply E. fold nhc in Hc'. lia. }
    destruct (jax_aft_exact N 1 Q T h Ha ltac:(lia) Htwo (jj_local kt Fs u0 h Nt) F EF jlocF VF Fext DF) as (FF & dU & dw & A & B & C & D). exists FF, dU, dw.
    assert (EM : forall U, (fun n => lser 1 h (loc N 1 Q h U) 0 (sample_phase Nt n)) = (fun n => local_motion N Q h U 0 (sample_phase Nt n))) by (intros U; extensionality n; apply (lser_loc N 1 Q h U O); lia).
    assert (EL : forall U, jstart (loc N 1 Q h U) = match u0 with None => local_first_coef N Q U | Some x => x end).
    { intros U. unfold jstart. destruct u0; [reflexivity|]. change (local_first_coef N Q U) with (aft_Unl N Q U 0 0). exact (loc_Unl N 1 Q h U O O ltac:(lia) ltac:(lia)). }
    split; [exact A|]. split; [|split; [exact C|]].
    - intros U w start law. split.
      + unfold law, jenkins_law. apply jenkins_second_pass_steady; [lia|exact HFs].
      + intros c i Hc Hi. rewrite B by assumption. cbn [rsum]. rewrite Rplus_0_l. unfold jlocF. rewrite EM, EL. reflexivity.
    - intros U w start u HT. apply D. intros c d Hc Hd. apply GF; try assumption. intros j Hj.
      assert (ES : jstart (join 1 h (loc N 1 Q h U) w) = start). { unfold start. rewrite <- EL. unfold jstart. destruct u0; [reflexivity|]. unfold join. fold nhc. destruct (Nat.ltb_spec 0 (nhc * 1)); [reflexivity|lia]. }
      assert (EU : (fun t => lser 1 h (join 1 h (loc N 1 Q h U) w) 0 (sample_phase Nt t)) = (fun n => local_motion N Q h U 0 (sample_phase Nt n))).
      { rewrite <- EM. extensionality t. unfold lser. apply (series_ext h). intros c' Hc'. unfold join. fold nhc in Hc'. fold nhc. destruct (Nat.ltb_spec (c' * 1 + 0) (nhc * 1)); [reflexivity|lia]. }
      rewrite ES, EU. apply HT. exact Hj.
  Qed.
End JaxJenkins.
