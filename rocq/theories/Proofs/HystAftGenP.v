(** HystereticForce.aft for any element: Fourier coefficients and Jacobian from the local history. *)
From Coq Require Import Reals Lra Lia Arith List Bool FunctionalExtensionality.
From Verif.Lib Require Import RSum Calc Py.
From Verif.Spec Require Import Harmonic Calculus Elements Slider JenkinsCalls.
From Verif.Model Require Import Jenkins Harmonic LocalForces Aft.
From Verif.Proofs Require Import HarmonicP FourierP HarmonicOpsP AftP JenkinsP.
Import ListNotations.
Open Scope R_scope.

Section Gen.
  Context {S : Type}.
  Variable lfh : nat -> vec -> (nat -> vec) -> R -> result (S * (vec * (nat -> vec))).
  Variables (N : nat) (Q T : mat) (h : list nat) (Nt : nat).
  Hypothesis Ha : admissible h.
  Hypothesis HN : (2 * list_max h + 1 < Nt)%nat.
  Hypothesis Hev : Nat.even Nt = true.
  Let nhc := length (components h).
  Definition gcst : nat -> vec := fun t c => series h (eye_col c) (sample_phase Nt t).
  Definition gsamples (V : vec) : nat -> R := fun j => rsum nhc (fun c => gcst j c * V c).
  Variables (ff : vec -> nat -> R) (dd : vec -> nat -> vec).
  Hypothesis Hlfh : forall V u cst u0, (forall j, (j < Nt)%nat -> u j = gsamples V j) -> (forall j c, (j < Nt)%nat -> cst j c = gcst j c) -> u0 = V O ->
    exists st ft df, lfh Nt u cst u0 = Ok (st, (ft, df)) /\ forall k, (k < Nt)%nat -> ft k = ff V k /\ forall c, df k c = dd V k c.

  Lemma gsamples_series V j : gsamples V j = series h V (sample_phase Nt j).
  Proof. unfold gsamples, series. apply rsum_ext. intros c Hc. unfold gcst. rewrite series_eye by exact Hc. ring. Qed.

  Definition gF (V : vec) (d : nat) : vec := coefc h Nt (ff V).
  Definition gJ (V : vec) : mat := fun r c' => coefc h Nt (fun t => dd V t c') r.

  Lemma gen_value U : exists st F dU,
    aft_hysteretic N Q T lfh U h Nt = Ok (st, (F, dU, fun _ => 0)) /\
    (forall r, (r < nhc * N)%nat -> F r = aft_global N 1 T (gF (loc N 1 Q h U)) r) /\
    (forall r c, dU r c = aft_dU N 1 nhc Q T (gJ (loc N 1 Q h U)) r c).
  Proof.
    unfold aft_hysteretic.
    destruct (ts_cols0 h Nt Ha HN Hev (fun d c => aft_Unl N Q U c d)) as [u0 [E0 S0]]. rewrite E0. cbn [bind].
    destruct (ts_cols1 h Nt Ha HN Hev (fun d c => aft_Unl N Q U c d)) as [u1 [E1 S1]]. rewrite E1. cbn [bind].
    destruct (ts_cols0 h Nt Ha HN Hev eye_col) as [cst [Ec Sc]]. rewrite Ec. cbn [bind].
    assert (EL : forall c, (c < nhc)%nat -> loc N 1 Q h U c = aft_Unl N Q U c 0).
    { intros c Hc. replace c with (c * 1 + 0)%nat at 1 by lia. apply loc_Unl; [exact Hc|lia]. }
    destruct (Hlfh (loc N 1 Q h U) (u0 O) (fun t c => cst c t) (aft_Unl N Q U 0 0)) as (st & ft & df & Eh & Hv).
    { intros j Hj. rewrite S0 by exact Hj. rewrite gsamples_series. apply (series_ext h). intros c Hc. symmetry. apply EL. exact Hc. }
    { intros j c Hj. rewrite Sc by exact Hj. reflexivity. }
    { symmetry. apply (EL O (AftP.nhc_pos h Nt Ha HN)). }
    rewrite Eh. cbn [bind].
    destruct (gfc_cols_ok h Nt Ha HN (fun _ => ft)) as [F [EF SF]]. rewrite EF. cbn [bind]. rewrite Nat.eqb_refl. cbn [negb].
    destruct (gfc_cols_ok h Nt Ha HN (fun c' t => df t c')) as [dF [EdF SdF]]. rewrite EdF. cbn [bind].
    rewrite nhc_aft. fold nhc. eexists _, _, _. split; [reflexivity|]. split.
    - intros r Hr. apply (aft_global_ext N 1 T h); [exact Hr|]. intros d c Hd Hc. rewrite SF by exact Hc. unfold gF. apply coefc_ext. intros t Ht. apply (Hv t Ht).
    - intros r c. apply (dU_ext N 1 Q T h). intros a b Ha' Hb. fold nhc in Ha', Hb. rewrite SdF by (fold nhc; lia). unfold gJ. apply coefc_ext. intros t Ht. apply (Hv t Ht).
  Qed.

  Lemma gF_jacobian V : is_jacobian nhc Nt ff V (dd V) -> is_jacobian (nhc * 1) (nhc * 1) (fun V r => gF V (r mod 1)%nat (r / 1)%nat) V (gJ V).
  Proof.
    intros J g v t0 Hg Hv r Hr. rewrite Nat.mul_1_r in *. rewrite Nat.mod_1_r, Nat.div_1_r. unfold gF. eapply dlim_eq.
    - apply (dlim_coefc h Nt (fun t k => ff (g t) k) (fun k => rsum nhc (fun c => dd V k c * v c)) t0 r). intros k Hk. apply (J g v t0 Hg Hv k Hk).
    - rewrite (coefc_rsum h Nt nhc (fun c k => dd V k c * v c)). apply rsum_ext. intros c Hc. unfold gJ. rewrite coefc_scal_r. reflexivity.
  Qed.

  Lemma hyst_aft_exact (s0 : S) :
    exists (st : vec -> S) (F : vec -> vec) (dU : vec -> mat),
      (forall U, aft_hysteretic N Q T lfh U h Nt = Ok (st U, (F U, dU U, fun _ => 0))) /\
      (forall U c i, (c < nhc)%nat -> (i < N)%nat -> F U (c * N + i)%nat = T i 0%nat * fourier_coef Nt (ff (loc N 1 Q h U)) (nth c (components h) (Cos O))) /\
      (forall U, is_jacobian nhc Nt ff (loc N 1 Q h U) (dd (loc N 1 Q h U)) -> is_jacobian (nhc * N) (nhc * N) F U (dU U)).
  Proof.
    set (out := fun U => match aft_hysteretic N Q T lfh U h Nt with Ok (st, (F, dU, _)) => (st, F, dU) | Err _ => (s0, fun _ => 0, fun _ _ => 0) end).
    exists (fun U => fst (fst (out U))), (fun U => snd (fst (out U))), (fun U => snd (out U)).
    assert (Val : forall U,
       aft_hysteretic N Q T lfh U h Nt = Ok (fst (fst (out U)), (snd (fst (out U)), snd (out U), fun _ => 0)) /\
       (forall r, (r < nhc * N)%nat -> snd (fst (out U)) r = aft_global N 1 T (gF (loc N 1 Q h U)) r) /\
       (forall r c, snd (out U) r c = aft_dU N 1 nhc Q T (gJ (loc N 1 Q h U)) r c)).
    { intros U. destruct (gen_value U) as [st [F [dU [E [A B]]]]]. unfold out. rewrite E. cbn [fst snd]. auto. }
    split; [|split].
    - intros U. apply (Val U).
    - intros U c i Hc Hi. destruct (Val U) as [_ [A _]]. rewrite A by nia. unfold aft_global. destruct (divmod_block N c i Hi) as [-> ->]. unfold matvec, gF. cbn [rsum]. unfold coefc. rewrite Rplus_0_l. reflexivity.
    - intros U J. pose proof (assembly_jacobian N 1 Q T h gF U (gJ (loc N 1 Q h U)) (fun U => snd (fst (out U)))) as AJ.
      eapply is_jacobian_ext; [reflexivity| |apply AJ].
      + intros r c Hr Hc. symmetry. apply (proj2 (proj2 (Val U))).
      + intros U' r Hr. apply (proj1 (proj2 (Val U'))). exact Hr.
      + apply gF_jacobian. exact J.
  Qed.

  (** samples of the local motion and the coefficient the sliders are centred on *)
  Lemma gsamples_motion U j : gsamples (loc N 1 Q h U) j = local_motion N Q h U 0 (sample_phase Nt j).
  Proof.
    rewrite gsamples_series, <- series_Unl. apply (series_ext h). intros c Hc. replace c with (c * 1 + 0)%nat at 1 by lia. apply loc_Unl; [exact Hc|lia].
  Qed.
  Lemma loc_first U : loc N 1 Q h U O = local_first_coef N Q U.
  Proof. change (local_first_coef N Q U) with (aft_Unl N Q U 0 0). exact (loc_Unl N 1 Q h U O O (AftP.nhc_pos h Nt Ha HN) ltac:(lia)). Qed.
End Gen.
