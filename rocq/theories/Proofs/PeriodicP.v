(** Periodic motions: harmonic balance and shooting. *)
From Coq Require Import Reals List Arith Bool ZArith Lia Lra Psatz FunctionalExtensionality.
From Verif.Lib Require Import RSum Calc LinAlg Py.
From Verif.Spec Require Import Calculus Harmonic Elements System Galerkin Periodic.
From Verif.Model Require Import Harmonic LocalForces Aft VibSys SysElements.
From Verif.Proofs Require Import HarmonicP FourierP HarmonicOpsP AftP ElementsP VibSysP VibControlP VprnmP ShootP TrigPolyP GalerkinP GronwallP.
Import ListNotations.
Open Scope R_scope.

(** ---- harmonic balance ---- *)
Lemma forces_sampled N h Nt fs laws U w v : phase_velocity N h U v -> Forall2 (harmonic_law N h Nt) fs laws ->
  exists outs, Forall2 (fun f o => nl_aft f U w h Nt = Ok o) fs outs /\
    forall c i, (c < length (components h))%nat -> (i < N)%nat ->
      lsum (fun o => fst (fst o) (c * N + i)%nat) outs
      = fourier_coef Nt (fun n => lsum (fun law => law (fun j => series h (dof_coefs N U j) (sample_phase Nt n)) (fun j => w * v j (sample_phase Nt n)) i) laws) (nth c (components h) (Cos O)).
Proof.
  intros Hv H. induction H as [|f law fs laws [_ Hf] H (outs & IH1 & IH2)].
  - exists []. split; [constructor|]. intros c i Hc Hi. unfold fourier_coef. rewrite rsum_zero; [unfold lsum; cbn; ring|]. intros n _. unfold lsum. cbn. ring.
  - destruct (Hf U w v Hv) as (F & dU & dw & E & HF). exists ((F, dU, dw) :: outs). split; [constructor; assumption|]. intros c i Hc Hi.
    change (F (c * N + i)%nat + lsum (fun o => fst (fst o) (c * N + i)%nat) outs = fourier_coef Nt (fun n => law (fun j => series h (dof_coefs N U j) (sample_phase Nt n)) (fun j => w * v j (sample_phase Nt n)) i
       + lsum (fun law => law (fun j => series h (dof_coefs N U j) (sample_phase Nt n)) (fun j => w * v j (sample_phase Nt n)) i) laws) (nth c (components h) (Cos O))).
    rewrite fourier_coef_plus, (HF c i Hc Hi), (IH2 c i Hc Hi). reflexivity.
Qed.

Lemma laws_local N h Nt fs laws : Forall2 (harmonic_law N h Nt) fs laws -> forall u u' v v', (forall j, (j < N)%nat -> u j = u' j) -> (forall j, (j < N)%nat -> v j = v' j) ->
  forall i, (i < N)%nat -> lsum (fun law : force_law => law u v i) laws = lsum (fun law => law u' v' i) laws.
Proof.
  intros H u u' v v' Hu Hv i Hi. induction H as [|f law fs laws [Hl _] H IH]; [reflexivity|].
  change (law u v i + lsum (fun law : force_law => law u v i) laws = law u' v' i + lsum (fun law => law u' v' i) laws). rewrite IH. f_equal. apply Hl; assumption.
Qed.

Lemma series_coef_exact h Nt X c : NoDup h -> (2 * list_max h < Nt)%nat -> (c < length (components h))%nat ->
  fourier_coef Nt (fun n => series h X (sample_phase Nt n)) (nth c (components h) (Cos O)) = X c.
Proof. intros. apply series_coef; assumption. Qed.

Lemma exact_hbm s h Nt X Fl laws v : admissible h -> (2 * list_max h < Nt)%nat ->
  let n := (length (components h) * vs_N s)%nat in
  Forall2 (harmonic_law (vs_N s) h Nt) (vs_forces s) laws -> X n <> 0 ->
  solves_motion (vs_N s) (vs_M s) (vs_C s) (vs_K s) laws (motion (vs_N s) h Fl (X n)) always (motion (vs_N s) h X (X n)) v ->
  exists Rr G, hbm_res s X Fl h Nt true = Ok (Rr, Some G) /\ forall r, (r < n)%nat -> Rr r = 0.
Proof.
  intros Ha HNt n Hf Hw (a & Hv & Hacc & Hnewton). set (N := vs_N s) in *. set (w := X n) in *.
  set (pv := fun j tau => v j (tau / w) / w).
  assert (Hpv : phase_velocity N h X pv).
  { intros j tau Hj. pose proof (Hv j (tau / w) Hj I) as D. unfold pv.
    apply dlim_ext with (fun s => motion N h X w j (s / w)).
    - intros x. unfold motion. f_equal. field. exact Hw.
    - eapply dlim_eq; [apply (dlim_comp (fun x => x / w) (motion N h X w j) tau (/ w) (v j (tau / w))); [|exact D]|unfold Rdiv; ring].
      eapply dlim_eq; [unfold Rdiv; apply dlim_scal_r, dlim_id|ring]. }
  destruct (forces_sampled N h Nt (vs_forces s) laws (take n X) w pv (take_velocity N h X pv Hpv) Hf) as (outs & H1 & H2).
  destruct (hbm_value s h Nt X Fl outs Ha H1) as (E & dE & Rr & G & HE & HR & HV). fold N n w in HE, HR, HV.
  exists Rr, G. split; [exact HR|]. intros r Hr. destruct (block_form _ _ _ Hr) as (c & i & Hc & Hi & ->).
  destruct (stiffness_eom N (vs_M s) (vs_C s) (vs_K s) w h true X Ha) as (E' & dE' & v' & a' & HE' & Hv' & Ha' & Heom).
  rewrite HE in HE'. injection HE' as <- <-. fold n in Heom.
  assert (Ev : forall j t, (j < N)%nat -> v' j t = v j t) by (intros j t Hj; exact (uniqueness_limite (motion N h X w j) t _ _ (Hv' j t) (Hv j t Hj I))).
  assert (Ea : forall j t, (j < N)%nat -> a' j t = a j t).
  { intros j t Hj. apply (uniqueness_limite (v' j) t _ _ (Ha' j t)). apply dlim_ext with (v j); [intros x; symmetry; apply Ev; exact Hj|apply (Hacc j t Hj I)]. }
  rewrite HV, (H2 c i Hc Hi).
  rewrite (fourier_coef_ext Nt _ (fun m => series h (dof_coefs N Fl i) (sample_phase Nt m) + (-1) * series h (dof_coefs N (matvec n E X) i) (sample_phase Nt m))).
  - rewrite fourier_coef_plus, fourier_coef_scal. destruct Ha as [_ [Hd _]]. rewrite !series_coef_exact by assumption. unfold dof_coefs. ring.
  - intros m _. set (tau := sample_phase Nt m). pose proof (Hnewton (tau / w) I i Hi) as P.
    pose proof (Heom i (tau / w) Hi) as Q. unfold motion in Q at 1. unfold motion in P at 3.
    replace (w * (tau / w)) with tau in P, Q by (field; exact Hw).
    rewrite (laws_local N h Nt (vs_forces s) laws Hf _ (fun j => motion N h X w j (tau / w)) _ (fun j => v j (tau / w))); [| | |exact Hi].
    + rewrite Q. assert (S1 : rsum N (fun j => vs_M s i j * a' j (tau / w) + vs_C s i j * v' j (tau / w) + vs_K s i j * motion N h X w j (tau / w))
        = matvec N (vs_M s) (fun j => a j (tau / w)) i + matvec N (vs_C s) (fun j => v j (tau / w)) i + matvec N (vs_K s) (fun j => motion N h X w j (tau / w)) i).
      { unfold matvec. rewrite <- !rsum_plus. apply rsum_ext. intros j Hj. rewrite Ev, Ea by exact Hj. reflexivity. }
      rewrite S1. cbv beta in P. lra.
    + intros j Hj. unfold motion. replace (w * (tau / w)) with tau by (field; exact Hw). apply rsum_ext. intros c' Hc'. unfold dof_coefs. rewrite take_lt by nia. reflexivity.
    + intros j Hj. unfold pv. field. exact Hw.
Qed.
