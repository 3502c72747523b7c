(** Motions near static states. *)
From Coq Require Import Reals List Arith Bool Lra Lia FunctionalExtensionality.
From Verif.Lib Require Import RSum Calc Py.
From Verif.Spec Require Import Calculus Elements System Energy StaticHistory StaticStates Potential Trajectory Convex.
From Verif.Model Require Import LocalForces VibSys SysElements.
From Verif.Proofs Require Import HarmonicP RotationCaseP StaticStatesP PotentialP TrajectoryP ConvexP.
Import ListNotations.
Open Scope R_scope.
Local Notation one := RotationCaseP.one.

Lemma motion_near inv s Fl w y f p m mu U Rr J : vs_forces s = [f] -> spring (vs_N s) f (fst p) (snd p) -> convex (snd p) -> inverse_of (vs_N s) (vs_M s) (inv (vs_M s)) ->
  symmetric_matrix (vs_N s) (vs_M s) -> symmetric_matrix (vs_N s) (vs_K s) -> stiffness_at_least (vs_N s) m (vs_K s) -> stiffness_at_least (vs_N s) mu (vs_M s) ->
  positive_semidefinite (vs_N s) (vs_C s) -> trajectory inv s Fl w y -> (forall i, (i < 2 * vs_N s)%nat -> Fl i = 0) ->
  static_res s U (fun _ => 0) = Ok (Rr, J) -> (forall i, (i < vs_N s)%nat -> Rr i = 0) ->
  forall a b, a <= b -> mu / 2 * length2 (vs_N s) (velocity (vs_N s) (y b)) + m / 2 * length2 (vs_N s) (fun i => y b i - U i)
    <= total_energy s [p] (y a) - potential_energy (vs_N s) (vs_K s) [p] (fun _ => 0) U.
Proof.
  intros Hf Hs HV HI HM HK Hm Hmu HC HT HF HU HR a b L.
  assert (S : convex_springs (vs_N s) (vs_forces s) [p]) by (rewrite Hf; split; (constructor; [assumption|constructor])).
  destruct (energy_gap s m [p] (fun _ => 0) U (y b) HK Hm S) as (R' & J' & E & _ & G). rewrite HU in E. injection E as <- <-. specialize (G HR).
  pose proof (proj2 (energy_conserved inv s Fl w y [] f p Hf Hs HI HM HK HT HF) HC a b L) as D. unfold total_energy at 1 in D.
  assert (P : mu * length2 (vs_N s) (velocity (vs_N s) (y b)) <= quadratic (vs_N s) (vs_M s) (velocity (vs_N s) (y b))) by apply (proj2 Hmu). lra.
Qed.

Lemma motion_near_last inv s Fl w y fs f p m mu U Rr J : vs_forces s = fs ++ [f] -> spring (vs_N s) f (fst p) (snd p) -> convex (snd p) -> inverse_of (vs_N s) (vs_M s) (inv (vs_M s)) ->
  symmetric_matrix (vs_N s) (vs_M s) -> symmetric_matrix (vs_N s) (vs_K s) -> stiffness_at_least (vs_N s) m (vs_K s) -> stiffness_at_least (vs_N s) mu (vs_M s) ->
  positive_semidefinite (vs_N s) (vs_C s) -> trajectory inv s Fl w y -> (forall i, (i < 2 * vs_N s)%nat -> Fl i = 0) ->
  static_res (with_only f s) U (fun _ => 0) = Ok (Rr, J) -> (forall i, (i < vs_N s)%nat -> Rr i = 0) ->
  forall a b, a <= b -> mu / 2 * length2 (vs_N s) (velocity (vs_N s) (y b)) + m / 2 * length2 (vs_N s) (fun i => y b i - U i)
    <= total_energy s [p] (y a) - potential_energy (vs_N s) (vs_K s) [p] (fun _ => 0) U.
Proof.
  intros Hf Hs HV HI HM HK Hm Hmu HC HT HF HU HR.
  exact (motion_near inv (with_only f s) Fl w y f p m mu U Rr J eq_refl Hs HV HI HM HK Hm Hmu HC (trajectory_last inv s Fl w y fs f Hf HT) HF HU HR).
Qed.

Lemma length2_zero N x : length2 N x <= 0 -> forall i, (i < N)%nat -> x i = 0.
Proof. intros H. apply dot_self_zero. apply Rle_antisym; [exact H|]. apply rsum_nonneg. intros; apply Rle_0_sqr. Qed.

Lemma length2_nonneg N x : 0 <= length2 N x.
Proof. apply rsum_nonneg. intros; apply Rle_0_sqr. Qed.

Lemma rest_stays inv s Fl w y f p m mu Rr J : vs_forces s = [f] -> spring (vs_N s) f (fst p) (snd p) -> convex (snd p) -> inverse_of (vs_N s) (vs_M s) (inv (vs_M s)) ->
  symmetric_matrix (vs_N s) (vs_M s) -> symmetric_matrix (vs_N s) (vs_K s) -> stiffness_at_least (vs_N s) m (vs_K s) -> stiffness_at_least (vs_N s) mu (vs_M s) ->
  positive_semidefinite (vs_N s) (vs_C s) -> trajectory inv s Fl w y -> (forall i, (i < 2 * vs_N s)%nat -> Fl i = 0) ->
  static_res s (y 0) (fun _ => 0) = Ok (Rr, J) -> (forall i, (i < vs_N s)%nat -> Rr i = 0) -> (forall i, (i < vs_N s)%nat -> velocity (vs_N s) (y 0) i = 0) ->
  forall t, 0 <= t -> forall i, (i < 2 * vs_N s)%nat -> y t i = y 0 i.
Proof.
  intros Hf Hs HV HI HM HK Hm Hmu HC HT HF HU HR H0 t Ht.
  pose proof (motion_near inv s Fl w y f p m mu (y 0) Rr J Hf Hs HV HI HM HK Hm Hmu HC HT HF HU HR 0 t Ht) as B. unfold total_energy in B.
  assert (Z : quadratic (vs_N s) (vs_M s) (velocity (vs_N s) (y 0)) = 0) by (apply rsum_zero; intros i Hi; rewrite (H0 i Hi); ring). rewrite Z in B.
  pose proof (length2_nonneg (vs_N s) (velocity (vs_N s) (y t))) as P1. pose proof (length2_nonneg (vs_N s) (fun i => y t i - y 0 i)) as P2.
  destruct Hm as [Hm _], Hmu as [Hmu _]. assert (Q1 : length2 (vs_N s) (velocity (vs_N s) (y t)) <= 0) by nra. assert (Q2 : length2 (vs_N s) (fun i => y t i - y 0 i) <= 0) by nra.
  intros i Hi. destruct (Nat.lt_ge_cases i (vs_N s)) as [L|L].
  - pose proof (length2_zero _ _ Q2 i L) as E. cbv beta in E. lra.
  - assert (Hi' : (i - vs_N s < vs_N s)%nat) by lia. pose proof (length2_zero _ _ Q1 _ Hi') as E. pose proof (H0 _ Hi') as E0. unfold velocity in E, E0. replace (vs_N s + (i - vs_N s))%nat with i in E, E0 by lia. lra.
Qed.

(** * Two springs *)
Definition push_sys : vibsys := mkSys 1 one one (fun _ _ => 0) None [unilateral_nl 1 1 one one (fun _ => 0) (fun _ => 1) (fun _ => 0); cubic_nl 1 1 one one (fun _ => 0)].
Definition push_ps : list (mat * (vec -> R)) := [(one, fun q => - q O); (one, fun q => 0)].
Definition push_y (t : R) : vec := fun i => match i with O => cos (1 * t) | _ => - sin (1 * t) end.

Lemma rest_two_springs : exists inv s ps y Rr J, convex_springs (vs_N s) (vs_forces s) ps /\ inverse_of (vs_N s) (vs_M s) (inv (vs_M s)) /\
  symmetric_matrix (vs_N s) (vs_M s) /\ symmetric_matrix (vs_N s) (vs_K s) /\ stiffness_at_least (vs_N s) 1 (vs_K s) /\ stiffness_at_least (vs_N s) 1 (vs_M s) /\
  positive_semidefinite (vs_N s) (vs_C s) /\ trajectory inv s (fun _ => 0) 1 y /\ static_res s (y 0) (fun _ => 0) = Ok (Rr, J) /\ (forall i, Rr i = 0) /\
  (forall i, (i < vs_N s)%nat -> velocity (vs_N s) (y 0) i = 0) /\ y PI O <> y 0 O.
Proof.
  assert (C1 : cos (1 * 0) = 1) by (rewrite Rmult_0_r; apply cos_0).
  exists (fun _ => one), push_sys, push_ps, push_y. do 2 eexists. split; [|split; [|split; [|split; [|split; [|split; [|split; [|split; [|split; [reflexivity|split; [|split]]]]]]]]]].
  - split; [constructor; [|constructor; [|constructor]]; left; exists 1%nat, one; (split; [intros i d _ _; reflexivity|])|].
    + right. right. left. exists (fun _ => 0), (fun _ => 1), (fun _ => 0). split; [intros; lra|]. split; [reflexivity|]. intros q. cbn [rsum snd]. unfold Rdiv. ring.
    + left. exists (fun _ => 0). split; [reflexivity|]. intros q. cbn. field.
    + constructor; [|constructor; [|constructor]]; intros x z s Hs; cbn [snd]; unfold between; lra.
  - intros i j Hi Hj. cbn in Hi, Hj. assert (i = O) by lia. assert (j = O) by lia. subst. cbn. unfold one. ring.
  - intros i j _ _. reflexivity.
  - intros i j _ _. reflexivity.
  - split; [lra|]. intros x. unfold length2. cbn. unfold one. lra.
  - split; [lra|]. intros x. unfold length2. cbn. unfold one. lra.
  - intros x. cbn. lra.
  - intros t. unfold shooting_state_space. cbn [vs_forces push_sys shooting_loop unilateral_nl cubic_nl instantaneous_nl nl_force bind]. unfold cubic_force. eexists. split; [reflexivity|].
    intros i Hi. cbn in Hi. destruct i as [|[|i]]; [| |lia].
    + cbn. eapply dlim_eq; [apply dlim_cos_lin|ring].
    + eapply dlim_eq; [apply (dlim_ext (fun t => - sin (1 * t))); [reflexivity|apply dlim_opp; apply dlim_sin_lin]|]. cbn. unfold matvec. cbn. unfold one. ring.
  - intros i. cbn. unfold vadd, vzero. cbn. unfold matvec, one. cbn. rewrite C1. rewrite Rmax_left by lra. ring.
  - intros i _. unfold velocity. cbn. rewrite Rmult_0_r, sin_0. ring.
  - cbn. rewrite C1, Rmult_1_l, cos_PI. lra.
Qed.

(** * The mass of C90, around its static state at -6 *)
Lemma swing_stable : convex (snd swing_p) /\ stiffness_at_least 1 1 one /\ positive_semidefinite 1 (vs_C swing_sys) /\
  exists Rr J, static_res swing_sys (fun _ => - 6) (fun _ => 0) = Ok (Rr, J) /\ (forall i, Rr i = 0) /\
    total_energy swing_sys [swing_p] (swing_y 0) - potential_energy 1 one [swing_p] (fun _ => 0) (fun _ => - 6) = 2.
Proof.
  split; [|split; [|split]].
  - intros x y s Hs. cbn [snd swing_p]. unfold between.
    apply (primitive_convex (fun u => 3 / 2 * Rmax (u + 8) 0 ^ 2) (unilateral_law 3 0 (- 8)) (x O) (y O) s); [|apply rising_unilateral; lra|exact Hs].
    intros u. apply dlim_ext with (fun u => 3 / 2 * Rmax (u - - 8) 0 ^ 2 - 0 * u); [intros v; replace (v - - 8) with (v + 8) by ring; ring|]. apply unilateral_energy.
  - split; [lra|]. intros x. unfold length2. cbn. unfold one. lra.
  - intros x. cbn. lra.
  - do 2 eexists. split; [cbn; reflexivity|]. split.
    + intros i. unfold vadd, vzero, matvec. cbn. unfold one. rewrite Rmax_left by lra. ring.
    + unfold total_energy, potential_energy, quadratic, velocity, lsum, local_at, swing_p, swing_y. cbn. unfold one. rewrite !Rmult_0_r, sin_0, cos_0. rewrite !Rmax_left by lra. field.
Qed.
