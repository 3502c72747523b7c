(** Energy along the solutions that shooting integrates. *)
From Coq Require Import Reals Lra Lia Arith List Bool.
From Verif.Lib Require Import RSum Calc Py.
From Verif.Spec Require Import Calculus Harmonic Elements System Galerkin Energy StaticHistory Potential Trajectory.
From Verif.Model Require Import LocalForces VibSys SysElements.
From Verif.Proofs Require Import HarmonicP ShootP RotationCaseP EnergyP PotentialP.
Import ListNotations.
Open Scope R_scope.

Lemma energy_rate_one inv s Fl w y f p t : vs_forces s = [f] -> spring (vs_N s) f (fst p) (snd p) -> inverse_of (vs_N s) (vs_M s) (inv (vs_M s)) ->
  symmetric_matrix (vs_N s) (vs_M s) -> symmetric_matrix (vs_N s) (vs_K s) -> trajectory inv s Fl w y ->
  derivable_pt_lim (fun t => total_energy s [p] (y t)) t
    (load_power (vs_N s) Fl w t (velocity (vs_N s) (y t)) - quadratic (vs_N s) (vs_C s) (velocity (vs_N s) (y t))).
Proof.
  intros Hf Hs HI HM HK HT. set (N := vs_N s) in *. destruct (spring_has_facts _ _ _ _ Hs) as (nnl & T & phi & F).
  assert (HL : laws N [f] [p] [(nnl, T, phi)]) by (constructor; [exact F|constructor]).
  destruct (laws_static N [f] [p] _ (y t) HL) as (outs & HO & E). inversion HO as [|? o ? outs' EF HO']; subst. inversion HO'; subst. clear HO HO'. destruct o as [Fv dF].
  destruct (shooting_newton inv t (y t) s Fl w f Fv dF Hf EF HI) as (dy & ES & EV & EN). fold N in EV, EN.
  destruct (HT t) as (dy' & ES' & D). rewrite ES in ES'. injection ES' as <-. fold N in D.
  set (v := velocity N (y t)). set (a := fun i => dy (N + i)%nat).
  pose proof (gradient_quadratic N (vs_M s) v HM (fun t => velocity N (y t)) a t (fun j _ => eq_refl) (fun j Hj => D (N + j)%nat ltac:(lia))) as DM.
  pose proof (gradient_potential N (vs_K s) [f] [p] _ (fun _ => 0) (y t) HK HL y v t (fun j _ => eq_refl)) as DP.
  assert (DU : forall j, (j < N)%nat -> derivable_pt_lim (fun t => y t j) t (v j)) by (intros j Hj; eapply dlim_eq; [apply D; lia|apply EV; exact Hj]).
  specialize (DP DU). unfold total_energy. fold N. eapply dlim_eq; [apply dlim_plus; [exact DM|exact DP]|].
  assert (MA : rsum N (fun j => rsum N (fun k => vs_M s j k * v k) * a j) = rsum N (fun i => v i * rsum N (fun k => vs_M s i k * a k))).
  { rewrite (rsum_ext N _ (fun j => rsum N (fun k => vs_M s j k * v k * a j))) by (intros; rewrite rsum_scal_r; reflexivity). rewrite rsum_swap. apply rsum_ext. intros i Hi.
    rewrite <- rsum_scal_l. apply rsum_ext. intros k Hk. rewrite (HM i k Hi Hk). ring. }
  cbv beta. rewrite MA. unfold load_power, quadratic. rewrite <- rsum_plus, <- rsum_minus. apply rsum_ext. intros i Hi. fold v.
  pose proof (EN i Hi) as Q. unfold matvec in Q. fold a in Q. pose proof (E i) as Ei. unfold lsum in Ei |- *. cbn [map fold_right fst combine] in Ei |- *. fold N in Ei.
  rewrite <- Q. unfold v, velocity in *. rewrite <- Ei. unfold a. ring.
Qed.

(** * Only the last element *)
Lemma loop_last U : forall fs f l d r, shooting_loop (fs ++ [f]) U l d = Ok r -> exists F dF, nl_force f U = Ok (F, dF) /\ fst r = Some F.
Proof.
  induction fs as [|g fs IH]; intros f l d r E; cbn [app shooting_loop] in E.
  - destruct (nl_force f U) as [[F dF]|x]; cbn [bind] in E; [|discriminate]. injection E as <-. exists F, dF. split; reflexivity.
  - destruct (nl_force g U) as [[F dF]|x]; cbn [bind] in E; [|discriminate]. apply (IH f _ _ _ E).
Qed.

Lemma trajectory_last inv s Fl w y fs f : vs_forces s = fs ++ [f] -> trajectory inv s Fl w y -> trajectory inv (with_only f s) Fl w y.
Proof.
  intros Hf HT t. destruct (HT t) as (dy & E & D). unfold shooting_state_space in E. rewrite Hf in E.
  destruct (shooting_loop (fs ++ [f]) (y t) None mzero) as [[l d]|x] eqn:EL; cbn [bind] in E; [|discriminate].
  destruct (loop_last (y t) fs f _ _ _ EL) as (F & dF & EF & El). cbn [fst] in El. subst l. injection E as <-.
  unfold shooting_state_space. cbn [with_only vs_forces shooting_loop]. rewrite EF. cbn [bind]. eexists. split; [reflexivity|]. cbn [with_only vs_N] in *. intros i Hi.
  eapply dlim_eq; [apply (D i Hi)|]. cbn [with_only vs_M vs_K vs_C vs_N]. change (2 * vs_N s)%nat with (vs_N s + (vs_N s + 0))%nat in *. rewrite !(proj2 (Nat.ltb_lt i (vs_N s + (vs_N s + 0))) Hi). reflexivity.
Qed.

Lemma energy_rate inv s Fl w y fs f p t : vs_forces s = fs ++ [f] -> spring (vs_N s) f (fst p) (snd p) -> inverse_of (vs_N s) (vs_M s) (inv (vs_M s)) ->
  symmetric_matrix (vs_N s) (vs_M s) -> symmetric_matrix (vs_N s) (vs_K s) -> trajectory inv s Fl w y ->
  derivable_pt_lim (fun t => total_energy s [p] (y t)) t
    (load_power (vs_N s) Fl w t (velocity (vs_N s) (y t)) - quadratic (vs_N s) (vs_C s) (velocity (vs_N s) (y t))).
Proof.
  intros Hf Hs HI HM HK HT. apply (energy_rate_one inv (with_only f s) Fl w y f p t eq_refl Hs HI HM HK). apply (trajectory_last inv s Fl w y fs f Hf HT).
Qed.

Lemma constant_of f : (forall t, derivable_pt_lim f t 0) -> forall a b, f a = f b.
Proof.
  intros H. assert (G : forall a b, a < b -> f a = f b).
  { intros a b L. destruct (MVT_cor2 f (fun _ => 0) a b L (fun c _ => H c)) as (c & E & _). lra. }
  intros a b. destruct (Rtotal_order a b) as [L|[->|L]]; [apply G; exact L|reflexivity|symmetry; apply G; exact L].
Qed.

Lemma free_power N w t (Fl v : vec) : (forall i, (i < 2 * N)%nat -> Fl i = 0) -> load_power N Fl w t v = 0.
Proof. intros H. unfold load_power. apply rsum_zero. intros i Hi. rewrite !H by lia. ring. Qed.

Lemma energy_conserved inv s Fl w y fs f p : vs_forces s = fs ++ [f] -> spring (vs_N s) f (fst p) (snd p) -> inverse_of (vs_N s) (vs_M s) (inv (vs_M s)) ->
  symmetric_matrix (vs_N s) (vs_M s) -> symmetric_matrix (vs_N s) (vs_K s) -> trajectory inv s Fl w y -> (forall i, (i < 2 * vs_N s)%nat -> Fl i = 0) ->
  ((forall i j, (i < vs_N s)%nat -> (j < vs_N s)%nat -> vs_C s i j = 0) -> forall a b, total_energy s [p] (y a) = total_energy s [p] (y b)) /\
  (positive_semidefinite (vs_N s) (vs_C s) -> forall a b, a <= b -> total_energy s [p] (y b) <= total_energy s [p] (y a)).
Proof.
  intros Hf Hs HI HM HK HT HF. pose proof (fun t => energy_rate inv s Fl w y fs f p t Hf Hs HI HM HK HT) as D. split.
  - intros HC. apply (constant_of (fun t => total_energy s [p] (y t))). intros t. eapply dlim_eq; [apply D|]. rewrite (free_power _ _ _ _ _ HF). unfold quadratic.
    rewrite (rsum_zero (vs_N s)); [ring|]. intros i Hi. rewrite (rsum_zero (vs_N s)); [ring|]. intros j Hj. rewrite (HC i j Hi Hj). ring.
  - intros HC a b [L| ->]; [|lra]. destruct (MVT_cor2 (fun t => total_energy s [p] (y t)) _ a b L (fun c _ => D c)) as (c & E & _).
    rewrite (free_power _ _ _ _ _ HF) in E. pose proof (HC (velocity (vs_N s) (y c))) as P. unfold quadratic in E. nra.
Qed.

(** * Two springs *)
Definition two_sys : vibsys := mkSys 1 one (fun _ _ => 0) (fun _ _ => 0) None [cubic_nl 1 1 one one (fun _ => 4); cubic_nl 1 1 one one (fun _ => 0)].
Definition two_ps : list (mat * (vec -> R)) := [(one, fun q => q O ^ 4); (one, fun q => 0)].
Definition two_y (t : R) : vec := fun i => match i with O => t | _ => 1 end.

Lemma energy_two_springs : exists inv s ps y, springs (vs_N s) (vs_forces s) ps /\ inverse_of (vs_N s) (vs_M s) (inv (vs_M s)) /\
  symmetric_matrix (vs_N s) (vs_M s) /\ symmetric_matrix (vs_N s) (vs_K s) /\ (forall i j, vs_C s i j = 0) /\ trajectory inv s (fun _ => 0) 1 y /\
  total_energy s ps (y 0) = 1/2 /\ total_energy s ps (y 1) = 3/2.
Proof.
  exists (fun _ => one), two_sys, two_ps, two_y. split; [|split; [|split; [|split; [|split; [|split; [|split]]]]]].
  - constructor; [|constructor; [|constructor]]; left; exists 1%nat, one; (split; [intros i d _ _; reflexivity|]); left.
    + exists (fun _ => 4). split; [reflexivity|]. intros q. cbn. field.
    + exists (fun _ => 0). split; [reflexivity|]. intros q. cbn. field.
  - intros i j Hi Hj. cbn in Hi, Hj. assert (i = O) by lia. assert (j = O) by lia. subst. cbn. unfold one. ring.
  - intros i j _ _. reflexivity.
  - intros i j _ _. reflexivity.
  - reflexivity.
  - intros t. unfold shooting_state_space. cbn [vs_forces two_sys shooting_loop cubic_nl instantaneous_nl nl_force bind]. unfold cubic_force. eexists. split; [reflexivity|].
    intros i Hi. cbn in Hi. destruct i as [|[|i]]; [| |lia]; cbn.
    + eapply dlim_eq; [apply dlim_id|reflexivity].
    + eapply dlim_eq; [apply dlim_const|]. unfold matvec. cbn. ring.
  - unfold total_energy, potential_energy, quadratic, velocity, lsum, local_at, two_ps, two_y, one. cbn. unfold one. field.
  - unfold total_energy, potential_energy, quadratic, velocity, lsum, local_at, two_ps, two_y, one. cbn. unfold one. field.
Qed.

(** * A mass on two springs: u = cos(2 t) - 6, stiffness 1, unilateral spring with stiffness 3 touched from u = - 8 on *)
Definition swing_sys : vibsys := mkSys 1 one one (fun _ _ => 0) None [unilateral_nl 1 1 one one (fun _ => 3) (fun _ => 0) (fun _ => - 8)].
Definition swing_p : mat * (vec -> R) := (one, fun q => 3/2 * Rmax (q O + 8) 0 ^ 2).
Definition swing_y (t : R) : vec := fun i => match i with O => cos (2 * t) - 6 | _ => - 2 * sin (2 * t) end.

Lemma swing_case : spring 1 (unilateral_nl 1 1 one one (fun _ => 3) (fun _ => 0) (fun _ => - 8)) (fst swing_p) (snd swing_p) /\
  inverse_of 1 (vs_M swing_sys) one /\ symmetric_matrix 1 (vs_M swing_sys) /\ symmetric_matrix 1 (vs_K swing_sys) /\ trajectory (fun _ => one) swing_sys (fun _ => 0) 1 swing_y /\
  total_energy swing_sys [swing_p] (swing_y 0) = 26.
Proof.
  split; [|split; [|split; [|split; [|split]]]].
  - left. exists 1%nat, one. split; [intros i d _ _; reflexivity|]. right. right. left. exists (fun _ => 3), (fun _ => 0), (fun _ => - 8). split; [intros; lra|]. split; [reflexivity|].
    intros q. cbn [rsum snd swing_p]. replace (q O - - 8) with (q O + 8) by ring. ring.
  - intros i j Hi Hj. cbn in Hi, Hj. assert (i = O) by lia. assert (j = O) by lia. subst. cbn. unfold one. ring.
  - intros i j _ _. reflexivity.
  - intros i j _ _. reflexivity.
  - intros t. unfold shooting_state_space. cbn [vs_forces swing_sys shooting_loop unilateral_nl instantaneous_nl nl_force bind]. unfold unilateral_force. eexists. split; [reflexivity|].
    intros i Hi. cbn in Hi. destruct i as [|[|i]]; [| |lia].
    + cbn. eapply dlim_eq; [apply dlim_minus; [apply dlim_cos_lin|apply dlim_const]|ring].
    + eapply dlim_eq; [apply (dlim_ext (fun t => - 2 * sin (2 * t))); [reflexivity|apply dlim_scal; apply dlim_sin_lin]|].
      cbn. unfold matvec. cbn. unfold one. pose proof (COS_bound (2 * t)). rewrite Rmax_left by lra. ring.
  - unfold total_energy, potential_energy, quadratic, velocity, lsum, local_at, swing_p, swing_y, one. cbn. unfold one. rewrite !Rmult_0_r, sin_0, cos_0. rewrite Rmax_left by lra. field.
Qed.
