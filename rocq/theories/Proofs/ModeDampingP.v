(** Springs do not damp nonlinear modes. *)
From Coq Require Import Reals Lra Lia Arith List Bool FunctionalExtensionality.
From Verif.Lib Require Import RSum Calc Py.
From Verif.Spec Require Import Calculus Harmonic Elements System Galerkin Energy Potential.
From Verif.Model Require Import Harmonic LocalForces Aft VibSys SysElements.
From Verif.Proofs Require Import HarmonicP FourierP AftP VibSysP EpmcP TrigPolyP GalerkinP RotationCaseP EnergyP EnergyCaseP.
Import ListNotations.
Open Scope R_scope.

Lemma power_unique N f v P P' : mean_power N f v P -> mean_power N f v P' -> P = P'.
Proof. intros A B. pose proof (integral_unique _ _ _ A B). pose proof PI_RGT_0. nra. Qed.

Lemma power_scal N a C M v P : (forall i j, (i < N)%nat -> (j < N)%nat -> C i j = a * M i j) -> mean_power N (viscous N M v) v P -> mean_power N (viscous N C v) v (a * P).
Proof.
  intros HC H. unfold mean_power in *. replace (2 * PI * (a * P)) with (a * (2 * PI * P)) by ring. eapply integral_ext; [|apply RotationP.integral_scal; exact H].
  intros t. cbv beta. rewrite <- rsum_scal_l. apply rsum_ext. intros i Hi. unfold viscous. rewrite <- Rmult_assoc, <- rsum_scal_l. f_equal. apply rsum_ext. intros j Hj. rewrite (HC i j Hi Hj). ring.
Qed.

Lemma springs_power N h Nt fs U w v : admissible h -> (2 * list_max h + 1 < Nt)%nat -> Nat.even Nt = true -> Forall (sampled_spring N h Nt) fs -> phase_velocity N h U v ->
  exists outs, Forall2 (fun f o => nl_aft f U w h Nt = Ok o) fs outs /\ Forall (fun o : vec * mat * vec => mean_power N (harmonic_force N h (fst (fst o))) (fun j tau => w * v j tau) 0) outs.
Proof.
  intros Ha HN He H Hv. induction H as [|f fs (nnl & Q & T & HT & Hf) H (outs & O1 & O2)]; [exists []; split; constructor|].
  destruct (element_powers N nnl Q T h Nt Ha HN He HT) as (P1 & P2 & _ & P4).
  assert (G : exists F dU dw, nl_aft f U w h Nt = Ok (F, dU, dw) /\ mean_power N (harmonic_force N h F) (fun j tau => w * v j tau) 0).
  { destruct Hf as [(k & -> & L)|[(k & -> & L)|(cnl & E & qq & p & -> & L & D & V)]]; [apply P1; assumption|apply P2; assumption|eapply P4; eassumption]. }
  destruct G as (F & dU & dw & E & P). exists ((F, dU, dw) :: outs). split; constructor; assumption.
Qed.

Lemma powers_zero N h vel outs Ps : Forall (fun o : vec * mat * vec => mean_power N (harmonic_force N h (fst (fst o))) vel 0) outs ->
  Forall2 (fun o P => mean_power N (harmonic_force N h (fst (fst o))) vel P) outs Ps -> lsum (fun P => P) Ps = 0.
Proof.
  intros H H2. induction H2 as [|o P outs Ps A H2 IH]; [reflexivity|]. apply Forall_cons_iff in H. destruct H as [B H]. unfold lsum. cbn [map fold_right]. fold (lsum (fun P : R => P) Ps).
  rewrite (IH H), (power_unique _ _ _ _ _ A B). ring.
Qed.

Lemma mode_damping s h Nt X Fl alpha Rr G : admissible h -> starts_with_1 h -> (2 * list_max h + 1 < Nt)%nat -> Nat.even Nt = true ->
  let N := vs_N s in let n := (length (components h) * N)%nat in
  X n <> 0 -> symmetric_matrix N (vs_M s) -> symmetric_matrix N (vs_K s) -> positive_semidefinite N (vs_M s) ->
  (forall i j, (i < N)%nat -> (j < N)%nat -> vs_C s i j = alpha * vs_M s i j) -> Forall (sampled_spring N h Nt) (vs_forces s) ->
  epmc_res s X Fl h Nt true = Ok (Rr, Some G) -> (forall i, (i < n + 2)%nat -> Rr i = 0) -> X (n + 1)%nat = alpha.
Proof.
  intros Ha H1 HN He N n Hw HM HK HP HC Hs HR H0. set (U := amplitude_scaled N h X (X (n + 2)%nat)). set (v := fun j => dseries h (dof_coefs N U j)).
  assert (Hv : phase_velocity N h U v) by apply velocity_exists.
  destruct (springs_power N h Nt (vs_forces s) (take n U) (X n) v Ha HN He Hs (take_velocity N h U v Hv)) as (outs & O1 & O2).
  destruct (epmc_damping s h Nt X Fl outs v Rr G Ha H1 Hw HM HK HP Hv O1 HR H0) as (Pm & Pc & Ps & P1 & P2 & P3 & B & E & _). fold N n in P1, P2, P3, B, E.
  rewrite (powers_zero _ _ _ _ _ O2 P3) in E. pose proof (power_unique _ _ _ _ _ P2 (power_scal _ _ _ _ _ _ HC P1)) as Q. rewrite E, Q.
  assert (0 < Pm). { eapply Rlt_le_trans; [|exact B]. assert (X n * Rpower 10 (X (n + 2)%nat) <> 0). { apply Rmult_integral_contrapositive_currified; [exact Hw|]. unfold Rpower. pose proof (exp_pos (X (n + 2)%nat * ln 10)). lra. } nra. }
  field. lra.
Qed.

(** u = cos(2 t) of an oscillator with mass 1, stiffness 1 and 4, damping 1/10 *)
Definition spring_sys : vibsys := mkSys 1 one one (fun _ _ => 1/10) None [cubic_nl 1 1 one one (fun _ => 4)].
Definition spring_X : vec := fun r => match r with O => 1 | 2%nat => 2 | 3%nat => 1/10 | _ => 0 end.

Lemma spring_mode : admissible [1%nat] /\ starts_with_1 [1%nat] /\ spring_X 2%nat <> 0 /\ symmetric_matrix 1 one /\ positive_semidefinite 1 one /\
  (forall i j, vs_C spring_sys i j = 1/10 * one i j) /\ Forall (sampled_spring 1 [1%nat] 6) (vs_forces spring_sys) /\
  exists Rr G, epmc_res spring_sys spring_X mode_F [1%nat] 6 true = Ok (Rr, Some G) /\ forall i, (i < 4)%nat -> Rr i = 0.
Proof.
  assert (Ha : admissible [1%nat]) by (repeat split; [discriminate|repeat constructor; intros []|intros []]). assert (H1 : starts_with_1 [1%nat]) by (exists []; left; reflexivity).
  split; [exact Ha|]. split; [exact H1|]. split; [cbn; lra|]. split; [intros i j _ _; reflexivity|]. split; [intros x; unfold one; cbn; nra|]. split; [intros i j; unfold one; cbn; ring|].
  split. { constructor; [|constructor]. exists 1%nat, one, one. split; [intros i d _ _; reflexivity|]. left. exists (fun _ => 4). split; [reflexivity|cbn; lia]. }
  assert (EU : amplitude_scaled 1 [1%nat] spring_X (spring_X 4%nat) = spring_X).
  { apply functional_extensionality. intros r. unfold amplitude_scaled. destruct (in_dec Nat.eq_dec O [1%nat]) as [[I|[]]|_]; [discriminate|]. change (spring_X 4%nat) with 0. unfold Rpower. rewrite Rmult_0_l, exp_0. ring. }
  set (U := spring_X).
  assert (EM : forall t, local_motion 1 one [1%nat] (take 2 U) 0 t = cos t) by (intros t; unfold local_motion, series, dof_coefs, basis, one, take; cbn; rewrite !Rmult_1_l; ring).
  set (v := fun j => dseries [1%nat] (dof_coefs 1 (take 2 U) j)). assert (Hv : phase_velocity 1 [1%nat] (take 2 U) v) by apply velocity_exists.
  destruct (cubic_harmonics 1 1 one one [1%nat] 6 Ha ltac:(cbn; lia) eq_refl (fun _ => 4) ltac:(cbn; lia) (take 2 U) 2 v Hv) as (F1 & dU1 & dw1 & E1 & H1').
  assert (D13 : NoDup [1%nat; 3%nat]) by (repeat constructor; cbn; intuition discriminate).
  assert (V1 : forall c, (c < 2)%nat -> F1 c = match c with O => 3 | _ => 0 end).
  { intros c Hc. pose proof (H1' c O ltac:(cbn; lia) ltac:(lia)) as P. replace (c * 1 + 0)%nat with c in P by lia. refine (fourier_unique _ _ _ _ P _).
    apply fourier_ext with (series [1%nat; 3%nat] (fun c => match c with O => 3 | 2%nat => 1 | _ => 0 end)).
    - intros tau. cbn [rsum]. rewrite EM, cos_cube. unfold series, basis, one. cbn. replace (1 + 1 + 1) with 3 by ring. field.
    - replace (nth c (components [1%nat]) (Cos 0)) with (nth c (components [1%nat; 3%nat]) (Cos 0)) by (destruct c as [|[|c]]; [reflexivity|reflexivity|lia]).
      replace (match c with O => 3 | _ => 0 end) with ((fun c : nat => match c with O => 3 | 2%nat => 1 | _ => 0 end) c) by (destruct c as [|[|c]]; [reflexivity|reflexivity|lia]). apply series_integral; [exact D13|cbn; lia]. }
  set (outs := [(F1, dU1, dw1)]).
  assert (Ho : Forall2 (fun f o => nl_aft f (take 2 U) (spring_X 2%nat) [1%nat] 6 = Ok o) (vs_forces spring_sys) outs) by (constructor; [exact E1|constructor]).
  pose proof (epmc_zero spring_sys [1%nat] 6 spring_X mode_F outs Ha H1) as EZ. cbv zeta in EZ. change (length (components [1%nat]) * vs_N spring_sys)%nat with 2%nat in EZ. change (vs_N spring_sys) with 1%nat in EZ. change (spring_X (2 + 2)%nat) with (spring_X 4%nat) in EZ. rewrite EU in EZ.
  destruct (EZ ltac:(cbn; lra) Ho) as (Rr & G & HR & HZ).
  exists Rr, G. split; [exact HR|]. apply (proj2 HZ). clear HZ HR.
  change (spring_X (2 + 1)%nat) with (1/10). change (spring_X 2%nat) with 2. fold U. split; [|split].
  - assert (EMt : forall t, motion 1 [1%nat] U 2 0 t = cos (2 * t)) by (intros t; unfold motion, series, dof_coefs, basis; cbn; rewrite !Rmult_1_l; ring).
    exists (fun _ t => - (2 * sin (2 * t))), (fun _ t => - 2 * (2 * cos (2 * t))). split; [|split].
    + intros j t Hj. assert (j = O) by lia. subst. apply dlim_ext with (fun t => cos (2 * t)); [intros; symmetry; apply EMt|]. apply dlim_cos_lin.
    + intros j t _. apply dlim_ext with (fun t => - 2 * sin (2 * t)); [intros; ring|]. apply dlim_scal. apply dlim_sin_lin.
    + intros i t Hi. assert (i = O) by lia. subst. cbn [rsum vs_M vs_C vs_K spring_sys]. rewrite EMt. unfold total_motion, lsum, outs, motion, series, dof_coefs, basis, static_part, one. cbn. rewrite !V1 by lia. rewrite !Rmult_1_l. lra.
  - rewrite <- (modal_mass_eq 1 [1%nat] _ spring_X Ha H1). unfold dot, matvec, one. cbn. unfold one. ring.
  - unfold dynamic_dot. cbn. ring.
Qed.
