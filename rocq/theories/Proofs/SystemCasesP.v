(** Concrete cases for the theorems on systems and continuation. *)
From Coq Require Import Reals Lra Lia Arith List Bool ZArith.
From Verif.Lib Require Import RSum Calc Py.
From Verif.Spec Require Import Calculus Harmonic Elements Slider System Continuation.
From Verif.Model Require Import Jenkins LocalForces Aft VibSys SysElements Solver Continuation.
From Verif.Proofs Require Import VibSysP SysElementsP.
Import ListNotations.
Open Scope R_scope.

Lemma smooth_outs n h Nt U w fs : Forall (aft_smooth n h Nt U w) fs -> exists outs, Forall2 (fun f o => nl_aft f U w h Nt = Ok o) fs outs.
Proof. intros H. induction H as [|f fs (F & dU & dw & _ & E & _) _ [outs IH]]; [exists []; constructor|]. eexists (_ :: outs). constructor; [exact E|exact IH]. Qed.

Lemma static_case : forall U, let f := cubic_nl 2 1 case_Q case_T (fun _ => 1) in
  Forall (static_smooth 2 U) [f] /\ exists outs, Forall2 (fun f o => nl_force f U = Ok o) [f] outs.
Proof.
  intros U f. pose proof (cubic_static 2 1 case_Q case_T (fun _ => 1) U) as H. split; [constructor; [exact H|constructor]|]. destruct H as (F & dF & _ & E & _). eexists [_]. constructor; [exact E|constructor].
Qed.
Lemma case_smooth U w : w <> 0 -> Forall (aft_smooth 10 [O; 1%nat; 3%nat] 8 U w) (vs_forces case_sys) /\
  exists outs, Forall2 (fun f o => nl_aft f U w [O; 1%nat; 3%nat] 8 = Ok o) (vs_forces case_sys) outs.
Proof. intros Hw. destruct case_system as (_ & _ & _ & _ & H). destruct (H U w Hw) as [H1 _]. split; [exact H1|]. eapply smooth_outs. exact H1. Qed.
Lemma hbm_case : let h := [O; 1%nat; 3%nat] in let n := (length (components h) * vs_N case_sys)%nat in
  admissible h /\ n = 10%nat /\ forall X w, w <> 0 -> Forall (aft_smooth n h 8 (take n X) w) (vs_forces case_sys) /\
  exists outs, Forall2 (fun f o => nl_aft f (take n X) w h 8 = Ok o) (vs_forces case_sys) outs.
Proof. intros h n. split; [apply case_system|]. split; [reflexivity|]. intros X w Hw. apply (case_smooth (take n X) w Hw). Qed.
Lemma control_case : let h := [O; 1%nat; 3%nat] in let n := (length (components h) * vs_N case_sys)%nat in
  admissible h /\ starts_with_1 h /\ forall X, X (n + 1)%nat <> 0 -> Forall (aft_smooth n h 8 (take n X) (X (n + 1)%nat)) (vs_forces case_sys) /\
  exists outs, Forall2 (fun f o => nl_aft f (take n X) (X (n + 1)%nat) h 8 = Ok o) (vs_forces case_sys) outs.
Proof. intros h n. split; [apply case_system|]. split; [apply case_system|]. intros X Hw. apply (case_smooth (take n X) _ Hw). Qed.
Lemma mode_case : let h := [O; 1%nat; 3%nat] in let n := (length (components h) * vs_N case_sys)%nat in
  admissible h /\ starts_with_1 h /\ (forall i j, vs_M case_sys i j = vs_M case_sys j i) /\
  forall X, X n <> 0 -> Forall (aft_smooth n h 8 (take n (amplitude_scaled (vs_N case_sys) h X (X (n + 2)%nat))) (X n)) (vs_forces case_sys) /\
  exists outs, Forall2 (fun f o => nl_aft f (take n (amplitude_scaled (vs_N case_sys) h X (X (n + 2)%nat))) (X n) h 8 = Ok o) (vs_forces case_sys) outs.
Proof.
  intros h n. split; [apply case_system|]. split; [apply case_system|]. split; [intros i j; cbn; unfold mid; rewrite Nat.eqb_sym; reflexivity|]. intros X Hw. apply (case_smooth _ _ Hw).
Qed.
Lemma force_only N nnl Q T force law U w h Nt o : nl_aft (instantaneous_nl N nnl Q T force law) U w h Nt = Ok o ->
  nl_aft_F (instantaneous_nl N nnl Q T force law) U w h Nt = Ok (fst (fst o)).
Proof. cbn [nl_aft nl_aft_F instantaneous_nl]. intros ->. destruct o as [[F dU] dw]. reflexivity. Qed.
Lemma no_grad_case : let h := [O; 1%nat; 3%nat] in let n := (length (components h) * vs_N case_sys)%nat in
  admissible h /\ forall X, X n <> 0 -> exists outs, Forall2 (fun f o => nl_aft f (take n X) (X n) h 8 = Ok o) (vs_forces case_sys) outs /\
    Forall2 (fun f o => nl_aft_F f (take n X) (X n) h 8 = Ok (fst (fst o))) (vs_forces case_sys) outs.
Proof.
  intros h n. split; [apply case_system|]. intros X Hw. destruct (case_smooth (take n X) (X n) Hw) as [_ [outs H]]. exists outs. split; [exact H|].
  unfold case_sys in *. cbn [vs_forces vs_add_nl_force vs_new app] in *. inversion H as [|f1 o1 l1 l1' E1 H1]; subst. inversion H1 as [|f2 o2 l2 l2' E2 H2]; subst. inversion H2; subst.
  constructor; [apply force_only; exact E1|constructor; [apply force_only; exact E2|constructor]].
Qed.
Lemma damping_case : let K : mat := fun i j => if Nat.eqb i j then match i with O => 4 | _ => 9 end else 0 in let M : mat := fun i j => if Nat.eqb i j then 1 else 0 in
  let wnsq : vec := fun m => match m with O => 4 | _ => 9 end in
  Forall (fun c : option mat * option (R * R) => fst c <> None \/ snd c <> None) [(Some M, None); (None, Some (1 / 10, 0))] /\
  all_modes 2 K M wnsq M /\ no_resonance 2 (1 / 10) 0 2 wnsq.
Proof.
  intros K M wnsq. split; [constructor; [left; discriminate|constructor; [right; discriminate|constructor]]|]. split.
  - split; [intros [|m] _; cbn; lra|]. split; intros m i Hm Hi; (destruct m as [|[|m]]; [| |lia]); (destruct i as [|[|i]]; [| |lia]); cbn; lra.
  - intros m Hm. destruct m as [|[|m]]; [| |lia]; cbn; lra.
Qed.
Lemma scaled_case : let fn := fun (X : vec) (g : bool) => Ok ((fun i => match i with O => X 0%nat ^ 2 - 4 | _ => X 1%nat - X 0%nat end) : vec,
    if g then Some ((fun i j => match i, j with O, O => 2 * X 0%nat | O, _ => 0 | _, O => -1 | _, _ => 1 end) : mat) else None) in
  (forall i, (i < 2)%nat -> sc (Vec (fun i => match i with O => 3 | _ => 5 end)) i <> 0) /\
  (exists Rr, fn (fun _ => 2) false = Ok (Rr, None) /\ forall i, (i < 2)%nat -> Rr i = 0) /\ forall X, exact_square 2 fn X.
Proof.
  intros fn. split; [intros i _; destruct i; cbn; lra|]. split; [eexists; split; [reflexivity|]; intros i Hi; destruct i; cbn; lra|].
  intros X. eexists (fun X : vec => fun i => match i with O => X 0%nat ^ 2 - 4 | _ => X 1%nat - X 0%nat end), _. split; [intros X'; eexists; reflexivity|]. split; [reflexivity|].
  intros g v t0 Hg Hv i Hi. destruct i as [|[|i]]; [| |lia]; cbn [rsum].
  - eapply dlim_eq; [eapply dlim_minus; [|apply dlim_const]; eapply dlim_ext; [|eapply dlim_mult; [apply (Hv 0%nat); lia|apply (Hv 0%nat); lia]]; intros t; cbn; ring|]. cbv beta. rewrite Hg by lia. ring.
  - eapply dlim_eq; [eapply dlim_minus; [apply (Hv 1%nat); lia|apply (Hv 0%nat); lia]|]. ring.
Qed.
Lemma arc_case : let X0 : vec := fun i => match i with O => 2 | _ => 1 end in let P : vec := fun i => match i with O => 2 | _ => 1 + 4 end in
  let L : vec := fun i => match i with O => 4 | _ => 1 + 3 / 2 end in
  arc_dot 1 (1 / 2) X0 (fun i => P i - X0 i) (fun i => P i - X0 i) = sqrt 8 ^ 2 /\ arc_dot 1 (1 / 2) X0 (fun i => L i - (X0 i + 1 * 2)) (fun _ => 1) <> 0 /\
  arc_dot 1 (1 / 2) X0 (fun i => (match i with O => 0 | _ => 4 end) - (X0 i + 1 * 2)) (fun _ => 1) = 0.
Proof.
  intros X0 P L. rewrite pow2_sqrt by lra. unfold arc_dot, X0, P, L. cbn [rsum]. repeat split; lra.
Qed.
