From Coq Require Import Reals List Arith Bool ZArith Lia Lra Psatz.
From Verif.Lib Require Import RSum Calc Py.
From Verif.Spec Require Import Calculus Harmonic Elements Slider System.
From Verif.Model Require Import Jenkins Harmonic LocalForces Aft VibSys SysElements.
From Verif.Proofs Require Import HarmonicP FourierP HarmonicOpsP AftP ElementsP HystAftP VibSysP VprnmP.
Import ListNotations.
Open Scope R_scope.

Lemma exact_smooth f N nnl Q T law h Nt regular U w :
  aft_is_exact (fun U w => nl_aft f U w h Nt) N nnl Q T law h Nt regular -> w <> 0 -> regular U w ->
  aft_smooth (length (components h) * N) h Nt U w f.
Proof.
  intros (F & dU & dw & A & _ & _ & D) Hw HR. exists F, (dU U w), (dw U w).
  split; [intros U' w'; exists (dU U' w'), (dw U' w'); apply A|]. split; [apply A|]. apply D; assumption.
Qed.

Section Elements.
  Variables (N nnl : nat) (Q T : mat) (h : list nat) (Nt : nat).
  Hypothesis harmonics : admissible h.
  Hypothesis enough : (2 * list_max h + 1 < Nt)%nat.
  Hypothesis even : Nat.even Nt = true.
  Let m := (length (components h) * N)%nat.

  Lemma cubic_smooth k U w : w <> 0 -> aft_smooth m h Nt U w (cubic_nl N nnl Q T k).
  Proof. intros Hw. eapply exact_smooth; [apply (aft_cubic N nnl Q T h Nt harmonics enough even k)|exact Hw|exact I]. Qed.
  Lemma quintic_smooth k U w : w <> 0 -> aft_smooth m h Nt U w (quintic_nl N nnl Q T k).
  Proof. intros Hw. eapply exact_smooth; [apply (aft_quintic N nnl Q T h Nt harmonics enough even k)|exact Hw|exact I]. Qed.
  Lemma damping_smooth c U w : w <> 0 -> aft_smooth m h Nt U w (damping_nl N nnl Q T c).
  Proof. intros Hw. eapply exact_smooth; [apply (aft_damping N nnl Q T h Nt harmonics enough even c)|exact Hw|exact I]. Qed.
  Lemma unilateral_smooth k Np delta U w : (forall d, (d < nnl)%nat -> 0 <= k d) -> w <> 0 ->
    (forall d n, (d < nnl)%nat -> (n < Nt)%nat -> local_motion N Q h U d (sample_phase Nt n) <> delta d) ->
    aft_smooth m h Nt U w (unilateral_nl N nnl Q T k Np delta).
  Proof. intros Hk Hw HR. eapply exact_smooth; [apply (aft_unilateral N nnl Q T h Nt harmonics enough even k Np delta Hk)|exact Hw|exact HR]. Qed.
  Lemma iwan_smooth kt Fs chi beta U w : 0 < kt -> 0 < Fs -> -1 < chi -> 0 <= beta -> w <> 0 ->
    (forall d n, (d < nnl)%nat -> (n < Nt)%nat -> Rabs (local_motion N Q h U d (sample_phase Nt n)) <> macroslip kt Fs chi beta) ->
    aft_smooth m h Nt U w (iwan_nl N nnl Q T kt Fs chi beta).
  Proof. intros H1 H2 H3 H4 Hw HR. eapply exact_smooth; [apply (aft_iwan N nnl Q T h Nt harmonics enough even kt Fs chi beta H1 H2 H3 H4)|exact Hw|exact HR]. Qed.
  Lemma jacobian_joint n p (F : vec -> vec) X J : is_jacobian n p F X J -> forall w, is_joint_jacobian n p (fun U _ => F U) X w J (fun _ => 0).
  Proof.
    intros H w g v om dom t0 Hg Ho Hv Hd i Hi. eapply dlim_eq; [apply (H g v t0 Hg Hv i Hi)|]. ring.
  Qed.
  Lemma poly_smooth cnl E qq U w : aft_smooth m h Nt U w (poly_nl N nnl cnl Q T E qq).
  Proof.
    destruct (aft_poly N nnl Q T h Nt harmonics enough even cnl E qq) as (F & dU & A & _ & D).
    exists (fun U _ => F U), (dU U), (fun _ => 0). split; [intros U' w'; exists (dU U'), (fun _ => 0); apply A|]. split; [apply A|].
    apply jacobian_joint. apply D.
  Qed.
  Lemma jenkins_smooth s U w : 0 <= j_Fs s ->
    let u := repeat_samples Nt (fun n => local_motion N Q h U 0 (sample_phase Nt n)) in
    (forall j, (j < 2 * Nt)%nat -> Rabs (trial (j_kt s) (j_Fs s) u (local_first_coef N Q U) j) <> j_Fs s) ->
    Rabs (jenkins_law (j_kt s) (j_Fs s) u (local_first_coef N Q U) (Nt - 1)) <> default_tol ->
    aft_smooth m h Nt U w (jenkins_nl s N Q T).
  Proof.
    intros HF u H1 H2. destruct (jenkins_aft_exact s N Q T h Nt harmonics enough even HF) as (st & F & dU & A & _ & D).
    exists (fun U _ => F U), (dU U), (fun _ => 0). cbn [nl_aft jenkins_nl].
    split; [intros U' w'; exists (dU U'), (fun _ => 0); rewrite A; reflexivity|]. split; [rewrite A; reflexivity|].
    apply jacobian_joint. apply D; assumption.
  Qed.
End Elements.

Lemma cubic_static N nnl Q T k X : static_smooth N X (cubic_nl N nnl Q T k).
Proof.
  exists (fun X => fst (cubic_force N nnl Q T k X)), (snd (cubic_force N nnl Q T k X)). cbn [nl_force cubic_nl instantaneous_nl].
  split; [intros U'; exists (snd (cubic_force N nnl Q T k U')); rewrite <- surjective_pairing; reflexivity|].
  split; [rewrite <- surjective_pairing; reflexivity|]. apply cubic_force_jacobian.
Qed.

(** a chain of two masses with a cubic and a quintic spring between them *)
Definition case_Q : mat := fun _ j => match j with O => 1 | 1%nat => -1 | _ => 0 end.
Definition case_T : mat := fun i _ => match i with O => 1 | 1%nat => -1 | _ => 0 end.
Definition case_sys : vibsys :=
  vs_add_nl_force (vs_add_nl_force (vs_new 2 mid (fun i j => if Nat.eqb i j then 2 else -1) None (Some (1, 1)))
    (cubic_nl 2 1 case_Q case_T (fun _ => 1))) (quintic_nl 2 1 case_Q case_T (fun _ => 3)).

Lemma case_system : admissible [O; 1%nat; 3%nat] /\ starts_with_1 [O; 1%nat; 3%nat] /\
  vs_N case_sys = 2%nat /\ length (vs_forces case_sys) = 2%nat /\
  forall U w, w <> 0 ->
  Forall (aft_smooth (length (components [O; 1%nat; 3%nat]) * 2) [O; 1%nat; 3%nat] 8 U w) (vs_forces case_sys) /\
  Forall (static_smooth 2 U) [cubic_nl 2 1 case_Q case_T (fun _ => 1)].
Proof.
  assert (Ha : admissible [O; 1%nat; 3%nat]).
  { split; [discriminate|]. split; [|cbn; intros [E|[E|[]]]; discriminate]. repeat constructor; cbn; intuition discriminate. }
  split; [exact Ha|]. split; [exists [3%nat]; right; reflexivity|]. split; [reflexivity|]. split; [reflexivity|].
  intros U w Hw. split.
  - constructor; [apply cubic_smooth|constructor; [apply quintic_smooth|constructor]]; try exact Ha; try exact Hw; try reflexivity; cbn; lia.
  - constructor; [apply cubic_static|constructor].
Qed.

Lemma no_grad_hysteretic : exists s X Fl h Nt Rr G,
  hbm_res s X Fl h Nt true = Ok (Rr, Some G) /\ hbm_res s X Fl h Nt false = Err TypeError.
Proof.
  assert (Ha : admissible [1%nat]).
  { split; [discriminate|]. split; [|intros []]. repeat constructor; cbn; intuition discriminate. }
  set (f := jenkins_nl (j_new 1 1) 1 (fun _ _ => 1) (fun _ _ => 1)).
  set (s := vs_add_nl_force (vs_new 1 mid mid None None) f).
  destruct (jenkins_aft_exact (j_new 1 1) 1 (fun _ _ => 1) (fun _ _ => 1) [1%nat] 4 Ha ltac:(cbn; lia) eq_refl ltac:(cbn; lra)) as (st & F & dU & A & _).
  destruct (hbm_value s [1%nat] 4 (fun _ => 1) vzero [(F (take 2 (fun _ => 1)), dU (take 2 (fun _ => 1)), fun _ => 0)] Ha) as (E & dE & Rr & G & HE & HR & _).
  - cbn [vs_forces s vs_add_nl_force vs_new app]. constructor; [|constructor]. unfold f. cbn [nl_aft jenkins_nl].
    change (length (components [1%nat]) * vs_N s)%nat with 2%nat. rewrite A. reflexivity.
  - exists s, (fun _ => 1), vzero, [1%nat], 4%nat, Rr, G. split; [exact HR|]. reflexivity.
Qed.

(** an oscillator whose force has the cosine of harmonic 3 proportional to the cosine of harmonic 1 *)
Definition third_nl : nlforce := mkForce O (fun _ => Ok (vzero, mzero))
  (fun U _ _ _ => Ok (fun i => if Nat.eqb i 2 then U O else 0, fun i j => if Nat.eqb i 2 then (if Nat.eqb j 0 then 1 else 0) else 0, vzero))
  (fun U _ _ _ => Ok (fun i => if Nat.eqb i 2 then U O else 0)).
Definition vp_sys : vibsys := vs_add_nl_force (vs_new 1 (fun _ _ => 1) (fun _ _ => 1) None (Some (/ 10, 0))) third_nl.
Definition vp_X : vec := fun i => match i with O => 1 | 1%nat => 0 | 2%nat => 0 | 3%nat => 1 | 4%nat => 2 | _ => 1 end.

Lemma vprnm_case : let h := [1; 3]%nat in let n := (length (components h) * vs_N vp_sys)%nat in
  admissible h /\ starts_with_1 h /\ ordered_at 3 h /\ n = 4%nat /\ vp_X n <> 0 /\
  Forall (aft_smooth n h 8 (take n vp_X) (vp_X n)) (vs_forces vp_sys) /\
  Forall (aft_smooth n h 8 (below 3 1 h vp_X) (vp_X n)) (vs_forces vp_sys) /\
  exists outs, Forall2 (fun f o => nl_aft f (below 3 1 h vp_X) (vp_X n) h 8 = Ok o) (vs_forces vp_sys) outs /\
    superharmonic_force 3 1 h None (total_coefs outs) = 1 /\
    superharmonic_response 3 1 h (vs_M vp_sys) None vp_X = 1 /\
    vprnm_product 3 1 h (vs_M vp_sys) None (total_coefs outs) vp_X = 0.
Proof.
  intros h n.
  assert (Ho : ordered_at 3 h).
  { exists [1%nat], []. split; [reflexivity|]. split; [lia|]. split; cbn; intros x I; intuition lia. }
  assert (SM : forall U w, aft_smooth 4 h 8 U w third_nl).
  { intros U w. eexists (fun U _ i => if Nat.eqb i 2 then U O else 0), _, _. split; [|split].
    - intros U' w'. eexists _, _. reflexivity.
    - reflexivity.
    - intros g v om dom t0 Hg Ho' Hv Hd i Hi. cbv beta. unfold vzero.
      destruct (Nat.eqb i 2).
      + eapply dlim_eq; [apply (Hv O); lia|]. rewrite rsum_S_l. rewrite rsum_zero by (intros j Hj; cbn [Nat.eqb]; ring). cbn [Nat.eqb]. ring.
      + eapply dlim_eq; [apply dlim_const|]. rewrite rsum_zero by (intros; ring). ring. }
  split; [|split; [|split; [exact Ho|split; [reflexivity|split]]]].
  - split; [discriminate|]. split; [repeat constructor; cbn; intuition lia|cbn; intuition lia].
  - exists [3%nat]. left. reflexivity.
  - change (2 <> 0). lra.
  - split; [repeat constructor; apply SM|]. split; [repeat constructor; apply SM|].
    eexists [_]. split; [repeat constructor|].
    assert (LL : low_len 3 h = 2%nat) by reflexivity.
    split; [|split]; cbn [superharmonic_force superharmonic_response vprnm_product]; unfold harmonic_product; rewrite rsum_S; cbn [rsum];
      rewrite ?harm_cos_k, ?harm_sin_k by exact Ho; rewrite LL; cbn [Nat.mul Nat.add];
      unfold total_coefs, lsum, vp_X; cbn; ring.
Qed.

(** the modes of the chain of case_sys *)
Definition case_eigs : mat -> mat -> nat -> vec * mat := fun _ _ _ =>
  ((fun m => match m with O => 1 | _ => 3 end),
   fun i m => match i, m with 1%nat, 1%nat => - / sqrt 2 | _, _ => / sqrt 2 end).

Lemma case_modes : all_modes 2 (vs_K case_sys) (vs_M case_sys) (fst (case_eigs (vs_K case_sys) (vs_M case_sys) 2)) (snd (case_eigs (vs_K case_sys) (vs_M case_sys) 2))
  /\ forall w, no_resonance 2 1 1 (w + 1) (fst (case_eigs (vs_K case_sys) (vs_M case_sys) 2)) \/ w = -1.
Proof.
  assert (S2 : sqrt 2 * sqrt 2 = 2) by (apply sqrt_sqrt; lra). assert (S0 : sqrt 2 <> 0) by (apply Rgt_not_eq, sqrt_lt_R0; lra).
  assert (I2 : / sqrt 2 * / sqrt 2 = 1 / 2) by (rewrite <- Rinv_mult, S2; lra).
  split.
  - split; [|split].
    + intros [|m] Hm; cbn; lra.
    + intros m i Hm Hi. assert (m = 0 \/ m = 1)%nat as [->| ->] by lia; assert (i = 0 \/ i = 1)%nat as [->| ->] by lia; cbn; unfold mid; cbn; lra.
    + intros m l Hm Hl. assert (m = 0 \/ m = 1)%nat as [->| ->] by lia; assert (l = 0 \/ l = 1)%nat as [->| ->] by lia; cbn; unfold mid; cbn; lra.
  - intros w. destruct (Req_dec w (-1)) as [E|E]; [right; exact E|left]. intros m Hm.
    assert (P : 0 < (w + 1) ^ 2) by (assert (w + 1 <> 0) by lra; nra).
    assert (m = 0 \/ m = 1)%nat as [->| ->] by lia; cbn [fst case_eigs]; nra.
Qed.

Definition case_base (d : nat) : bool := Nat.eqb d 1.
Lemma case_base_modes :
  let free := selected (fun d => negb (case_base d)) 2 in
  let fr := fun i => nth i free O in
  let Kf := fun i j => vs_K case_sys (fr i) (fr j) in
  let Mf := fun i j => vs_M case_sys (fr i) (fr j) in
  length free = 1%nat /\ selected case_base 2 = [1%nat] /\
  (forall i j, (i < 2)%nat -> (j < 2)%nat -> vs_C case_sys i j = 1 * vs_M case_sys i j + 1 * vs_K case_sys i j) /\
  (forall i, (i < 2)%nat -> case_base i = false -> vs_M case_sys i 1%nat = 0) /\
  all_modes 1 Kf Mf (fun _ => 2) (fun _ _ => 1) /\ no_resonance 1 1 1 1 (fun _ => 2).
Proof.
  cbv zeta. change (selected (fun d => negb (case_base d)) 2) with [O]. split; [reflexivity|]. split; [reflexivity|].
  split; [intros; reflexivity|]. split.
  { intros i Hi E. assert (i = 0 \/ i = 1)%nat as [->| ->] by lia; [|discriminate]. cbn. unfold mid. cbn. reflexivity. }
  split.
  - split; [intros; lra|]. split; intros m l Hm Hl; assert (m = O) by lia; assert (l = O) by lia; subst; cbn; unfold mid; cbn; lra.
  - intros m Hm. cbn. lra.
Qed.

Definition single_sys : vibsys := vs_add_nl_force (vs_new 2 mid (fun i j => if Nat.eqb i j then 2 else -1) None (Some (1, 1))) (cubic_nl 2 1 case_Q case_T (fun _ => 1)).
Lemma single_case : vs_forces single_sys = [cubic_nl 2 1 case_Q case_T (fun _ => 1)] /\ inverse_of 2 (vs_M single_sys) mid /\
  forall y, static_smooth 2 y (cubic_nl 2 1 case_Q case_T (fun _ => 1)).
Proof.
  split; [reflexivity|]. split; [|intros; apply cubic_static].
  intros i j Hi Hj. assert (i = 0 \/ i = 1)%nat as [->| ->] by lia; assert (j = 0 \/ j = 1)%nat as [->| ->] by lia; cbn; unfold mid; cbn; lra.
Qed.
