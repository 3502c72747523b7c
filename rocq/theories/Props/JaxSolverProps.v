(** The nonlinear solver of tmdsimpy/jax/solvers.py. *)
From Coq Require Import Reals List Arith Bool Lia Lra.
From Verif.Lib Require Import RSum Py.
From Verif.Spec Require Import Solver.
From Verif.Model Require Import JaxSolver.
From Verif.Proofs Require Import JaxP JaxLineP JaxRunP JaxCasesP.
Import ListNotations.
Open Scope R_scope.

(** ---- C30 ---- *)
Theorem C30_documented_partial (c : config) (m : measures) (l : list tol_name)
  (Hset : forall k, In k l -> tolerance c k <> None) (Hx : ~ In XtolRel l) (He : ~ In EtolRel l) :
  exists b, check_convg l c m false = Ok b /\ (b = true <-> exists k, In k l /\ below (documented_value m k) (tolerance c k)).
Proof. exact (check_documented c m l Hset Hx He). Qed.
Print Assumptions C30_documented_partial.

(** a relative step tolerance is compared with the relative energy *)
Theorem C30_relative_refuted : exists c m1 m2, c_stopping c = [XtolRel] /\
  below (documented_value m1 XtolRel) (tolerance c XtolRel) /\ check_convg (c_stopping c) c m1 false = Ok false /\
  ~ below (documented_value m2 XtolRel) (tolerance c XtolRel) /\ check_convg (c_stopping c) c m2 false = Ok true.
Proof. exact check_swapped. Qed.
Print Assumptions C30_relative_refuted.

Definition c30_conf : config := mkConf 20 3 (Some (1 / 10)) (Some (1 / 100)) None None (Some (1 / 1000)) None [Xtol; RtolRel] [Rtol] 4 (1 / 2) true.
Example C30_case : (forall k, In k [Xtol; RtolRel] -> tolerance c30_conf k <> None) /\ ~ In XtolRel [Xtol; RtolRel] /\ ~ In EtolRel [Xtol; RtolRel] /\
  below (documented_value (mkMeas (Some 1) None (Some (1 / 20)) (Some 1) None None) Xtol) (tolerance c30_conf Xtol).
Proof.
  split; [intros k [<-|[<-|[]]]; discriminate|]. split; [intros [H|[H|[]]]; discriminate|]. split; [intros [H|[H|[]]]; discriminate|].
  exists (1 / 20), (1 / 10). split; [reflexivity|]. split; [reflexivity|]. rewrite Rabs_pos_eq; lra.
Qed.

(** ---- C31 ---- *)
(** m complete iterations and L evaluations of fun: L = m + 1 when the last evaluation or solve gave nan, otherwise L = m *)
Theorem C31_protocol_partial (n : nat) (c c' : config) (lu : mat -> vec -> option vec) (fn : residual) (X0 : vec) (xtol : option R) (a : answer)
  (Hrun : nsolve n c lu fn X0 xtol = (c', Ok a))
  (Hx : ~ In XtolRel (c_stopping c ++ c_accepting c)) (He : ~ In EtolRel (c_stopping c ++ c_accepting c)) :
  exists m X Rs d al, let L := List.length (a_calls a) in let rf := c_reform_freq c in
    let met l j := exists k, In k l /\ below (quantity n X Rs d j k) (in_force n c xtol k) in
    X 0%nat = X0 /\ a_X a = X m /\ (1 <= L <= c_max_steps c)%nat /\ (m = L \/ L = S m) /\
    a_calls a = map (fun j => (X j, Nat.eqb (j mod rf) 0)) (seq 0 L) /\ s_nfev (a_sol a) = L /\ s_njev (a_sol a) = List.length (filter snd (a_calls a)) /\
    (forall j, (j < m)%nat -> iteration n rf fn lu X Rs d al j) /\
    (c_ls_iters c = 0%nat -> forall j, (j < m)%nat -> al j = 1) /\
    (exists Jo, fn (X (L - 1)%nat) (Nat.eqb ((L - 1) mod rf) 0) = Ok (a_R a, Jo)) /\
    (exists R0, fn (X (L - 1 - (L - 1) mod rf)%nat) true = Ok (R0, a_J a)) /\
    (forall j, (S j < m)%nat -> ~ met (c_stopping c) j) /\
    (s_success (a_sol a) = true -> m = L /\
       (met (c_stopping c) (m - 1)%nat \/ m = c_max_steps c /\ met (c_accepting c) (m - 1)%nat)) /\
    (s_success (a_sol a) = false -> m = L ->
       m = c_max_steps c /\ ~ met (c_stopping c) (m - 1)%nat /\ ~ met (c_accepting c) (m - 1)%nat).
Proof. exact (nsolve_run n c lu fn X0 xtol c' a Hrun Hx He). Qed.
Print Assumptions C31_protocol_partial.

(** the call returns whenever fun does and the named tolerances are set *)
Theorem C31_returns (n : nat) (c : config) (lu : mat -> vec -> option vec) (fn : residual) (X0 : vec) (xtol : option R)
  (Hfn : forall Y b, exists r, fn Y b = Ok r) (Hsteps : (0 < c_max_steps c)%nat) (Hrf : (0 < c_reform_freq c)%nat)
  (Hset : forall k, In k (c_stopping c ++ c_accepting c) -> in_force n c xtol k <> None) :
  exists a, nsolve n c lu fn X0 xtol = (c, Ok a).
Proof. exact (nsolve_returns n c lu fn X0 xtol Hfn Hsteps Hrf Hset). Qed.
Print Assumptions C31_returns.

(** success is reported with a residual at the returned point of more than 100 times the residual tolerance *)
Theorem C31_returned_point_refuted : exists n c lu fn X0 c' a Rx J t,
  sound_lu n lu /\ c_stopping c = [Rtol] /\ c_rtol c = Some t /\ nsolve n c lu fn X0 None = (c', Ok a) /\ s_success (a_sol a) = true /\
  fn (a_X a) true = Ok (Some Rx, Some J) /\ 100 * t < norm n Rx.
Proof. exact nsolve_far. Qed.
Print Assumptions C31_returned_point_refuted.

Example C31_case : exists a, nsolve 1 c30_conf far_lu far_fn (fun _ => 3) (Some (1 / 50)) = (c30_conf, Ok a) /\
  ~ In XtolRel (c_stopping c30_conf ++ c_accepting c30_conf) /\ ~ In EtolRel (c_stopping c30_conf ++ c_accepting c30_conf).
Proof.
  destruct (C31_returns 1 c30_conf far_lu far_fn (fun _ => 3) (Some (1 / 50))) as [a H].
  - intros Y b. eexists. reflexivity.
  - cbn; lia.
  - cbn; lia.
  - intros k [<-|[<-|[<-|[]]]]; discriminate.
  - exists a. split; [exact H|]. split; intros [Q|[Q|[Q|[]]]]; discriminate.
Qed.
Example C31_success_case : exists a, nsolve 1 far_conf far_lu far_fn vzero None = (far_conf, Ok a) /\ s_success (a_sol a) = true /\ forall k, a_X a k = -10.
Proof. exact far_run. Qed.

(** ---- C32 ---- *)
Theorem C32_config_partial (n : nat) (c c' : config) (lu : mat -> vec -> option vec) (fn : residual) (X0 : vec) (xtol : option R) (a : answer)
  (Hrun : nsolve n c lu fn X0 xtol = (c', Ok a)) : c' = c.
Proof. exact (nsolve_keeps n c lu fn X0 xtol c' a Hrun). Qed.
Print Assumptions C32_config_partial.

(** the residual function raises: the tolerance of this call stays in the configuration *)
Theorem C32_config_refuted : exists n c lu fn X0 c' e, c_xtol c = None /\ nsolve n c lu fn X0 (Some 1) = (c', Err e) /\ c_xtol c' = Some 1.
Proof. exact nsolve_raise. Qed.
Print Assumptions C32_config_refuted.

(** the same with a residual function that never raises and max_steps = 0 *)
Theorem C32_zero_steps_refuted : exists n c lu fn X0 c' e, c_max_steps c = 0%nat /\ (forall Y b, exists r, fn Y b = Ok r) /\
  nsolve n c lu fn X0 (Some 1) = (c', Err e) /\ c' <> c.
Proof. exact nsolve_raise_zero_steps. Qed.
Print Assumptions C32_zero_steps_refuted.

Example C32_case : exists a, nsolve 1 far_conf far_lu far_fn vzero None = (far_conf, Ok a) /\ s_success (a_sol a) = true /\ forall k, a_X a k = -10.
Proof. exact far_run. Qed.

(** ---- C33 ---- *)
Theorem C33_range (n : nat) (c : config) (F : vec -> vec) (fn : residual) (X d : vec) (alpha : R) (Ra : option vec) (b : bracket)
  (Hfn : forall Y, exists J, fn Y false = Ok (Some (F Y), J)) (Hrun : line_search n c fn X (F X) d = Ok (alpha, Ra, b)) :
  0 < alpha <= 1 /\ Ra = Some (F (fun i => X i + alpha * d i)) /\ (b_nfev b <= S (c_ls_iters c))%nat.
Proof. exact (line_range n F fn X d Hfn c alpha Ra b Hrun). Qed.
Print Assumptions C33_range.

(** b_nfev b - 1 bisections; the slope is the directional residual d . R(X + a d) *)
Theorem C33_bracket_partial (n : nat) (c : config) (F : vec -> vec) (fn : residual) (X d : vec) (alpha : R) (Ra : option vec) (b : bracket)
  (Hfn : forall Y, exists J, fn Y false = Ok (Some (F Y), J)) (Htol : 0 < c_ls_tol c) (Hstart : slope n F X d 0 <> 0)
  (Hrun : line_search n c fn X (F X) d = Ok (alpha, Ra, b)) :
  (alpha = 1 /\ (0 < slope n F X d 1 * slope n F X d 0 \/ c_ls_same_sign c = false /\ Rabs (slope n F X d 1) < c_ls_tol c * Rabs (slope n F X d 0))) \/
  (0 <= b_a0 b < b_a1 b /\ b_a1 b <= 1 /\ b_a1 b - b_a0 b = / 2 ^ (b_nfev b - 1) /\
   slope n F X d (b_a0 b) * slope n F X d (b_a1 b) <= 0 /\ 0 <= slope n F X d (b_a0 b) * slope n F X d 0).
Proof. exact (line_bracket n F fn X d Hfn c alpha Ra b Htol Hstart Hrun). Qed.
Print Assumptions C33_bracket_partial.

Theorem C33_bracket_refuted : exists n c F fn X d al Ra b, (forall Y, fn Y false = Ok (Some (F Y), None)) /\ 0 < c_ls_tol c /\ c_ls_iters c = 1%nat /\
  line_search n c fn X (F X) d = Ok (al, Ra, b) /\ b_nfev b = 2%nat /\ 0 < slope n F X d (b_a0 b) * slope n F X d (b_a1 b).
Proof. exact line_bracket_wrong. Qed.
Print Assumptions C33_bracket_refuted.

(** the exception: every halved step changed sign, and the last one is returned *)
Theorem C33_same_sign (n : nat) (c : config) (F : vec -> vec) (fn : residual) (X d : vec) (alpha : R) (Ra : option vec) (b : bracket)
  (Hfn : forall Y, exists J, fn Y false = Ok (Some (F Y), J)) (Htol : 0 < c_ls_tol c) (Hstart : slope n F X d 0 <> 0) (Hsame : c_ls_same_sign c = true)
  (Hrun : line_search n c fn X (F X) d = Ok (alpha, Ra, b)) :
  0 <= slope n F X d alpha * slope n F X d 0 \/
  (alpha = / 2 ^ c_ls_iters c \/ 1 < c_ls_tol c) /\ slope n F X d 1 * slope n F X d 0 <= 0 /\
    forall j, (1 <= j <= b_nfev b - 1)%nat -> slope n F X d (/ 2 ^ j) * slope n F X d 0 < 0.
Proof. exact (line_same_sign n F fn X d Hfn c alpha Ra b Htol Hstart Hsame Hrun). Qed.
Print Assumptions C33_same_sign.

Theorem C33_tolerance (n : nat) (c : config) (F : vec -> vec) (fn : residual) (X d : vec) (alpha : R) (Ra : option vec) (b : bracket)
  (Hfn : forall Y, exists J, fn Y false = Ok (Some (F Y), J)) (Htol : 0 < c_ls_tol c <= 1)
  (Hrun : line_search n c fn X (F X) d = Ok (alpha, Ra, b)) :
  b_nfev b = S (c_ls_iters c) \/ (alpha = 1 /\ 0 < slope n F X d 1 * slope n F X d 0) \/
  Rabs (slope n F X d alpha) < c_ls_tol c * Rabs (slope n F X d 0).
Proof. exact (line_tolerance n F fn X d Hfn c alpha Ra b Htol Hrun). Qed.
Print Assumptions C33_tolerance.

Definition c33_F : vec -> vec := fun Y i => Y i * Y i - 4.
Definition c33_fn : residual := fun Y _ => Ok (Some (c33_F Y), None).
Example C33_case : (forall Y, exists J, c33_fn Y false = Ok (Some (c33_F Y), J)) /\ 0 < c_ls_tol c30_conf <= 1 /\ c_ls_same_sign c30_conf = true /\
  slope 2 c33_F (fun _ => 1) (fun _ => 3) 0 <> 0 /\ slope 2 c33_F (fun _ => 1) (fun _ => 3) 1 * slope 2 c33_F (fun _ => 1) (fun _ => 3) 0 < 0 /\
  exists alpha Ra b, line_search 2 c30_conf c33_fn (fun _ => 1) (c33_F (fun _ => 1)) (fun _ => 3) = Ok (alpha, Ra, b).
Proof.
  assert (H : forall Y, exists J, c33_fn Y false = Ok (Some (c33_F Y), J)) by (intros Y; exists None; reflexivity).
  split; [exact H|]. split; [cbn; lra|]. split; [reflexivity|]. split; [unfold slope, dot, c33_F; cbn [rsum]; lra|]. split; [unfold slope, dot, c33_F; cbn [rsum]; lra|].
  exact (line_ok 2 c33_F c33_fn (fun _ => 1) (fun _ => 3) H c30_conf).
Qed.

(** ---- C34 ---- *)
(** the two loops apply the BFGS inverse to -R; with no stored pair this is the factored solve *)
Theorem C34_two_loop (n : nat) (lu : vec -> option vec) (H0 : vec -> vec) (ps : list (vec * vec)) (Rr : vec) (Hlu : forall v, lu v = Some (H0 v)) :
  bfgs_direction n lu (map (fun sy => (fst sy, snd sy, 1 / dot n (fst sy) (snd sy))) ps) Rr = Some (bfgs_inverse n H0 ps (fun i => - Rr i)).
Proof. exact (bfgs_direction_spec n lu H0 ps Rr Hlu). Qed.
Print Assumptions C34_two_loop.

Theorem C34_secant (n : nat) (lu : mat -> vec -> option vec) (A : mat) (s y : vec) (older : list (vec * vec)) (Rr d : vec)
  (Hsound : sound_lu n lu) (Hregular : forall x, (forall i, (i < n)%nat -> matvec n A x i = 0) -> forall i, (i < n)%nat -> x i = 0)
  (Hsolves : forall v, lu A v <> None) (Hsy : dot n s y <> 0) (HR : forall i, Rr i = y i)
  (Hrun : bfgs_direction n (lu A) (map (fun sy => (fst sy, snd sy, 1 / dot n (fst sy) (snd sy))) ((s, y) :: older)) Rr = Some d) :
  forall i, (i < n)%nat -> d i = - s i.
Proof. exact (secant_regular n lu A s y older Rr d Hsound Hregular Hsolves Hsy HR Hrun). Qed.
Print Assumptions C34_secant.

Example C34_no_pairs (n : nat) (lu : vec -> option vec) (Rr : vec) : bfgs_direction n lu [] Rr = lu (fun i => - Rr i).
Proof. unfold bfgs_direction. cbn [first_loop]. destruct (lu (fun i => - Rr i)); reflexivity. Qed.

Definition c34_lu : mat -> vec -> option vec := fun A b => if Req_EM_T (A 0%nat 0%nat) 0 then None else Some (fun i => b i / A 0%nat 0%nat).
Example C34_case : sound_lu 1 c34_lu /\ (forall x : vec, (forall i, (i < 1)%nat -> matvec 1 (fun _ _ => 2) x i = 0) -> forall i, (i < 1)%nat -> x i = 0) /\
  (forall v, c34_lu (fun _ _ => 2) v <> None) /\ dot 1 (fun _ => 3) (fun _ => 5) <> 0 /\
  exists d, bfgs_direction 1 (c34_lu (fun _ _ => 2)) (map (fun sy => (fst sy, snd sy, 1 / dot 1 (fst sy) (snd sy))) [((fun _ => 3) : vec, (fun _ => 5) : vec)]) (fun _ => 5) = Some d.
Proof.
  split. { intros A b x. unfold c34_lu. destruct (Req_EM_T (A 0%nat 0%nat) 0) as [E|E]; [discriminate|]. intros W i Hi. injection W as <-. assert (i = 0)%nat as -> by lia. unfold matvec. cbn [rsum]. field. exact E. }
  split. { intros x H i Hi. assert (i = 0)%nat as -> by lia. specialize (H 0%nat Hi). unfold matvec in H. cbn [rsum] in H. lra. }
  split. { intros v. unfold c34_lu. destruct (Req_EM_T 2 0); [lra|discriminate]. }
  split; [unfold dot; cbn [rsum]; lra|]. unfold bfgs_direction, c34_lu. cbn [map first_loop]. cbv zeta. destruct (Req_EM_T 2 0); [lra|]. eexists. reflexivity.
Qed.

(** ---- C64 ---- *)
(** with same_sign (the default) the full step onto a root is never taken *)
Theorem C64_full_step_skipped (n : nat) (c : config) (F : vec -> vec) (fn : residual) (X d : vec) (alpha : R) (Ra : option vec) (b : bracket)
  (Hfn : forall Y, exists J, fn Y false = Ok (Some (F Y), J)) (Hsame : c_ls_same_sign c = true) (Hiters : (0 < c_ls_iters c)%nat) (Htol : c_ls_tol c <= 1)
  (Hroot : forall i, (i < n)%nat -> F (fun k => X k + d k) i = 0) (Hrun : line_search n c fn X (F X) d = Ok (alpha, Ra, b)) : alpha < 1.
Proof. exact (line_root n F fn X d Hfn c alpha Ra b Hsame Hiters Htol Hroot Hrun). Qed.
Print Assumptions C64_full_step_skipped.

Theorem C64_root_step_partial (n : nat) (c : config) (F : vec -> vec) (fn : residual) (X d : vec)
  (Hfn : forall Y, exists J, fn Y false = Ok (Some (F Y), J)) (Hsame : c_ls_same_sign c = false) (Htol : 0 < c_ls_tol c) (Hstart : slope n F X d 0 <> 0)
  (Hroot : forall i, (i < n)%nat -> F (fun k => X k + d k) i = 0) :
  exists b, line_search n c fn X (F X) d = Ok (1, Some (F (fun k => X k + d k)), b).
Proof. exact (line_full_step n c F fn X d Hfn Hsame Htol Hstart Hroot). Qed.
Print Assumptions C64_root_step_partial.

(** the case: R(x) = x^2 - 4 in two unknowns, from 1 with step 1 *)
Theorem C64_root_step_refuted : exists n c F fn X d alpha Ra b, (forall Y, exists J, fn Y false = Ok (Some (F Y), J)) /\ slope n F X d 0 <> 0 /\
  (forall i, (i < n)%nat -> F (fun k => X k + d k) i = 0) /\ line_search n c fn X (F X) d = Ok (alpha, Ra, b) /\ alpha < 1.
Proof. exact line_root_case. Qed.
Print Assumptions C64_root_step_refuted.

(** the equation X^2 = 1 from X = 2 with the exact step -1, with and without the condition on the sign *)
Example C64_case : let F := fun (X : vec) (i : nat) => X 0%nat ^ 2 - 1 in let fn : residual := fun X g => Ok (Some (F X), None) in
  (forall Y, exists J, fn Y false = Ok (Some (F Y), J)) /\ (forall i, (i < 1)%nat -> F (fun k => (fun _ => 2) k + (fun _ => -1) k) i = 0) /\
  slope 1 F (fun _ => 2) (fun _ => -1) 0 <> 0.
Proof. split; [intros Y; exists None; reflexivity|]. split; [intros i Hi; cbn; lra|]. unfold slope, dot. cbn [rsum]. lra. Qed.
