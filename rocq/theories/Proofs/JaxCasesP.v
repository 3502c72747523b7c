From Coq Require Import Reals List Arith Bool ZArith Lia Lra Psatz FunctionalExtensionality.
From Verif.Lib Require Import RSum Py.
From Verif.Spec Require Import Solver.
From Verif.Model Require Import JaxSolver.
From Verif.Proofs Require Import JaxP JaxLineP JaxRunP.
Import ListNotations.
Open Scope R_scope.

Lemma nsolve_inv n c lu fn X0 xtol c' a : nsolve n c lu fn X0 xtol = (c', Ok a) ->
  c' = c /\ exists x, solve_with n (set_xtol c (Some x)) lu fn X0 = Ok a /\ forall k, tolerance (set_xtol c (Some x)) k = in_force n c xtol k.
Proof.
  unfold nsolve. cbv zeta. set (x := match xtol with Some v => v | None => _ end). destruct (solve_with n (set_xtol c (Some x)) lu fn X0) as [a'|e] eqn:E; [|discriminate].
  intros H. injection H as <- <-. split; [destruct c; reflexivity|]. exists x. split; [exact E|]. intros []; reflexivity.
Qed.

Lemma met_quantity n c l X Rs d j : ~ In XtolRel l -> ~ In EtolRel l ->
  (met c l (meas n X Rs d j) <-> exists k, In k l /\ below (quantity n X Rs d j k) (tolerance c k)).
Proof.
  intros H1 H2. unfold met. split; intros (k & Hk & Hb); exists k; (split; [exact Hk|]); destruct k; try contradiction; exact Hb.
Qed.

Lemma nsolve_run n c lu fn X0 xtol c' a : nsolve n c lu fn X0 xtol = (c', Ok a) ->
  ~ In XtolRel (c_stopping c ++ c_accepting c) -> ~ In EtolRel (c_stopping c ++ c_accepting c) ->
  exists m X Rs d al, let L := List.length (a_calls a) in let rf := c_reform_freq c in
    let met l j := exists k, In k l /\ below (quantity n X Rs d j k) (in_force n c xtol k) in
    X 0%nat = X0 /\ a_X a = X m /\ (1 <= L <= c_max_steps c)%nat /\ (m = L \/ L = S m) /\
    a_calls a = map (fun j => (X j, Nat.eqb (j mod rf) 0)) (seq 0 L) /\ s_nfev (a_sol a) = L /\ s_njev (a_sol a) = List.length (filter snd (a_calls a)) /\
    (forall j, (j < m)%nat -> iteration n rf fn lu X Rs d al j) /\
    (c_ls_iters c = 0%nat -> forall j, (j < m)%nat -> al j = 1) /\
    (exists Jo, fn (X (L - 1)%nat) (Nat.eqb ((L - 1) mod rf) 0) = Ok (a_R a, Jo)) /\
    (exists R0, fn (X (L - 1 - (L - 1) mod rf)%nat) true = Ok (R0, a_J a)) /\
    (forall j, (S j < m)%nat -> ~ met (c_stopping c) j) /\
    (s_success (a_sol a) = true -> m = L /\
       (met (c_stopping c) (m - 1)%nat \/ m = c_max_steps c /\ met (c_accepting c) (m - 1)%nat)) /\
    (s_success (a_sol a) = false -> m = L ->
       m = c_max_steps c /\ ~ met (c_stopping c) (m - 1)%nat /\ ~ met (c_accepting c) (m - 1)%nat).
Proof.
  intros H S1 S2. destruct (nsolve_inv _ _ _ _ _ _ _ _ H) as (_ & x & HS & HT).
  destruct (run_spec n (set_xtol c (Some x)) lu fn X0 a HS) as (m & X & Rs & d & al & HR). exists m, X, Rs, d, al. cbv zeta in *.
  cbn [set_xtol c_max_steps c_reform_freq c_stopping c_accepting c_ls_iters] in HR.
  assert (Q : forall l j, (forall k, In k l -> In k (c_stopping c ++ c_accepting c)) ->
    (met (set_xtol c (Some x)) l (meas n X Rs d j) <-> exists k, In k l /\ below (quantity n X Rs d j k) (in_force n c xtol k))).
  { intros l j Hl. rewrite met_quantity by (intros Q; apply Hl in Q; contradiction). split; intros (k & Hk & Hb); exists k; (split; [exact Hk|]); [rewrite <- HT|rewrite HT]; exact Hb. }
  assert (QS : forall j, met (set_xtol c (Some x)) (c_stopping c) (meas n X Rs d j) <-> exists k, In k (c_stopping c) /\ below (quantity n X Rs d j k) (in_force n c xtol k)) by (intros j; apply Q; intros k Hk; apply in_or_app; left; exact Hk).
  assert (QA : forall j, met (set_xtol c (Some x)) (c_accepting c) (meas n X Rs d j) <-> exists k, In k (c_accepting c) /\ below (quantity n X Rs d j k) (in_force n c xtol k)) by (intros j; apply Q; intros k Hk; apply in_or_app; right; exact Hk).
  destruct HR as (A1 & A2 & A3 & A4 & A5 & A6 & A7 & A8 & A9 & A10 & A11 & A12 & A13 & A14).
  do 11 (split; [assumption|]). split; [intros j Hj; rewrite <- QS; apply A12; exact Hj|]. split.
  - intros Hs. destruct (A13 Hs) as [B1 B2]. split; [exact B1|]. rewrite <- QS, <- QA. exact B2.
  - intros Hs Hm. destruct (A14 Hs Hm) as (B1 & B2 & B3). rewrite <- QS, <- QA. auto.
Qed.

(** nsolve ends normally *)
Lemma ls_returns n c fn X Rx d : (forall Y b, exists r, fn Y b = Ok r) -> exists r, line_search n c fn X Rx d = Ok r.
Proof.
  intros HF. assert (L : forall iters ss tol G0 b, exists b', ls_loop iters n fn ss tol X d G0 b = Ok b').
  { induction iters as [|k IH]; intros; [eexists; reflexivity|]. cbn [ls_loop]. destruct (HF (fun i => X i + / 2 * (b_a0 b + b_a1 b) * d i) false) as [[Rm Jm] ->]. cbn [bind].
    destruct (_ && _)%bool; [eexists; reflexivity|]. destruct (_ && _)%bool; [eexists; reflexivity|]. apply IH. }
  unfold line_search. cbv zeta. destruct (HF (fun i => X i + d i) false) as [[R1 J1] ->]. cbn [bind]. destruct (opos _); [eexists; reflexivity|]. destruct (_ && _)%bool; [eexists; reflexivity|].
  match goal with |- context[ls_loop ?a ?b ?e ?f ?g ?h ?i ?j ?k] => destruct (L a f g j k) as [b' ->] end. cbn [bind]. destruct (Req_EM_T _ 0); eexists; reflexivity.
Qed.

Lemma nsolve_returns n c lu fn X0 xtol : (forall Y b, exists r, fn Y b = Ok r) -> (0 < c_max_steps c)%nat -> (0 < c_reform_freq c)%nat ->
  (forall k, In k (c_stopping c ++ c_accepting c) -> in_force n c xtol k <> None) -> exists a, nsolve n c lu fn X0 xtol = (c, Ok a).
Proof.
  intros HF Hm Hr HT. unfold nsolve. cbv zeta. set (x := match xtol with Some v => v | None => _ end). set (c1 := set_xtol c (Some x)).
  assert (T1 : forall k, tolerance c1 k = in_force n c xtol k) by (intros []; reflexivity).
  assert (CS : forall l m b, (forall k, In k l -> In k (c_stopping c ++ c_accepting c)) -> exists r, check_convg l c1 m b = Ok r) by (intros l m b Hl; apply check_ok; intros k Hk; rewrite T1; apply HT, Hl, Hk).
  assert (LP : forall todo i t, (t_meas t <> None \/ (0 < todo)%nat) -> exists t' e, newton_loop todo n c1 lu fn i t = Ok (t', e) /\ (e = Exhausted -> t_meas t' <> None)).
  { induction todo as [|todo IH]; intros i t Ht; [eexists _, _; split; [reflexivity|intros _; destruct Ht as [Ht|Ht]; [exact Ht|lia]]|]. cbn [newton_loop].
    assert (DIR : exists t1 o, direction n c1 lu fn t = Ok (t1, o)).
    { unfold direction. destruct (Nat.eqb _ 0).
      - destruct (HF (t_X t) true) as [[Ro Jo] ->]. cbn [bind]. destruct Ro; [|eexists _, _; reflexivity]. destruct Jo; [|eexists _, _; reflexivity].
        change (c_reform_freq c1) with (c_reform_freq c). destruct (c_reform_freq c); [lia|]. destruct (lu m v); eexists _, _; reflexivity.
      - destruct (HF (t_X t) false) as [[Ro Jo] ->]. cbn [bind]. destruct Ro; [|eexists _, _; reflexivity]. destruct (t_dXm1 t); [|eexists _, _; reflexivity].
        destruct (Req_EM_T _ 0); [eexists _, _; reflexivity|]. destruct (bfgs_direction _ _ _ _); eexists _, _; reflexivity. }
    destruct DIR as (t1 & o & ->). cbn [bind]. destruct o as [[Rr dd]|]; [|eexists _, _; split; [reflexivity|discriminate]].
    assert (ADV : exists t2 cv, advance n c1 fn i t1 Rr dd = Ok (t2, cv) /\ t_meas t2 <> None).
    { unfold advance. cbv zeta. destruct (Nat.ltb 0 (c_ls_iters c1)).
      - destruct (ls_returns n c1 fn (t_X t1) Rr dd HF) as [[[al Ra] b] ->]. cbn [bind]. match goal with |- context[check_convg ?l ?c ?m ?b] => destruct (CS l m b) as [r ->] end; [intros k Hk; apply in_or_app; left; exact Hk|]. eexists _, _. split; [reflexivity|discriminate].
      - cbn [bind]. match goal with |- context[check_convg ?l ?c ?m ?b] => destruct (CS l m b) as [r ->] end; [intros k Hk; apply in_or_app; left; exact Hk|]. eexists _, _. split; [reflexivity|discriminate]. }
    destruct ADV as (t2 & cv & -> & Hm2). cbn [bind]. destruct cv; [eexists _, _; split; [reflexivity|discriminate]|]. apply IH. left. exact Hm2. }
  unfold solve_with. change (c_max_steps c1) with (c_max_steps c). destruct (LP (c_max_steps c) 0%nat (start X0) (or_intror Hm)) as (t & e & -> & He). cbn [bind].
  destruct e; cbn [bind]; [eexists; f_equal; destruct c; reflexivity|eexists; f_equal; destruct c; reflexivity|].
  destruct (t_meas t) as [m|] eqn:Em; [|exfalso; apply He; reflexivity]. destruct (CS (c_accepting c1) m false) as [r ->]; [intros k Hk; apply in_or_app; right; exact Hk|].
  cbn [bind]. eexists. f_equal. destruct c. reflexivity.
Qed.

Lemma nsolve_keeps n c lu fn X0 xtol c' a : nsolve n c lu fn X0 xtol = (c', Ok a) -> c' = c.
Proof. intros H. apply (nsolve_inv _ _ _ _ _ _ _ _ H). Qed.

Lemma nsolve_raise : exists n c lu fn X0 c' e, c_xtol c = None /\ nsolve n c lu fn X0 (Some 1) = (c', Err e) /\ c_xtol c' = Some 1.
Proof. exists 1%nat, default_config, (fun _ _ => None), (fun _ _ => Err (UserError 0)), vzero. eexists _, _. split; [reflexivity|]. split; reflexivity. Qed.

Lemma nsolve_raise_zero_steps : exists n c lu fn X0 c' e, c_max_steps c = 0%nat /\ (forall Y b, exists r, fn Y b = Ok r) /\
  nsolve n c lu fn X0 (Some 1) = (c', Err e) /\ c' <> c.
Proof.
  exists 1%nat, (mkConf 0 1 None None None None None None [Xtol] [] 0 (1 / 2) true), (fun _ _ => None), (fun _ _ => Ok (None, None)), vzero. eexists _, _.
  split; [reflexivity|]. split; [intros; eexists; reflexivity|]. split; [reflexivity|]. discriminate.
Qed.

(** success although the residual at the returned point is far above the tolerance *)
Definition far_fn : residual := fun Y _ => Ok (Some (fun _ => 1 / 10 + 1 / 100 * Y 0%nat + Y 0%nat * Y 0%nat), Some (fun _ _ => 1 / 100 + 2 * Y 0%nat)).
Definition div_lu : mat -> vec -> option vec := fun A b => Some (fun i => b i / A 0%nat 0%nat).
Definition far_conf : config := mkConf 20 1 None (Some (1 / 5)) None None None None [Rtol] [] 0 (1 / 2) true.


Lemma loop_S todo n c lu fn i t : newton_loop (S todo) n c lu fn i t =
  do (t1, o) <- direction n c lu fn t;
  match o with
  | None => Ok (t1, NanStop)
  | Some (Rr, d) => do (t2, conv) <- advance n c fn i t1 Rr d; if conv then Ok (t2, Converged) else newton_loop todo n c lu fn (S i) t2
  end.
Proof. reflexivity. Qed.

Definition far_lu : mat -> vec -> option vec := fun A b => if Req_EM_T (A 0%nat 0%nat) 0 then None else div_lu A b.

Lemma far_run : exists a, nsolve 1 far_conf far_lu far_fn vzero None = (far_conf, Ok a) /\ s_success (a_sol a) = true /\ forall k, a_X a k = -10.
Proof.
  assert (Q : sqrt (0 + (1 / 10 + 1 / 100 * 0 + 0 * 0) * (1 / 10 + 1 / 100 * 0 + 0 * 0)) = 1 / 10).
  { replace (0 + (1 / 10 + 1 / 100 * 0 + 0 * 0) * (1 / 10 + 1 / 100 * 0 + 0 * 0)) with (1 / 10 * (1 / 10)) by lra. apply sqrt_square. lra. }
  unfold nsolve. cbv zeta. match goal with |- context[solve_with _ ?cc ?lu _ _] => set (c1 := cc); set (l1 := lu) end.
  assert (D : direction 1 c1 l1 far_fn (start vzero) =
      Ok (mkSt vzero None vzero 0 [] (fun _ _ => 1 / 100 + 2 * vzero 0%nat) 0 0 None (Some (fun _ => 1 / 10 + 1 / 100 * vzero 0%nat + vzero 0%nat * vzero 0%nat))
            (Some (fun _ _ => 1 / 100 + 2 * vzero 0%nat)) None 1 1 [(vzero, true)],
          Some (fun _ => 1 / 10 + 1 / 100 * vzero 0%nat + vzero 0%nat * vzero 0%nat, fun _ => - ((1 / 10 + 1 / 100 * vzero 0%nat + vzero 0%nat * vzero 0%nat) / (1 / 100 + 2 * vzero 0%nat))))).
    { unfold direction. cbn [start t_ind Nat.eqb t_X far_fn bind]. unfold l1, far_lu, c1. cbn [far_conf set_xtol c_reform_freq]. destruct (Req_EM_T _ 0) as [E|_]; [exfalso; unfold vzero in E; lra|]. reflexivity. }
    assert (A : forall t Rr dd, sqrt (dot 1 Rr Rr) = 1 / 10 -> exists t2, advance 1 c1 far_fn 0 t Rr dd = Ok (t2, true) /\ t_X t2 = (fun k => t_X t k + dd k)).
    { intros t Rr dd Hq. unfold advance. cbv zeta. rewrite Hq. cbn [c1 far_conf set_xtol c_ls_iters Nat.ltb Nat.leb bind c_stopping check_convg tolerance c_rtol error_value m_r].
      replace (Rltb (Rabs (1 / 10)) (1 / 5)) with true by (symmetry; apply Rltb_true; rewrite Rabs_pos_eq; lra). cbn [bind]. eexists. split; reflexivity. }
    match type of D with _ = Ok (?t, Some (?r, ?d)) => destruct (A t r d Q) as (t2 & A1 & A2) end.
  unfold solve_with. change (c_max_steps c1) with 20%nat. rewrite loop_S, D. cbn [bind]. rewrite A1. cbn [bind]. eexists. split; [reflexivity|]. split; [reflexivity|].
  intros q. cbn [a_X]. rewrite A2. cbn [t_X]. unfold vzero. lra.
Qed.

Lemma nsolve_far : exists n c lu fn X0 c' a Rx J t,
  sound_lu n lu /\ c_stopping c = [Rtol] /\ c_rtol c = Some t /\ nsolve n c lu fn X0 None = (c', Ok a) /\ s_success (a_sol a) = true /\
  fn (a_X a) true = Ok (Some Rx, Some J) /\ 100 * t < norm n Rx.
Proof.
  destruct far_run as (a & H & Hs & Hx). exists 1%nat, far_conf, far_lu, far_fn, vzero, far_conf, a. eexists _, _, (1 / 5). split.
  { intros A b x. unfold far_lu, div_lu. destruct (Req_EM_T (A 0%nat 0%nat) 0) as [E|E]; [discriminate|]. intros W i Hi. injection W as <-. assert (i = 0)%nat as -> by lia. unfold matvec. cbn [rsum]. field. exact E. }
  split; [reflexivity|]. split; [reflexivity|]. split; [exact H|]. split; [exact Hs|]. split; [reflexivity|].
  unfold norm, dot. cbn [rsum]. rewrite Hx.
  match goal with |- _ < sqrt ?x => replace x with (100 * 100) by lra end. rewrite sqrt_square; lra.
Qed.

(** no sign change bracketed when the directional residual starts at 0 *)
Lemma line_bracket_wrong : exists n c F fn X d al Ra b, (forall Y, fn Y false = Ok (Some (F Y), None)) /\ 0 < c_ls_tol c /\ c_ls_iters c = 1%nat /\
  line_search n c fn X (F X) d = Ok (al, Ra, b) /\ b_nfev b = 2%nat /\ 0 < slope n F X d (b_a0 b) * slope n F X d (b_a1 b).
Proof.
  exists 1%nat, (mkConf 20 1 None None None None None None [Xtol] [] 1 (1 / 2) true), (fun Y => Y), (fun Y _ => Ok (Some Y, None)), vzero, (fun _ => 1). eexists _, _, _.
  split; [reflexivity|]. split; [cbn; lra|]. split; [reflexivity|]. split.
  - unfold line_search. cbv zeta. cbn [bind odot omul opos c_ls_same_sign negb andb c_ls_iters c_ls_tol ls_loop b_a0 b_a1 b_g0 b_g1 oneg b_r0 b_r1 b_nfev orb].
    match goal with |- context[Rltb 0 ?x] => assert (H1 : Rltb 0 x = false) by (apply Rltb_false; unfold dot, vzero; cbn [rsum]; lra) end. rewrite H1.
    match goal with |- context[Rltb ?x 0] => assert (H2 : Rltb x 0 = false) by (apply Rltb_false; unfold dot, vzero; cbn [rsum]; lra) end. rewrite H2. cbn [b_a0 b_a1 b_g0 b_g1 b_r0 b_r1 oabs_lt_tol].
    match goal with |- context[Rltb ?x ?y] => assert (H3 : Rltb x y = false) end.
    { apply Rltb_false. unfold dot, vzero. cbn [rsum]. replace (0 + 1 * 0) with 0 by ring. rewrite Rabs_R0, Rmult_0_r. apply Rabs_pos. }
    rewrite H3. cbn [bind b_a0 b_a1 b_g0 b_g1 b_r0 b_r1].
    destruct (Req_EM_T (/ 2 * (0 + 1)) 0) as [E|_]; [exfalso; lra|]. reflexivity.
  - cbn [b_nfev b_a0 b_a1]. split; [reflexivity|]. unfold slope, dot, vzero. cbn [rsum]. lra.
Qed.

(** without same_sign a full step onto a root is taken *)
Lemma line_full_step n (c : config) (F : vec -> vec) (fn : residual) (X d : vec) :
  (forall Y, exists J, fn Y false = Ok (Some (F Y), J)) -> c_ls_same_sign c = false -> 0 < c_ls_tol c -> slope n F X d 0 <> 0 ->
  (forall i, (i < n)%nat -> F (fun k => X k + d k) i = 0) ->
  exists b, line_search n c fn X (F X) d = Ok (1, Some (F (fun k => X k + d k)), b).
Proof.
  intros HF Hs Ht H0 Hr. unfold line_search. cbv zeta. destruct (HF (fun i => X i + d i)) as [J ->]. cbn [bind odot omul opos].
  assert (Z : dot n d (F (fun i => X i + d i)) = 0). { unfold dot. apply rsum_zero. intros i Hi. rewrite Hr by exact Hi. ring. }
  rewrite Z. assert (E : Rltb 0 (0 * dot n d (F X)) = false) by (apply Rltb_false; lra). rewrite E, Hs. cbn [negb andb oabs_lt_tol].
  assert (E2 : Rltb (Rabs 0) (c_ls_tol c * Rabs (dot n d (F X))) = true).
  { apply Rltb_true. rewrite Rabs_R0. apply Rmult_lt_0_compat; [exact Ht|]. apply Rabs_pos_lt. intros Q. apply H0. unfold slope. replace (fun i => X i + 0 * d i) with X by (extensionality i; ring). exact Q. }
  rewrite E2. eexists. reflexivity.
Qed.

Lemma line_root_case : exists n c F fn X d alpha Ra b, (forall Y, exists J, fn Y false = Ok (Some (F Y), J)) /\ slope n F X d 0 <> 0 /\
  (forall i, (i < n)%nat -> F (fun k => X k + d k) i = 0) /\ line_search n c fn X (F X) d = Ok (alpha, Ra, b) /\ alpha < 1.
Proof.
  set (F := (fun Y i => Y i * Y i - 4) : vec -> vec). set (fn := (fun Y _ => Ok (Some (F Y), None)) : residual).
  set (c := mkConf 20 1 None None None None None None [Xtol] [] 4 (1 / 2) true).
  assert (H : forall Y, exists J, fn Y false = Ok (Some (F Y), J)) by (intros Y; exists None; reflexivity).
  assert (Z : forall i, (i < 2)%nat -> F (fun k => (fun _ => 1) k + (fun _ => 1) k) i = 0) by (intros i _; unfold F; lra).
  destruct (line_ok 2 F fn (fun _ => 1) (fun _ => 1) H c) as (alpha & Ra & b & E). exists 2%nat, c, F, fn, (fun _ => 1), (fun _ => 1), alpha, Ra, b.
  split; [exact H|]. split; [unfold slope, dot, F; cbn [rsum]; lra|]. split; [exact Z|]. split; [exact E|].
  apply (line_root 2 F fn (fun _ => 1) (fun _ => 1) H c alpha Ra b eq_refl); [cbn; lia|cbn; lra|exact Z|exact E].
Qed.
