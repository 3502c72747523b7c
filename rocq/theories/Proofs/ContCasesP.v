From Coq Require Import Reals List Arith Bool ZArith Lia Lra Psatz FunctionalExtensionality.
From Verif.Lib Require Import RSum Calc LinAlg Py.
From Verif.Spec Require Import Calculus Harmonic System Continuation.
From Verif.Model Require Import VibSys Solver Continuation.
From Verif.Proofs Require Import HarmonicP VibSysP VibControlP VprnmP ContP ContLoopP ContRunP ContEndP.
Import ListNotations.
Open Scope R_scope.

(** residual R(X, lam) = X, one unknown *)
Definition id_fun (X : vec) (g : bool) : result (vec * option (mat * vec)) := Ok (fun _ => X O, if g then Some (mid, vzero) else None).
(** a solver that evaluates one candidate point, and reports success if the residual there is at most 1 *)
Definition try_solver (cand : nat -> vec) (k : nat) (f : vec -> bool -> result (vec * option mat)) (x0 : vec) : result (vec * bool * nat) :=
  match f (cand k) true with
  | Ok (Rr, _) => Ok (cand k, (Rleb (Rabs (Rr 0%nat)) 1 && Rleb (Rabs (Rr 1%nat)) 1)%bool, 1%nat)
  | Err e => Err e
  end.
Definition try_world (cand : nat -> vec) : world := mkWorld id_fun (fun _ _ b => Ok b) (try_solver cand).

Lemma try_sound cand : sound_solver 1 1 (try_world cand).
Proof.
  intros k f x0 Xc nf H. cbn in H. unfold try_solver in H. destruct (f (cand k) true) as [[Rr G]|e] eqn:E; [|discriminate].
  injection H as <- H _. exists Rr, G. split; [exact E|]. apply andb_prop in H. destruct H as [H1 H2]. apply Rleb_true in H1. apply Rleb_true in H2.
  intros i Hi. destruct i as [|[|i]]; [exact H1|exact H2|]. destruct (Nat.eqb k 0); lia.
Qed.

Definition case_conf (MaxSteps : nat) (dyn : bool) (verbose : Z) (cb : bool) : config := mkConf (1 / 2) 1 1 1 MaxSteps 20 dyn verbose Ortho [] None (6 / 5) cb.

(** one candidate 0 for the start, then 5, where the residual is 5 *)
Definition silent_world : world := try_world (fun k _ => match k with O => 0 | _ => 5 end).

Ltac rcase := match goal with
  | |- context [Rltb ?a ?b] => let E := fresh in (assert (E : Rltb a b = true) by (apply Rltb_true; lra)) || (assert (E : Rltb a b = false) by (apply Rltb_false; lra)); rewrite E
  | |- context [Rleb ?a ?b] => let E := fresh in (assert (E : Rleb a b = true) by (apply Rleb_true; lra)) || (assert (E : Rleb a b = false) by (apply Rleb_false; lra)); rewrite E
  end.

Lemma sign_10 : Rsign (1 - 0) = 1.
Proof. unfold Rsign. destruct (Rlt_dec 0 (1 - 0)); lra. Qed.

Lemma predict_ok W n k C s b dyn p pv dp Rr dX dl d : w_fun W p true = Ok (Rr, Some (dX, dl)) ->
  w_lin W k (predict_matrix n C dX dl dp) (fun i => if Nat.eqb i n then 1 else 0) = Ok d ->
  exists dirC, predict W n k C s b dyn p pv dp =
    Ok (dirC, if dyn then Num (1 / max_diag n (fun i => predict_matrix n C dX dl dp i i))
              else Num (match s with Num r => r | Vec v => rsum (n + 1) v / INR (n + 1) end)).
Proof. intros E1 E2. unfold predict. rewrite E1. cbn [bind]. rewrite E2. cbn [bind]. eexists. reflexivity. Qed.


Definition dyn_CtoP (conf : config) (C0 C p : vec) : vec := if c_DynamicCtoP conf then (fun i => Rmax (Rabs (p i)) (C0 i)) else C.

Lemma main_one fuel W n conf silent C0 direct lam0 lam1 p st b dirC s' Xc ok nf :
  c_FracLamList conf = [b] -> in_range conf direct lam0 lam1 (p n) = true ->
  let C := dyn_CtoP conf C0 (l_CtoP st) p in
  predict W n (l_k st) C (l_RPtoC st) b (c_DynamicCtoP conf) (l_cur st) (l_prev st) (l_dirC st) = Ok (dirC, s') ->
  w_nsolve W (S (l_k st)) (correct_res W n C (sc s' 0) b (c_corrector conf) (fun i => l_cur st i / C i) (l_ds st) dirC) (fun i => l_cur st i / C i + dirC i * l_ds st)
    = Ok (Xc, ok, nf) ->
  nf <> O -> (ok = true \/ l_ds st <= c_dsmin conf) ->
  exists st', main_loop 1 fuel W n conf silent C0 direct lam0 lam1 [p] st = Ok (if (ok || silent)%bool then [fun i => C i * Xc i; p] else [p], st') /\
    l_CtoP st' = C /\ l_RPtoC st' = s' /\ l_b st' = b.
Proof.
  intros Hfl Hin C Ep Ew Hnf Hok. cbn [main_loop]. cbv zeta. rewrite Hin, Hfl. fold (dyn_CtoP conf C0 (l_CtoP st) p). fold C. cbn [frac_loop l_k l_CtoP l_RPtoC l_cur l_prev l_dirC l_ds].
  rewrite Ep. cbn [bind]. rewrite Ew. cbn [bind fst snd].
  assert (Er : forall s1, l_success s1 = ok -> l_ds s1 = l_ds st -> retry fuel W n conf (sc s' 0) s1 = Ok s1).
  { intros s1 H1 H2. assert (E : (negb (l_success s1) && Rltb (c_dsmin conf) (l_ds s1))%bool = false).
    { rewrite H1, H2. destruct Hok as [->|H]; [reflexivity|]. apply andb_false_intro2. apply Rltb_false. exact H. }
    destruct fuel; cbn [retry]; rewrite E; reflexivity. }
  rewrite Er by reflexivity. cbn [bind l_success].
  replace (if ok then _ else Ok _) with (@Ok loop_state (mkSt C s' b (l_ds st) (l_prev st) (l_cur st) dirC (S (S (l_k st))) (Some Xc) ok nf (Attempt (l_ds st) b ok :: l_trace st))) by (destruct ok; reflexivity).
  cbn [bind l_success l_XlamC l_nfev]. destruct (negb ok && negb silent)%bool eqn:E.
  - destruct ok; [discriminate|]. destruct silent; [discriminate|]. eexists. split; [reflexivity|]. repeat split.
  - rewrite (proj2 (Nat.eqb_neq nf 0)) by exact Hnf. replace (ok || silent)%bool with true by (destruct ok, silent; try reflexivity; discriminate).
    eexists. split; [reflexivity|]. repeat split.
Qed.

Lemma run_one fuel W n self X lam0 lam1 Xc0 nf0 b dirC s' Xc ok nf :
  let conf := run_conf self in let silent := Z.ltb (c_verbose (k_conf self)) 0 in
  let p := with_entry n (fun i => Xc0 i * run_CtoP self i) lam0 in
  let pp := with_entry n (fun i => Xc0 i * run_CtoP self i) (lam0 - Rsign (lam1 - lam0)) in
  let C := dyn_CtoP conf (run_CtoP self) (run_CtoP self) p in
  c_FracLamList conf = [b] -> c_MaxSteps conf = 2%nat -> c_callback conf = false -> in_range conf (Rsign (lam1 - lam0)) lam0 lam1 (p n) = true ->
  w_nsolve W 0 (conditioning_wrapper (initial_fun W n lam0) (run_CtoP self) (Vec (run_RP self))) (fun i => X i / run_CtoP self i) = Ok (Xc0, true, nf0) ->
  predict W n 1 C (Vec (run_RP self)) b (c_DynamicCtoP conf) p pp (fun i => p i - pp i) = Ok (dirC, s') ->
  w_nsolve W 2 (correct_res W n C (sc s' 0) b (c_corrector conf) (fun i => p i / C i) (c_ds0 conf) dirC) (fun i => p i / C i + dirC i * c_ds0 conf)
    = Ok (Xc, ok, nf) ->
  nf <> O -> (ok = true \/ c_ds0 conf <= c_dsmin conf) ->
  exists tr, continuation fuel W n self X lam0 lam1 =
    Ok (if (ok || silent)%bool then [p; fun i => C i * Xc i] else [p], mkCont (k_setCtoP self) C (k_setRPtoC self) s' (set_FracLam conf b), tr).
Proof.
  intros conf silent p pp C Hfl HM Hcb Hin E0 Ep Ew Hnf Hok. unfold continuation. cbv zeta.
  fold (run_conf self) (run_CtoP self) (run_RP self). fold conf silent. rewrite E0. cbn [bind fst snd]. rewrite HM.
  fold p pp.
  match goal with |- context [main_loop 1 _ _ _ _ _ _ _ _ _ _ ?s] => destruct (main_one fuel W n conf silent (run_CtoP self) (Rsign (lam1 - lam0)) lam0 lam1 p s b dirC s' Xc ok nf Hfl Hin Ep Ew Hnf Hok) as (st' & H & A & B & D) end.
  match goal with |- exists tr, bind ?m _ = _ => match type of H with ?l = _ => change m with l end end. rewrite H.
  cbn [bind]. rewrite Hcb. cbn [bind]. eexists. rewrite A, B, D. destruct (ok || silent)%bool; reflexivity.
Qed.

Lemma in_range_01 conf p : c_backtrackStop conf = None -> p = 0 -> in_range conf (Rsign (1 - 0)) 0 1 p = true.
Proof. intros H ->. unfold in_range. rewrite H, sign_10. replace (1 * 0) with 0 by ring. replace (1 * 1) with 1 by ring. rewrite (proj2 (Rltb_true 0 1)) by lra. reflexivity. Qed.

Lemma init_one b : init_FracLamList b [] = [b]. Proof. reflexivity. Qed.

Lemma silent_run v : exists tr, 
  continuation 0 silent_world 1 (cont_new None None (case_conf 2 false v false)) vzero 0 1 =
  Ok (if Z.ltb v 0 then [with_entry 1 (fun i => 0 * 1) 0; fun i => 1 * 5] else [with_entry 1 (fun i => 0 * 1) 0],
      mkCont true (fun _ => 1) true (Num 1) (k_conf (cont_new None None (case_conf 2 false (if Z.ltb v 0 then 0 else v) false))), tr).
Proof.
  set (self := cont_new None None (case_conf 2 false v false)).
  assert (Ec : run_conf self = k_conf (cont_new None None (case_conf 2 false (if Z.ltb v 0 then 0 else v) false))).
  { unfold run_conf, self. cbn. destruct (Z.ltb v 0); reflexivity. }
  destruct (predict_ok silent_world 1 1 (fun _ => 1) (Vec (fun _ => 1)) (1 / 2) false (with_entry 1 (fun i => 0 * 1) 0) (with_entry 1 (fun i => 0 * 1) (0 - Rsign (1 - 0)))
     (fun i => with_entry 1 (fun i => 0 * 1) 0 i - with_entry 1 (fun i => 0 * 1) (0 - Rsign (1 - 0)) i) _ _ _ _ eq_refl eq_refl) as [dirC Ed].
  cbv iota in Ed. replace (rsum (1 + 1) (fun _ => 1) / INR (1 + 1)) with 1 in Ed by (cbn; field).
  destruct (run_one 0 silent_world 1 self vzero 0 1 (fun _ => 0) 1 (1 / 2) dirC (Num 1) (fun _ => 5) false 1) as (tr & E).
  - rewrite Ec. reflexivity.
  - rewrite Ec. reflexivity.
  - rewrite Ec. reflexivity.
  - rewrite Ec. apply in_range_01; reflexivity.
  - cbn -[Rleb]. unfold try_solver. cbn -[Rleb]. rewrite !(proj2 (Rleb_true _ _)); [reflexivity|rewrite Rabs_R0 || idtac; unfold with_entry; cbn; rewrite ?Rmult_0_l, ?Rmult_0_r, ?Rmult_1_r, ?Rmult_1_l, ?Rabs_R0; lra ..].
  - rewrite Ec. exact Ed.
  - cbn -[Rleb correct_res]. unfold try_solver. rewrite correct_unfold by (rewrite Ec; discriminate).
    cbn -[Rleb arc_eq]. rewrite (proj2 (Rleb_false _ _)); [reflexivity|]. replace (1 * (5 * _)) with 5; [rewrite Rabs_right; lra|]. unfold dyn_CtoP. rewrite Ec. cbn. ring.
  - discriminate.
  - right. rewrite Ec. cbn. lra.
  - exists tr. rewrite E. rewrite Ec. cbn [orb]. unfold dyn_CtoP. cbn [case_conf cont_new k_conf set_FracLamList c_DynamicCtoP c_verbose self run_CtoP k_setCtoP]. reflexivity.
Qed.

Lemma silent_unconverged : exists fuel W n self X lam0 lam1 pts self' tr tol, reachable self /\ scaling self 1 /\ c_DynamicCtoP (k_conf self) = false /\
  sound_solver n tol W /\ continuation fuel W n self X lam0 lam1 = Ok (pts, self', tr) /\ ~ Forall (residual_below W n 1 tol) pts.
Proof.
  destruct (silent_run (-1)) as [tr E]. cbv [Z.ltb Z.compare] in E.
  exists 0%nat, silent_world, 1%nat, (cont_new None None (case_conf 2 false (-1) false)), vzero, 0, 1. do 3 eexists. exists 1.
  split; [apply reach_new|]. split; [left; split; reflexivity|]. split; [reflexivity|]. split; [apply try_sound|]. split; [exact E|].
  intros H. inversion_clear H as [|? ? _ H2]. inversion_clear H2 as [|? ? H _]. destruct H as (Rr & G & EF & HB). cbn in EF. injection EF as <- _.
  specialize (HB 0%nat ltac:(lia)). rewrite Rabs_right in HB; lra.
Qed.

(** a silent run changes the next one *)
Lemma silent_changes : exists fuel W n self X lam0 lam1 pts self' tr, reachable self /\
  continuation fuel W n self X lam0 lam1 = Ok (pts, self', tr) /\ exists pts2 self2 tr2, continuation fuel W n self' X lam0 lam1 = Ok (pts2, self2, tr2) /\ length pts2 <> length pts.
Proof.
  destruct (silent_run (-1)) as [tr E]. destruct (silent_run 0) as [tr2 E2]. cbv [Z.ltb Z.compare] in E, E2.
  exists 0%nat, silent_world, 1%nat, (cont_new None None (case_conf 2 false (-1) false)), vzero, 0, 1. do 3 eexists. split; [apply reach_new|]. split; [exact E|].
  match type of E with _ = Ok (_, ?s, _) => set (s1 := s) in * end.
  assert (Q : outcome (continuation 0 silent_world 1 s1 vzero 0 1) = outcome (continuation 0 silent_world 1 (cont_new None None (case_conf 2 false 0 false)) vzero 0 1)).
  { apply equiv_run. repeat split. }
  rewrite E2 in Q. unfold outcome in Q. destruct (continuation 0 silent_world 1 s1 vzero 0 1) as [[[p2 s2] t2]|e]; [|discriminate]. injection Q as -> ->.
  do 3 eexists. split; [reflexivity|]. cbn. lia.
Qed.

(** a vector RPtoC is replaced by a number *)
Definition echo_world : world := mkWorld (fun _ g => Ok (fun _ => 1, if g then Some (mid, vzero) else None)) (fun _ _ b => Ok b)
  (fun k f x0 => match k with O => match f x0 false with Ok (Rr, _) => Ok (Rr, true, 1%nat) | Err e => Err e end | _ => Ok (vzero, true, 1%nat) end).

Lemma echo_run self : k_conf self = k_conf (cont_new None None (case_conf 2 false 0 false)) -> k_setCtoP self = true -> k_setRPtoC self = false ->
  exists p2 tr, continuation 0 echo_world 1 self vzero 0 1 =
    Ok ([with_entry 1 (fun i => sc (k_RPtoC self) i * 1 * 1) 0; p2], mkCont true (fun _ => 1) false (Num ((sc (k_RPtoC self) 0 + sc (k_RPtoC self) 1) / 2)) (k_conf self), tr).
Proof.
  intros Hc HC HR.
  assert (Ec : run_conf self = k_conf (cont_new None None (case_conf 2 false 0 false))) by (unfold run_conf; rewrite Hc; reflexivity).
  assert (EC : run_CtoP self = (fun _ => 1)) by (unfold run_CtoP; rewrite HC; reflexivity).
  assert (ER : run_RP self = sc (k_RPtoC self)) by (unfold run_RP; rewrite HR; reflexivity).
  set (p := with_entry 1 (fun i => sc (k_RPtoC self) i * 1 * 1) 0). set (pp := with_entry 1 (fun i => sc (k_RPtoC self) i * 1 * 1) (0 - Rsign (1 - 0))).
  destruct (predict_ok echo_world 1 1 (fun _ => 1) (Vec (sc (k_RPtoC self))) (1 / 2) false p pp (fun i => p i - pp i) _ _ _ _ eq_refl eq_refl) as [dirC Ed].
  cbv iota in Ed. replace (rsum (1 + 1) (sc (k_RPtoC self)) / INR (1 + 1)) with ((sc (k_RPtoC self) 0 + sc (k_RPtoC self) 1) / 2) in Ed by (cbn; field).
  destruct (run_one 0 echo_world 1 self vzero 0 1 (fun i => sc (k_RPtoC self) i * 1) 1 (1 / 2) dirC (Num ((sc (k_RPtoC self) 0 + sc (k_RPtoC self) 1) / 2)) vzero true 1) as (tr & E).
  - rewrite Ec. reflexivity.
  - rewrite Ec. reflexivity.
  - rewrite Ec. reflexivity.
  - rewrite Ec. apply in_range_01; reflexivity.
  - rewrite ER, EC. reflexivity.
  - rewrite Ec, ER, EC. exact Ed.
  - reflexivity.
  - discriminate.
  - left. reflexivity.
  - rewrite Ec, EC in E. cbn [orb] in E. eexists _, tr. rewrite E, HC, HR, Hc. reflexivity.
Qed.

Lemma vector_RPtoC_changes : exists fuel W n self X lam0 lam1 pts self' tr, reachable self /\ (0 <= c_verbose (k_conf self))%Z /\
  continuation fuel W n self X lam0 lam1 = Ok (pts, self', tr) /\ exists pts2 self2 tr2, continuation fuel W n self' X lam0 lam1 = Ok (pts2, self2, tr2) /\
  nth 0 pts vzero 0%nat <> nth 0 pts2 vzero 0%nat.
Proof.
  set (self := cont_new None (Some (Vec (fun i => match i with O => 1 | _ => 3 end))) (case_conf 2 false 0 false)).
  destruct (echo_run self eq_refl eq_refl eq_refl) as (p2 & tr & E).
  match type of E with _ = Ok (_, ?s, _) => destruct (echo_run s eq_refl eq_refl eq_refl) as (p3 & tr2 & E2) end.
  exists 0%nat, echo_world, 1%nat, self, vzero, 0, 1. do 3 eexists. split; [apply reach_new|]. split; [cbn; lia|]. split; [exact E|]. do 3 eexists. split; [exact E2|].
  cbn. lra.
Qed.

(** DynamicCtoP with a CtoP of the user: the enlarged vector stays *)
Definition five_world : world := mkWorld (fun _ g => Ok (fun _ => 1, if g then Some (mid, vzero) else None)) (fun _ _ b => Ok b) (fun _ _ _ => Ok (fun _ => 5, true, 1%nat)).

Lemma five_run self : k_conf self = k_conf (cont_new None None (case_conf 2 true 0 false)) -> k_setCtoP self = false -> k_setRPtoC self = true ->
  exists p2 RP tr, continuation 0 five_world 1 self vzero 0 1 =
    Ok ([with_entry 1 (fun i => 5 * k_CtoP self i) 0; p2], mkCont false (fun i => Rmax (Rabs (with_entry 1 (fun i => 5 * k_CtoP self i) 0 i)) (k_CtoP self i)) true RP (k_conf self), tr).
Proof.
  intros Hc HC HR.
  assert (Ec : run_conf self = k_conf (cont_new None None (case_conf 2 true 0 false))) by (unfold run_conf; rewrite Hc; reflexivity).
  assert (EC : run_CtoP self = k_CtoP self) by (unfold run_CtoP; rewrite HC; reflexivity).
  assert (ER : run_RP self = (fun _ => 1)) by (unfold run_RP; rewrite HR; reflexivity).
  set (p := with_entry 1 (fun i => 5 * k_CtoP self i) 0). set (pp := with_entry 1 (fun i => 5 * k_CtoP self i) (0 - Rsign (1 - 0))).
  set (C := fun i => Rmax (Rabs (p i)) (k_CtoP self i)).
  destruct (predict_ok five_world 1 1 C (Vec (fun _ => 1)) (1 / 2) true p pp (fun i => p i - pp i) _ _ _ _ eq_refl eq_refl) as [dirC Ed]. cbv iota in Ed.
  match type of Ed with _ = Ok (_, ?r) => set (RP := r) in Ed end.
  destruct (run_one 0 five_world 1 self vzero 0 1 (fun i => 5) 1 (1 / 2) dirC RP (fun _ => 5) true 1) as (tr & E).
  - rewrite Ec. reflexivity.
  - rewrite Ec. reflexivity.
  - rewrite Ec. reflexivity.
  - rewrite Ec. apply in_range_01; reflexivity.
  - reflexivity.
  - rewrite Ec, ER, EC. exact Ed.
  - reflexivity.
  - discriminate.
  - left. reflexivity.
  - rewrite Ec, EC in E. cbn [orb] in E. eexists _, RP, tr. rewrite E, HC, HR, Hc. reflexivity.
Qed.

Lemma dynamic_CtoP_changes : exists fuel W n self X lam0 lam1 pts self' tr, reachable self /\ (0 <= c_verbose (k_conf self))%Z /\
  continuation fuel W n self X lam0 lam1 = Ok (pts, self', tr) /\ exists pts2 self2 tr2, continuation fuel W n self' X lam0 lam1 = Ok (pts2, self2, tr2) /\
  nth 0 pts vzero 0%nat <> nth 0 pts2 vzero 0%nat.
Proof.
  set (self := cont_new (Some (fun _ => 1)) None (case_conf 2 true 0 false)).
  destruct (five_run self eq_refl eq_refl eq_refl) as (p2 & RP & tr & E).
  match type of E with _ = Ok (_, ?s, _) => destruct (five_run s eq_refl eq_refl eq_refl) as (p3 & RP2 & tr2 & E2) end.
  exists 0%nat, five_world, 1%nat, self, vzero, 0, 1. do 3 eexists. split; [apply reach_new|]. split; [cbn; lia|]. split; [exact E|]. do 3 eexists. split; [exact E2|].
  cbn. rewrite Rabs_R1, Rmult_1_r. rewrite (Rabs_right 5) by lra. rewrite Rmax_left by lra. lra.
Qed.

(** the list FracLamList of the user is changed by the constructor, and building a second object from the same configuration
    with another FracLam changes it again *)
Lemma list_changed : exists FracLam l, l <> [] /\ c_FracLamList (k_conf (cont_new None None (mkConf FracLam 1 1 1 2 20 false 0 Ortho l None (6 / 5) false))) <> l.
Proof.
  exists (1 / 2), [1]. split; [discriminate|]. cbn. destruct (Req_EM_T 1 (1 / 2)) as [E|_]; [lra|]. discriminate.
Qed.

(** a run along the line X = lam from lam = 1 to lam = 2 *)
Definition pair2 (x y : R) : vec := fun i => match i with O => x | _ => y end.
Definition cramer (k : nat) (A : mat) (r : vec) : result vec :=
  let D := A 0%nat 0%nat * A 1%nat 1%nat - A 0%nat 1%nat * A 1%nat 0%nat in
  if Req_EM_T D 0 then Err (UserError 0)
  else Ok (pair2 ((r 0%nat * A 1%nat 1%nat - A 0%nat 1%nat * r 1%nat) / D) ((A 0%nat 0%nat * r 1%nat - r 0%nat * A 1%nat 0%nat) / D)).
Definition line_world : world :=
  mkWorld (fun X g => Ok (fun _ => X 0%nat - X 1%nat, if g then Some (fun _ _ => 1, fun _ => -1) else None)) cramer (fun k f x0 => try_solver (fun _ => x0) k f x0).

Lemma line_sound : sound_solver 1 1 line_world.
Proof. intros k f x0 Xc nf H. apply (try_sound (fun _ => x0) k f x0 Xc nf H). Qed.
Lemma line_linear : sound_linear_solver 1 line_world.
Proof.
  intros k A r d H i Hi. cbn in H. unfold cramer in H. destruct (Req_EM_T _ 0) as [E|E]; [discriminate|]. injection H as <-.
  destruct i as [|[|i]]; [| |lia]; cbn; field; exact E.
Qed.
Lemma line_returns : world_returns line_world.
Proof.
  split; [discriminate|]. split.
  - intros k A r. cbn. unfold cramer. destruct (Req_EM_T _ 0); discriminate.
  - intros k f x0 Hf. cbn. unfold try_solver. destruct (f x0 true) as [[Rr G]|e] eqn:E; [discriminate|]. intros Q. injection Q as ->. apply (Hf _ _ E).
Qed.

Definition line_cont : cont := cont_new None None (case_conf 2 false 0 true).

Definition line_p (x : R) : vec := with_entry 1 (fun _ => 1 * 1) x.
Lemma line_predict : exists dirC, predict line_world 1 1 (fun _ => 1) (Vec (fun _ => 1)) (1 / 2) false (line_p 1) (line_p (1 - 1)) (fun i => line_p 1 i - line_p (1 - 1) i) = Ok (dirC, Num 1) /\
  dirC 0%nat = 1 /\ dirC 1%nat = 1.
Proof.
  unfold predict. cbn [w_fun line_world bind w_lin]. cbv zeta. unfold cramer.
  assert (D : predict_matrix 1 (fun _ => 1) (fun _ _ => 1) (fun _ => -1) (fun i => line_p 1 i - line_p (1 - 1) i) 0%nat 0%nat *
    predict_matrix 1 (fun _ => 1) (fun _ _ => 1) (fun _ => -1) (fun i => line_p 1 i - line_p (1 - 1) i) 1%nat 1%nat -
    predict_matrix 1 (fun _ => 1) (fun _ _ => 1) (fun _ => -1) (fun i => line_p 1 i - line_p (1 - 1) i) 0%nat 1%nat *
    predict_matrix 1 (fun _ => 1) (fun _ _ => 1) (fun _ => -1) (fun i => line_p 1 i - line_p (1 - 1) i) 1%nat 0%nat = 1) by (unfold predict_matrix, line_p, with_entry; cbn; ring).
  rewrite D. destruct (Req_EM_T 1 0) as [E|_]; [lra|]. cbn [bind].
  assert (Sq : forall x y : R, x = 1 -> y = 1 -> sqrt ((1 - 1 / 2) / norm2 1 (fun i => line_p 1 i / 1) ^ 2 * norm2 1 (pair2 x y) ^ 2 + 1 / 2 * pair2 x y 1%nat ^ 2) = 1).
  { intros x y -> ->. rewrite !norm2_pow. cbn [rsum]. unfold line_p, with_entry. cbn. replace (_ + _) with 1 by field. apply sqrt_1. }
  match goal with |- context [norm2 1 (pair2 ?x ?y)] => set (x0 := x); set (y0 := y) end.
  assert (X : x0 = 1) by (unfold x0, predict_matrix, line_p, with_entry; cbn; field).
  assert (Y : y0 = 1) by (unfold y0, predict_matrix, line_p, with_entry; cbn; field).
  rewrite (Sq x0 y0 X Y). rewrite X, Y.
  match goal with |- context [Rsign ?a] => set (sa := a) end.
  assert (S : sa = 1 / 2).
  { unfold sa. rewrite norm2_pow. unfold dot, line_p, with_entry. cbn. field. }
  rewrite S. replace (Rsign (1 / 2)) with 1 by (unfold Rsign; destruct (Rlt_dec 0 (1 / 2)); lra). destruct (Req_EM_T 1 0) as [E|_]; [lra|].
  replace (rsum (1 + 1) (fun _ => 1) / INR (1 + 1)) with 1 by (cbn; field).
  eexists. split; [reflexivity|]. split; cbn; field.
Qed.

(** the run: two points, (1, 1) and (2, 2); with and without callback *)
Lemma line_run : exists p1 p2 self' tr,
  continuation 0 line_world 1 (cont_new None None (case_conf 2 false 0 false)) (fun _ => 1) 1 2 = Ok ([p1; p2], self', tr) /\
  p1 0%nat = 1 /\ p1 1%nat = 1 /\ p2 0%nat = 2 /\ p2 1%nat = 2.
Proof.
  set (self := cont_new None None (case_conf 2 false 0 false)).
  assert (Ec : run_conf self = k_conf self) by reflexivity.
  assert (S1 : Rsign (2 - 1) = 1) by (unfold Rsign; destruct (Rlt_dec 0 (2 - 1)); lra).
  destruct line_predict as (dirC & Ed & D0 & D1).
  destruct (run_one 0 line_world 1 self (fun _ => 1) 1 2 (fun _ => 1 / 1) 1 (1 / 2) dirC (Num 1) (fun i => line_p 1 i / 1 + dirC i * 1) true 1) as (tr & E).
  - reflexivity.
  - reflexivity.
  - reflexivity.
  - rewrite Ec, S1. unfold in_range. cbn. rewrite (proj2 (Rltb_true _ _)) by lra. reflexivity.
  - cbn -[Rleb]. unfold try_solver. cbn -[Rleb]. replace (1 * _) with 0 by (unfold with_entry; cbn; field). rewrite Rabs_R0. rewrite (proj2 (Rleb_true 0 1)) by lra. reflexivity.
  - rewrite Ec, S1. replace (fun i => 1 / 1 * run_CtoP self i) with (fun _ : nat => 1 * 1) by (apply functional_extensionality; intros; cbn; field). exact Ed.
  - cbn -[Rleb correct_res]. unfold try_solver. rewrite correct_unfold by discriminate. cbn -[Rleb arc_eq line_p].
    rewrite D0, D1. replace (1 * _) with 0 by field. rewrite Rabs_R0. rewrite (proj2 (Rleb_true 0 1)) by lra.
    assert (Z : fst (arc_eq Ortho 1 (fun i => with_entry 1 (fun _ : nat => 1 / 1 * 1) 1 i / 1 + dirC i * 1) (fun i => with_entry 1 (fun _ : nat => 1 / 1 * 1) 1 i / 1) dirC 1 (1 / 2)) = 0).
    { unfold arc_eq, orthogonal_arc_res, dot. cbn [fst]. cbn [rsum]. unfold Rdiv. ring_simplify. reflexivity. }
    rewrite Z, Rabs_R0. rewrite (proj2 (Rleb_true 0 1)) by lra. cbn [andb].
    replace (fun i : nat => line_p 1 i / 1 + dirC i * 1) with (fun i => with_entry 1 (fun _ : nat => 1 / 1 * 1) 1 i / 1 + dirC i * 1); [reflexivity|].
    apply functional_extensionality. intros i. unfold line_p, with_entry. destruct (Nat.ltb i 1); field.
  - discriminate.
  - left. reflexivity.
  - eexists _, _, _, tr. split; [exact E|]. unfold dyn_CtoP, line_p, with_entry. cbn. rewrite D0, D1. repeat split; field.
Qed.

(** a run with callback *)
Lemma five_callback_run : exists p1 p2 self' tr,
  continuation 0 five_world 1 (cont_new None None (case_conf 2 false 0 true)) vzero 0 1 = Ok ([p1; p2], self', tr).
Proof.
  set (self := cont_new None None (case_conf 2 false 0 true)).
  set (p := with_entry 1 (fun i => 5 * 1) 0). set (pp := with_entry 1 (fun i => 5 * 1) (0 - Rsign (1 - 0))).
  destruct (predict_ok five_world 1 1 (fun _ => 1) (Vec (fun _ => 1)) (1 / 2) false p pp (fun i => p i - pp i) _ _ _ _ eq_refl eq_refl) as [dirC Ed]. cbv iota in Ed.
  match type of Ed with _ = Ok (_, ?r) => set (RP := r) in Ed end.
  unfold continuation. cbv zeta. fold (run_conf self) (run_CtoP self) (run_RP self). change (run_conf self) with (k_conf self).
  cbn [w_nsolve five_world bind fst snd]. change (c_MaxSteps (k_conf self)) with 2%nat. cbv iota.
  match goal with |- context [main_loop 1 _ _ _ _ ?si ?C0 ?d ?l0 ?l1 [?p1] ?s] => destruct (main_one 0 five_world 1 (k_conf self) si C0 d l0 l1 p1 s (1 / 2) dirC RP (fun _ => 5) true 1) as (st' & H & A & B & D) end.
  - reflexivity.
  - apply in_range_01; reflexivity.
  - exact Ed.
  - reflexivity.
  - discriminate.
  - left. reflexivity.
  - match goal with |- exists p1 p2 s2 tr, bind ?m _ = _ => match type of H with ?l = _ => change m with l end end. rewrite H. cbn [bind orb]. change (c_callback (k_conf self)) with true. cbv iota.
    destruct (l_success st'); [|cbn [bind]; do 4 eexists; reflexivity].
    match goal with |- context [predict ?a ?b ?c ?d ?e ?f ?g ?h ?i ?j] => destruct (predict_ok a b c d e f g h i j _ _ _ _ eq_refl eq_refl) as [d2 E2]; rewrite E2 end.
    cbn [bind]. do 4 eexists. reflexivity.
Qed.

Lemma line_exact X : exact_residual 1 1 (fun X => w_fun line_world X true) X.
Proof.
  exists (fun X _ => X 0%nat - X 1%nat), (fun _ _ => 1), (fun _ => -1). split; [intros X'; eexists; reflexivity|]. split; [reflexivity|].
  intros g v t0 Hg Hv i Hi. eapply dlim_eq; [apply dlim_minus; apply Hv; lia|]. unfold hcat. cbn. ring.
Qed.

Lemma corrector_value_n W n CtoP RP b corr X0 ds d X g Rr G : corr <> OtherCorrector ->
  w_fun W (fun i => X i * CtoP i) g = Ok (Rr, G) -> (g = true -> G <> None) ->
  exists Raug J, correct_res W n CtoP RP b corr X0 ds d X g = Ok (Raug, J) /\
    (forall i, (i < n)%nat -> Raug i = RP * Rr i) /\
    Raug n = (match corr with Ortho => fst (orthogonal_arc_res n X X0 d ds b ((1 - b) / norm2 n X0 ^ 2))
                            | _ => fst (pseudo_arc_res n X X0 ds b ((1 - b) / norm2 n X0 ^ 2)) end).
Proof.
  intros Hc HF HG. destruct (correct_value W n CtoP RP b corr X0 ds d X g Rr G Hc HF HG) as (Ra & J & A & B & C).
  exists Ra, J. split; [exact A|]. split; [exact B|]. rewrite C by lia. destruct corr; reflexivity.
Qed.
