From Coq Require Import Reals List Arith Bool ZArith Lia Lra Psatz FunctionalExtensionality.
From Verif.Lib Require Import RSum Calc LinAlg Py.
From Verif.Spec Require Import Calculus Harmonic System Continuation.
From Verif.Model Require Import VibSys Solver Continuation.
From Verif.Proofs Require Import HarmonicP VibSysP VibControlP VprnmP ContP.
Import ListNotations.
Open Scope R_scope.

Lemma bind_ok {A B} (r : result A) (k : A -> result B) x : bind r k = Ok x -> exists a, r = Ok a /\ k a = Ok x.
Proof. destruct r; [intros H; exists a; split; [reflexivity|exact H]|discriminate]. Qed.

Section Run.
Variables (W : world) (n : nat) (conf : config) (Q : scale -> Prop).
Hypothesis HQ : forall k C s b p pv dp d s', Q s -> predict W n k C s b (c_DynamicCtoP conf) p pv dp = Ok (d, s') -> Q s'.

(** the last call of the solver is the one recorded in the state *)
Definition solved (RP : R) (st : loop_state) : Prop := exists k x0 Xc,
  l_XlamC st = Some Xc /\ (0 < k)%nat /\
  w_nsolve W k (correct_res W n (l_CtoP st) RP (l_b st) (c_corrector conf) (fun i => l_cur st i / l_CtoP st i) (l_ds st) (l_dirC st)) x0
    = Ok (Xc, l_success st, l_nfev st).

Definition predicted (RP : R) (st : loop_state) : Prop := exists k s pv dp,
  predict W n k (l_CtoP st) s (l_b st) (c_DynamicCtoP conf) (l_cur st) pv dp = Ok (l_dirC st, l_RPtoC st) /\ RP = sc (l_RPtoC st) 0 /\ Q (l_RPtoC st).

(** reversed traces (latest event first) *)
Definition open (e : event) : Prop := match e with Attempt ds b false => c_dsmin conf < ds | _ => False end.
Definition closes (e e' : event) : Prop :=   (* e' is the next event after e *)
  match e with Attempt ds b false => c_dsmin conf < ds -> exists ok, e' = Attempt (Rmax (ds / 2) (c_dsmin conf)) b ok | _ => True end.
Definition hd_closes (t : list event) (e' : event) : Prop := match t with [] => True | e :: _ => closes e e' end.
Definition closed (t : list event) : Prop := match t with [] => True | e :: _ => ~ open e end.
Definition rhalving (t : list event) : Prop :=
  forall after ds b before, t = after ++ Attempt ds b false :: before -> after <> [] -> c_dsmin conf < ds ->
    exists ok after', after = after' ++ [Attempt (Rmax (ds / 2) (c_dsmin conf)) b ok].
Definition in_bounds (e : event) : Prop := match e with Attempt ds _ _ => c_dsmin conf <= ds <= c_dsmax conf | _ => True end.

Lemma rhalving_push t e : rhalving t -> hd_closes t e -> rhalving (e :: t).
Proof.
  intros H C after ds b before E Ne L. destruct after as [|e1 after]; [contradiction|]. injection E as <- E.
  destruct after as [|e2 after].
  - cbn in E. subst t. destruct (C L) as [ok ->]. exists ok, []. reflexivity.
  - destruct (H _ _ _ _ E ltac:(discriminate) L) as (ok & a' & E'). rewrite E'. exists ok, (e :: a'). reflexivity.
Qed.

Lemma closed_closes t e : closed t -> hd_closes t e.
Proof. destruct t as [|[ds b [|]| | |] t]; cbn; try tauto. Qed.

Lemma rhalving_rev t : rhalving t -> closed t -> halving (c_dsmin conf) (rev t).
Proof.
  intros H C before ds b after E L. apply (f_equal (@rev event)) in E. rewrite rev_involutive, rev_app_distr in E. cbn in E. rewrite <- app_assoc in E. cbn in E.
  destruct (rev after) as [|e r] eqn:Er.
  - cbn in E. subst t. exfalso. apply C. exact L.
  - destruct (H _ _ _ _ E ltac:(discriminate) L) as (ok & a' & E'). rewrite E' in Er.
    apply (f_equal (@rev event)) in Er. rewrite rev_involutive, rev_app_distr in Er. exists ok, (rev a'). exact Er.
Qed.

(** everything needed about the state inside the FracLam loop *)
Record inner (st : loop_state) : Prop := {
  in_solved : solved (sc (l_RPtoC st) 0) st;
  in_pred : predicted (sc (l_RPtoC st) 0) st;
  in_head : exists t, l_trace st = Attempt (l_ds st) (l_b st) (l_success st) :: t;
  in_halve : rhalving (l_trace st);
  in_k : (0 < l_k st)%nat }.

Definition same_base (st st' : loop_state) : Prop :=
  l_CtoP st' = l_CtoP st /\ l_prev st' = l_prev st /\ l_cur st' = l_cur st /\ callbacks (l_trace st') = callbacks (l_trace st).

Lemma retry_inner : forall fuel st st', retry fuel W n conf (sc (l_RPtoC st) 0) st = Ok st' -> inner st ->
  inner st' /\ same_base st st' /\ l_RPtoC st' = l_RPtoC st /\ l_b st' = l_b st /\ (l_success st' = false -> l_ds st' <= c_dsmin conf).
Proof.
  induction fuel as [|fuel IH]; intros st st' H HI; cbn [retry] in H.
  - destruct (negb (l_success st) && Rltb (c_dsmin conf) (l_ds st))%bool eqn:Ec; [discriminate|]. injection H as <-.
    split; [exact HI|]. split; [repeat split|]. repeat split. intros Hs. rewrite Hs in Ec. cbn in Ec. apply Rltb_false in Ec. exact Ec.
  - destruct (negb (l_success st) && Rltb (c_dsmin conf) (l_ds st))%bool eqn:Ec.
    + apply bind_ok in H. destruct H as ([Xs nf] & E1 & H). destruct Xs as [Xc ok]. cbn [fst snd] in H.
      apply andb_prop in Ec. destruct Ec as [Es Ed]. apply negb_true_iff in Es. apply Rltb_true in Ed.
      match type of H with retry _ _ _ _ _ ?s = _ => set (s1 := s) in H end.
      assert (H1 : inner s1).
      { destruct HI as [S P (t & Hh) Hv K]. constructor.
        - exists (l_k st), (fun i => l_cur st i / l_CtoP st i + l_dirC st i * Rmax (l_ds st / 2) (c_dsmin conf)), Xc. split; [reflexivity|]. split; [exact K|exact E1].
        - exact P.
        - eexists. reflexivity.
        - cbn. apply rhalving_push; [exact Hv|]. rewrite Hh, Es. cbn. intros _. eexists. reflexivity.
        - cbn. lia. }
      destruct (IH s1 st' H H1) as (A & (B1 & B2 & B3 & B4) & C & D & F).
      split; [exact A|]. split; [repeat split; assumption|]. repeat split; assumption.
    + injection H as <-. split; [exact HI|]. split; [repeat split|]. repeat split. intros Hs. rewrite Hs in Ec. cbn in Ec. apply Rltb_false in Ec. exact Ec.
Qed.

Lemma inner_Q st : inner st -> Q (l_RPtoC st).
Proof. intros [_ (k & s & pv & dp & _ & _ & H) _ _ _]. exact H. Qed.

Lemma inner_closed st : inner st -> (l_success st = false -> l_ds st <= c_dsmin conf) -> closed (l_trace st).
Proof.
  intros [_ _ (t & Hh) _ _] H. rewrite Hh. cbn. destruct (l_success st); [tauto|]. specialize (H eq_refl). lra.
Qed.

Lemma frac_inner fuel : forall fl st st', frac_loop fuel W n conf fl st = Ok st' -> fl <> [] ->
  rhalving (l_trace st) -> closed (l_trace st) -> Q (l_RPtoC st) ->
  inner st' /\ same_base st st' /\ closed (l_trace st') /\ In (l_b st') fl.
Proof.
  induction fl as [|b fl IH]; intros st st' H Ne Hv Hc Hq; [contradiction|]. cbn [frac_loop] in H.
  apply bind_ok in H. destruct H as ([dirC RPc] & E1 & H). apply bind_ok in H. destruct H as ([Xs nf] & E2 & H).
  destruct Xs as [Xc ok]. cbn [fst snd] in H. apply bind_ok in H. destruct H as (s2 & E3 & H).
  match type of E3 with retry _ _ _ _ _ ?s = _ => set (s1 := s) in E3 end.
  assert (H1 : inner s1).
  { constructor.
    - exists (S (l_k st)), (fun i => l_cur st i / l_CtoP st i + dirC i * l_ds st), Xc. split; [reflexivity|]. split; [lia|exact E2].
    - exists (l_k st), (l_RPtoC st), (l_prev st), (l_dirC st). split; [exact E1|]. split; [reflexivity|]. eapply HQ; [exact Hq|exact E1].
    - eexists. reflexivity.
    - cbn. apply rhalving_push; [exact Hv|apply closed_closes; exact Hc].
    - cbn. lia. }
  destruct (retry_inner fuel s1 s2 E3 H1) as (A & (B1 & B2 & B3 & B4) & C & D & F).
  destruct (l_success s2) eqn:Es.
  - injection H as <-. split; [exact A|]. split; [repeat split; assumption|]. split; [apply inner_closed; [exact A|intros; congruence]|]. left. rewrite D. reflexivity.
  - destruct fl as [|b' fl'].
    + cbn in H. injection H as <-. split; [exact A|]. split; [repeat split; assumption|]. split; [apply inner_closed; [exact A|intros; apply F; reflexivity]|]. left. rewrite D. reflexivity.
    + destruct (IH s2 st' H ltac:(discriminate) (in_halve _ A) (inner_closed _ A (fun _ => F eq_refl)) (inner_Q _ A)) as (A' & (C1 & C2 & C3 & C4) & D' & I').
      split; [exact A'|]. split; [|split; [exact D'|right; exact I']]. repeat split; etransitivity; try eassumption.
Qed.

(** bounds of the step size *)
Lemma retry_bounds : forall fuel RP st st', retry fuel W n conf RP st = Ok st' ->
  0 <= c_dsmin conf -> c_dsmin conf <= l_ds st <= c_dsmax conf -> Forall in_bounds (l_trace st) ->
  c_dsmin conf <= l_ds st' <= c_dsmax conf /\ Forall in_bounds (l_trace st').
Proof.
  induction fuel as [|fuel IH]; intros RP st st' H H0 Hd Hb; cbn [retry] in H.
  - destruct (negb (l_success st) && Rltb (c_dsmin conf) (l_ds st))%bool eqn:Ec; [discriminate|]. injection H as <-. tauto.
  - destruct (negb (l_success st) && Rltb (c_dsmin conf) (l_ds st))%bool eqn:Ec; [|injection H as <-; tauto].
    apply bind_ok in H. destruct H as ([Xs nf] & E1 & H). destruct Xs as [Xc ok]. cbn [fst snd] in H.
    assert (B : c_dsmin conf <= Rmax (l_ds st / 2) (c_dsmin conf) <= c_dsmax conf).
    { split; [apply Rmax_r|]. apply Rmax_lub; lra. }
    eapply IH in H; [exact H|exact H0|exact B|]. cbn. constructor; [exact B|exact Hb].
Qed.

Lemma frac_bounds fuel : forall fl st st', frac_loop fuel W n conf fl st = Ok st' ->
  0 <= c_dsmin conf -> c_dsmin conf <= l_ds st <= c_dsmax conf -> Forall in_bounds (l_trace st) ->
  c_dsmin conf <= l_ds st' <= c_dsmax conf /\ Forall in_bounds (l_trace st').
Proof.
  induction fl as [|b fl IH]; intros st st' H H0 Hd Hb; cbn [frac_loop] in H; [injection H as <-; tauto|].
  apply bind_ok in H. destruct H as ([dirC RPc] & E1 & H). apply bind_ok in H. destruct H as ([Xs nf] & E2 & H).
  destruct Xs as [Xc ok]. cbn [fst snd] in H. apply bind_ok in H. destruct H as (s2 & E3 & H).
  apply retry_bounds in E3; [|exact H0|exact Hd|cbn; constructor; [exact Hd|exact Hb]].
  destruct (l_success s2); [injection H as <-; exact E3|]. destruct E3 as [E3 E4]. apply (IH s2 st' H H0 E3 E4).
Qed.

Lemma next_ds_bounds ds nf : c_dsmin conf <= c_dsmax conf -> c_dsmin conf <= next_ds conf ds nf <= c_dsmax conf.
Proof. intros H. unfold next_ds. split; [apply Rmin_glb; [apply Rmax_r|exact H]|apply Rmin_r]. Qed.

(** the main loop *)
Variables (silent : bool) (CtoP0 : vec) (direct lam0 lam1 : R) (p0 : vec).

(** p' was found by a successful call of the corrector started from p; dirP is the direction used *)
Definition step_found (p p' dirP : vec) : Prop := exists st Xc,
  solved (sc (l_RPtoC st) 0) st /\ predicted (sc (l_RPtoC st) 0) st /\
  l_cur st = p /\ l_XlamC st = Some Xc /\ p' = (fun i => l_CtoP st i * Xc i) /\ dirP = (fun i => l_dirC st i * l_CtoP st i) /\
  (silent = false -> l_success st = true) /\
  (c_DynamicCtoP conf = true -> l_CtoP st = (fun i => Rmax (Rabs (p i)) (CtoP0 i))).

(** reversed list of points with directions; callbacks seen *)
Fixpoint path (pts dirs : list vec) : Prop :=
  match pts, dirs with
  | [p], [] => p = p0
  | p' :: pts', d :: dirs' => match pts' with p :: _ => step_found p p' d | [] => False end /\ path pts' dirs'
  | _, _ => False
  end.
Fixpoint seen (pts dirs : list vec) : list event :=
  match pts, dirs with
  | p' :: pts', d :: dirs' => CbPoint p' d :: seen pts' dirs'
  | p :: _, [] => [CbInit p]
  | _, _ => []
  end.

Record outer (pts dirs : list vec) (st : loop_state) : Prop := {
  o_path : path pts dirs;
  o_cur : exists pts', pts = l_cur st :: pts';
  o_halve : rhalving (l_trace st);
  o_closed : closed (l_trace st);
  o_cb : callbacks (l_trace st) = (if c_callback conf then seen pts dirs else []);
  o_range : match pts with _ :: pts' => Forall (fun p => in_range conf direct lam0 lam1 (p n) = true) pts' | [] => True end;
  o_Q : Q (l_RPtoC st);
  o_succ : silent = false -> l_success st = true }.

Lemma main_outer fuel : c_FracLamList conf <> [] -> forall todo pts dirs st pts' st',
  main_loop todo fuel W n conf silent CtoP0 direct lam0 lam1 pts st = Ok (pts', st') ->
  outer pts dirs st ->
  exists dirs' pts1, path pts' dirs' /\ pts' = pts1 ++ pts /\ (length pts1 <= todo)%nat /\
    rhalving (l_trace st') /\ closed (l_trace st') /\
    callbacks (l_trace st') = (if c_callback conf then seen pts' dirs' else []) /\
    (match pts' with _ :: r => Forall (fun p => in_range conf direct lam0 lam1 (p n) = true) r | [] => True end) /\
    (exists r, pts' = l_cur st' :: r) /\
    (silent = false -> l_success st' = true \/ predicted (sc (l_RPtoC st') 0) st').
Proof.
  intros Hfl. induction todo as [|todo IH]; intros pts dirs st pts' st' H HO; cbn [main_loop] in H.
  - injection H as <- <-. destruct HO as [? ? ? ? ? ? ? Ho]. exists dirs, []. repeat split; try assumption; [reflexivity|left; apply Ho; assumption].
  - destruct HO as [Hp (r & Hr) Hv Hc Hcb Hra Hq Ho]. subst pts. cbv zeta in H.
    destruct (in_range conf direct lam0 lam1 (l_cur st n)) eqn:Ein.
    2:{ injection H as <- <-. exists dirs, []. split; [exact Hp|]. split; [reflexivity|]. split; [cbn; lia|]. split; [exact Hv|]. split; [exact Hc|]. split; [exact Hcb|]. split; [exact Hra|]. split; [exists r; reflexivity|]. intros Hs; left; apply Ho; exact Hs. }
    apply bind_ok in H. destruct H as (s1 & E1 & H).
    match type of E1 with frac_loop _ _ _ _ _ ?s = _ => set (s0 := s) in E1 end.
    destruct (frac_inner fuel _ s0 s1 E1 Hfl Hv Hc Hq) as (A & (B1 & B2 & B3 & B4) & C & _).
    destruct (negb (l_success s1) && negb silent)%bool eqn:Estop.
    { injection H as <- <-. exists dirs, []. destruct A as [_ A2' _ A _].
      split; [exact Hp|]. split; [reflexivity|]. split; [cbn; lia|]. split; [exact A|]. split; [exact C|]. split; [rewrite B4; exact Hcb|]. split; [exact Hra|].
      split; [exists r; rewrite B3; reflexivity|]. intros _. right. exact A2'. }
    destruct A as [A1 A2 A3 A4 A5].
    destruct (l_XlamC s1) as [Xc|] eqn:EX; [|discriminate].
    destruct (Nat.eqb (l_nfev s1) 0) eqn:Enf; [discriminate|].
    match type of H with main_loop _ _ _ _ _ _ _ _ _ _ (?nw :: _) ?s = _ => set (nw' := nw) in H; set (s2 := s) in H end.
    set (dp := fun i => l_dirC s1 i * l_CtoP s1 i).
    assert (HO2 : outer (nw' :: l_cur st :: r) (dp :: dirs) s2).
    { constructor.
      - cbn [path]. split; [|exact Hp].
        exists s1, Xc. split; [exact A1|]. split; [exact A2|]. split; [exact B3|]. split; [exact EX|]. split; [reflexivity|]. split; [reflexivity|]. split.
        + intros ->. destruct (l_success s1); [reflexivity|discriminate].
        + intros Ed. rewrite B1. unfold s0. cbn [l_CtoP]. rewrite Ed. reflexivity.
      - eexists. reflexivity.
      - cbn. unfold add_event. destruct (c_callback conf); [apply rhalving_push; [exact A4|apply closed_closes; exact C]|exact A4].
      - cbn. unfold add_event. destruct (c_callback conf); [cbn; tauto|exact C].
      - cbn [l_trace s2]. unfold add_event. destruct (c_callback conf) eqn:Ecb.
        + cbn [callbacks filter is_callback seen]. fold (callbacks (l_trace s1)). rewrite B4. change (callbacks (l_trace s0)) with (callbacks (l_trace st)). rewrite Hcb. reflexivity.
        + rewrite B4. exact Hcb.
      - constructor; [exact Ein|exact Hra].
      - cbn. apply inner_Q. constructor; assumption.
      - cbn. intros ->. destruct (l_success s1); [reflexivity|discriminate]. }
    destruct (IH _ _ _ _ _ H HO2) as (dirs' & pts1 & P1 & P2 & P3 & P4).
    exists dirs', (pts1 ++ [nw']). split; [exact P1|]. split; [rewrite P2, <- app_assoc; reflexivity|]. split; [rewrite app_length; cbn; lia|]. exact P4.
Qed.

Lemma main_bounds fuel : c_dsmin conf <= c_dsmax conf -> 0 <= c_dsmin conf -> forall todo pts st pts' st',
  main_loop todo fuel W n conf silent CtoP0 direct lam0 lam1 pts st = Ok (pts', st') ->
  c_dsmin conf <= l_ds st <= c_dsmax conf -> Forall in_bounds (l_trace st) -> Forall in_bounds (l_trace st').
Proof.
  intros Hm H0. induction todo as [|todo IH]; intros pts st pts' st' H Hd Hb; cbn [main_loop] in H; [injection H as <- <-; exact Hb|].
  cbv zeta in H. destruct (in_range _ _ _ _ _); [|injection H as <- <-; exact Hb].
  apply bind_ok in H. destruct H as (s1 & E1 & H). apply frac_bounds in E1; [|exact H0|exact Hd|exact Hb]. destruct E1 as [E1 E2].
  destruct (negb (l_success s1) && negb silent)%bool; [injection H as <- <-; exact E2|].
  destruct (l_XlamC s1) as [Xc|]; [|discriminate]. destruct (Nat.eqb (l_nfev s1) 0); [discriminate|].
  eapply IH in H; [exact H|apply next_ds_bounds; exact Hm|]. cbn. unfold add_event. destruct (c_callback conf); [constructor; [exact I|exact E2]|exact E2].
Qed.
End Run.
