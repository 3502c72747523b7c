From Coq Require Import Reals List Arith Bool ZArith Lia Lra Psatz FunctionalExtensionality.
From Verif.Lib Require Import RSum Calc LinAlg Py.
From Verif.Spec Require Import Calculus Harmonic System Continuation.
From Verif.Model Require Import VibSys Solver Continuation.
From Verif.Proofs Require Import HarmonicP VibSysP VibControlP VprnmP ContP ContLoopP ContRunP.
Import ListNotations.
Open Scope R_scope.

Lemma run_conf_eq self (A : Type) (f : config -> A) : (forall c v, f (set_verbose c v) = f c) -> f (run_conf self) = f (k_conf self).
Proof. intros H. unfold run_conf. destruct (Z.ltb _ 0); [apply H|reflexivity]. Qed.

Lemma removelast_rev {A} (x : A) l : removelast (rev (x :: l)) = rev l.
Proof. cbn [rev]. rewrite removelast_app by discriminate. cbn. apply app_nil_r. Qed.

(** ---- C41 ---- *)
Lemma range_size fuel W n self X0 lam0 lam1 pts self' tr : reachable self ->
  continuation fuel W n self X0 lam0 lam1 = Ok (pts, self', tr) ->
  (1 <= length pts <= c_MaxSteps (k_conf self))%nat /\
  (lam0 < lam1 -> Forall (fun p => p n < lam1) (removelast pts)) /\
  (lam1 < lam0 -> Forall (fun p => lam1 < p n) (removelast pts)) /\
  (lam0 = lam1 -> length pts = 1%nat) /\
  (forall bs, c_backtrackStop (k_conf self) = Some bs ->
     Forall (fun p => if Rlt_dec lam0 lam1 then lam0 - bs < p n else p n < lam0 + bs) (removelast pts)).
Proof.
  intros HR E. destruct (continuation_facts _ _ _ _ _ _ _ _ _ _ (fun _ => True) (fun _ _ _ _ _ _ _ _ _ _ _ => I) I (reachable_frac _ HR) E) as (Xc & nf & p0 & rpts & dirs & trace & E0 & Hp0 & HP & -> & -> & HL & Hh & Hcl & Hra & _).
  assert (EM : c_MaxSteps (run_conf self) = c_MaxSteps (k_conf self)) by (apply run_conf_eq; reflexivity).
  assert (EB : c_backtrackStop (run_conf self) = c_backtrackStop (k_conf self)) by (apply run_conf_eq; reflexivity).
  rewrite EM in HL. split; [exact HL|].
  destruct rpts as [|pl rp]; [cbn in HL; lia|]. rewrite removelast_rev.
  assert (G : forall P : vec -> Prop, (forall p, in_range (run_conf self) (Rsign (lam1 - lam0)) lam0 lam1 (p n) = true -> P p) -> Forall P (rev rp)).
  { intros P HP'. apply Forall_rev. eapply Forall_impl; [|exact Hra]. exact HP'. }
  split; [|split; [|split]].
  - intros L. apply G. intros p Hp. unfold in_range in Hp. apply andb_prop in Hp. destruct Hp as [Hp _]. apply Rltb_true in Hp.
    unfold Rsign in Hp. destruct (Rlt_dec 0 (lam1 - lam0)); lra.
  - intros L. apply G. intros p Hp. unfold in_range in Hp. apply andb_prop in Hp. destruct Hp as [Hp _]. apply Rltb_true in Hp.
    unfold Rsign in Hp. destruct (Rlt_dec 0 (lam1 - lam0)); [lra|]. destruct (Rlt_dec (lam1 - lam0) 0); lra.
  - intros ->. rewrite rev_length. destruct rp as [|q rp]; [reflexivity|]. exfalso. inversion_clear Hra as [|? ? Hq _].
    unfold in_range in Hq. apply andb_prop in Hq. destruct Hq as [Hq _]. apply Rltb_true in Hq. unfold Rsign in Hq. destruct (Rlt_dec 0 (lam1 - lam1)); [lra|]. destruct (Rlt_dec (lam1 - lam1) 0); lra.
  - intros bs Hbs. apply G. intros p Hp. unfold in_range in Hp. rewrite EB, Hbs in Hp. apply andb_prop in Hp. destruct Hp as [Hq Hp]. apply Rltb_true in Hp. apply Rltb_true in Hq.
    unfold Rsign in *. destruct (Rlt_dec lam0 lam1); destruct (Rlt_dec 0 (lam1 - lam0)); try destruct (Rlt_dec (lam1 - lam0) 0); lra.
Qed.

Lemma step_control fuel W n self X0 lam0 lam1 pts self' tr : reachable self ->
  continuation fuel W n self X0 lam0 lam1 = Ok (pts, self', tr) ->
  let c := k_conf self in
  halving (c_dsmin c) tr /\
  (0 <= c_dsmin c -> c_dsmin c <= c_ds0 c <= c_dsmax c -> forall ds b ok, In (Attempt ds b ok) tr -> c_dsmin c <= ds <= c_dsmax c).
Proof.
  intros HR E c. destruct (continuation_facts _ _ _ _ _ _ _ _ _ _ (fun _ => True) (fun _ _ _ _ _ _ _ _ _ _ _ => I) I (reachable_frac _ HR) E) as (Xc & nf & p0 & rpts & dirs & trace & E0 & Hp0 & HP & -> & -> & HL & Hh & Hcl & Hra & _ & Hb).
  assert (E1 : c_dsmin (run_conf self) = c_dsmin c) by (apply run_conf_eq; reflexivity).
  assert (E2 : c_dsmax (run_conf self) = c_dsmax c) by (apply run_conf_eq; reflexivity).
  assert (E3 : c_ds0 (run_conf self) = c_ds0 c) by (apply run_conf_eq; reflexivity).
  rewrite E1, E2, E3 in *. split; [rewrite <- E1; apply rhalving_rev; assumption|].
  intros H0 Hd ds b ok Hin. apply in_rev in Hin. specialize (Hb H0 Hd). rewrite Forall_forall in Hb. specialize (Hb _ Hin). cbn in Hb. rewrite E1, E2 in Hb. exact Hb.
Qed.

(** ---- C42 ---- *)
Lemma path_len W n conf Q silent C0 p0 : forall rpts dirs, path W n conf Q silent C0 p0 rpts dirs -> length rpts = S (length dirs).
Proof.
  induction rpts as [|p r IH]; intros dirs H; [destruct dirs; contradiction|]. destruct dirs as [|d dirs].
  - destruct r; [reflexivity|contradiction].
  - cbn. f_equal. apply IH. cbn in H. destruct r; tauto.
Qed.

Lemma seen_rev W n conf Q silent C0 p0 : forall rpts dirs, path W n conf Q silent C0 p0 rpts dirs ->
  exists rest, rev rpts = p0 :: rest /\ length rest = length dirs /\
    rev (seen rpts dirs) = CbInit p0 :: map (fun pd => CbPoint (fst pd) (snd pd)) (combine rest (rev dirs)).
Proof.
  induction rpts as [|p r IH]; intros dirs H; [destruct dirs; contradiction|]. destruct dirs as [|d dirs].
  - destruct r; [|contradiction]. cbn in H. subst p. exists []. repeat split.
  - assert (H2 : path W n conf Q silent C0 p0 r dirs) by (cbn in H; destruct r; tauto). destruct (IH _ H2) as (rest & E1 & E2 & E3).
    exists (rest ++ [p]). split; [cbn; rewrite E1; reflexivity|]. split; [rewrite app_length; cbn; lia|].
    cbn [seen rev]. rewrite E3. cbn [app]. f_equal. 
    assert (C : forall (a b : list vec) x y, length a = length b -> combine (a ++ [x]) (b ++ [y]) = combine a b ++ [(x, y)]).
    { induction a as [|a0 a IHa]; intros [|b0 b] x y L; try discriminate; [reflexivity|]. cbn. f_equal. apply IHa. cbn in L. lia. }
    rewrite C by (rewrite rev_length; exact E2). rewrite map_app. reflexivity.
Qed.

Lemma filter_rev {A} (f : A -> bool) l : filter f (rev l) = rev (filter f l).
Proof. induction l as [|x l IH]; [reflexivity|]. cbn [rev filter]. rewrite filter_app, IH. cbn. destruct (f x); [reflexivity|apply app_nil_r]. Qed.

Lemma path_tangents W n conf Q silent C0 p0 : sound_linear_solver n W -> forall rpts dirs, path W n conf Q silent C0 p0 rpts dirs ->
  Forall (fun pd => tangent W n (fst pd) (snd pd)) (combine (tl rpts) dirs).
Proof.
  intros HL. induction rpts as [|p r IH]; intros dirs H; [constructor|]. destruct dirs as [|d dirs]; [destruct r; [constructor|contradiction]|].
  cbn [path] in H. cbn [tl]. destruct r as [|p1 r]; [destruct H; contradiction|]. destruct H as [(st & Xc & _ & (k & s & pv & dp & Ep & _) & Hc & _ & _ & Hd & _) H2].
  cbn [combine]. constructor; [|apply (IH _ H2)]. cbn [fst snd]. rewrite Hd, <- Hc. eapply predict_kernel; [exact HL|exact Ep].
Qed.

Lemma callback_protocol fuel W n self X0 lam0 lam1 pts self' tr : reachable self ->
  continuation fuel W n self X0 lam0 lam1 = Ok (pts, self', tr) ->
  (c_callback (k_conf self) = false -> callbacks tr = []) /\
  (c_callback (k_conf self) = true -> exists p0 rest dirs dEnd,
     pts = p0 :: rest /\ length dirs = length rest /\
     callbacks tr = CbInit p0 :: map (fun pd => CbPoint (fst pd) (snd pd)) (combine rest dirs) ++ [CbEnd dEnd] /\
     (sound_linear_solver n W -> Forall (fun pd => tangent W n (fst pd) (snd pd)) (combine (removelast pts) dirs) /\
        ((0 <= c_verbose (k_conf self))%Z -> tangent W n (last pts vzero) dEnd))).
Proof.
  intros HR E. destruct (continuation_facts _ _ _ _ _ _ _ _ _ _ (fun _ => True) (fun _ _ _ _ _ _ _ _ _ _ _ => I) I (reachable_frac _ HR) E) as (Xc & nf & p0 & rpts & dirs & trace & E0 & Hp0 & HP & -> & -> & HL & Hh & Hcl & Hra & Hcb & _).
  assert (EC : c_callback (run_conf self) = c_callback (k_conf self)) by (apply run_conf_eq; reflexivity).
  rewrite EC in Hcb. split; intros Ec; rewrite Ec in Hcb.
  - unfold callbacks in *. rewrite filter_rev, Hcb. reflexivity.
  - destruct Hcb as (dEnd & Hcb & Hend). destruct (seen_rev _ _ _ _ _ _ _ _ _ HP) as (rest & E1 & E2 & E3).
    exists p0, rest, (rev dirs), dEnd. split; [exact E1|]. split; [rewrite rev_length; lia|]. split.
    + unfold callbacks in *. rewrite filter_rev, Hcb. cbn [rev]. rewrite E3. reflexivity.
    + intros HS. split.
      * pose proof (path_tangents _ _ _ _ _ _ _ HS _ _ HP) as T. pose proof (path_len _ _ _ _ _ _ _ _ _ HP) as Ln.
        destruct rpts as [|pl rp]; [cbn in Ln; lia|]. rewrite removelast_rev. cbn [tl] in T. cbn in Ln.
        assert (C : combine (rev rp) (rev dirs) = rev (combine rp dirs)).
        { clear - Ln. assert (L : length rp = length dirs) by lia. clear Ln. revert dirs L. induction rp as [|a rp IH]; intros [|d dirs] L; try discriminate; [reflexivity|].
          cbn [rev combine]. cbn in L. rewrite <- IH by lia.
          assert (C : forall (a b : list vec) x y, length a = length b -> combine (a ++ [x]) (b ++ [y]) = combine a b ++ [(x, y)]).
          { induction a0 as [|a1 a0 IHa]; intros [|b0 b] x y L'; try discriminate; [reflexivity|]. cbn. f_equal. apply IHa. cbn in L'. lia. }
          apply C. rewrite !rev_length. lia. }
        rewrite C. apply Forall_rev. exact T.
      * intros Hv. destruct (Hend (proj2 (Z.ltb_ge _ _) Hv) HS) as (p & r & -> & k & C & s & b & dyn & pv & dp & d & s' & Ep & ->).
        cbn [rev]. rewrite last_last. eapply predict_kernel; [exact HS|exact Ep].
Qed.

(** ---- termination ---- *)
Section Term.
Variables (W : world) (n : nat) (conf : config) (fuel0 : nat) (dstop : R).
Hypothesis Hmin : 0 < c_dsmin conf.
Hypothesis Hmax : c_dsmax conf <= dstop.
Hypothesis Hfuel : dstop <= c_dsmin conf * 2 ^ fuel0.

Lemma correct_returns C RP b corr X0 ds d X g : world_returns W -> correct_res W n C RP b corr X0 ds d X g <> Err NoReturn.
Proof.
  intros (H1 & _) E. unfold correct_res in E. destruct (w_fun W (fun i => X i * C i) g) as [[Rr G]|e] eqn:E1; cbn [bind] in E.
  - destruct corr; cbn [bind] in E; [| |discriminate]; destruct (_ : R * vec) as [ra dra]; destruct g; try discriminate; destruct G as [[dX dl]|]; discriminate.
  - injection E as ->. apply (H1 _ _ E1).
Qed.
Lemma initial_returns lam0 C v X g : world_returns W -> conditioning_wrapper (initial_fun W n lam0) C (Vec v) X g <> Err NoReturn.
Proof.
  intros (H1 & _) E. unfold conditioning_wrapper, conditioned_fun, initial_fun in E.
  destruct g; (destruct (w_fun W (with_entry n (fun i => X i * C i) lam0) _) as [[Rr [[dX dl]|]]|e] eqn:E1; cbn [bind] in E; try discriminate; injection E as ->; apply (H1 _ _ E1)).
Qed.

(** the loops give the same answer for every large fuel, and it is not NoReturn if the oracles return *)
Lemma retry_term RP : world_returns W -> forall m fuel1 fuel2 st, (m <= fuel1)%nat -> (m <= fuel2)%nat -> l_ds st <= c_dsmin conf * 2 ^ m ->
  retry fuel1 W n conf RP st = retry fuel2 W n conf RP st /\ retry fuel1 W n conf RP st <> Err NoReturn.
Proof.
  intros HW. induction m as [|m IH]; intros f1 f2 st H1 H2 Hd.
  - assert (Ec : (negb (l_success st) && Rltb (c_dsmin conf) (l_ds st))%bool = false).
    { apply andb_false_intro2. apply Rltb_false. cbn in Hd. lra. }
    assert (R : forall f, retry f W n conf RP st = Ok st) by (intros f; destruct f; cbn [retry]; rewrite Ec; reflexivity).
    rewrite !R. split; [reflexivity|discriminate].
  - destruct f1 as [|f1]; [lia|]. destruct f2 as [|f2]; [lia|]. cbn [retry].
    destruct (negb (l_success st) && Rltb (c_dsmin conf) (l_ds st))%bool; [|split; [reflexivity|discriminate]].
    match goal with |- context [bind ?r _] => destruct r as [[Xs nf]|e] eqn:Ew end; cbn [bind]; [|split; [reflexivity|]].
    + apply IH; [lia|lia|]. cbn [l_ds]. apply Rmax_lub; [cbn in Hd; lra|].
      assert (1 <= 2 ^ m) by (clear; induction m; cbn; lra). nra.
    + intros E. injection E as ->. revert Ew. apply (proj2 (proj2 HW)). intros; apply correct_returns || apply initial_returns; exact HW.
Qed.

Lemma retry_ds_le RP D : c_dsmin conf <= D -> forall fuel st st', retry fuel W n conf RP st = Ok st' -> l_ds st <= D -> l_ds st' <= D.
Proof.
  intros HD. induction fuel as [|fuel IH]; intros st st' H Hd; cbn [retry] in H.
  - destruct (negb _ && _)%bool; [discriminate|]. injection H as <-. exact Hd.
  - destruct (negb _ && Rltb _ (l_ds st))%bool eqn:Ec; [|injection H as <-; exact Hd].
    apply bind_ok in H. destruct H as ([[Xc ok] nf] & E1 & H). apply andb_prop in Ec. destruct Ec as [_ Ec]. apply Rltb_true in Ec.
    eapply IH; [exact H|]. cbn. apply Rmax_lub; lra.
Qed.

Lemma predict_returns k C s b dyn p pv dp : world_returns W -> predict W n k C s b dyn p pv dp <> Err NoReturn.
Proof.
  intros (H1 & H2 & _) E. unfold predict in E. destruct (w_fun W p true) as [[Rr G]|e] eqn:E1; cbn [bind] in E.
  - destruct G as [[dX dl]|]; [|discriminate]. destruct (w_lin W k _ _) as [d|e] eqn:E2; cbn [bind] in E; [discriminate|]. injection E as ->. apply (H2 _ _ _ E2).
  - injection E as ->. apply (H1 _ _ E1).
Qed.

Lemma frac_term fuel1 fuel2 : world_returns W -> c_dsmin conf <= dstop -> (fuel0 <= fuel1)%nat -> (fuel0 <= fuel2)%nat ->
  forall fl st, l_ds st <= dstop ->
  frac_loop fuel1 W n conf fl st = frac_loop fuel2 W n conf fl st /\ frac_loop fuel1 W n conf fl st <> Err NoReturn /\
  (forall st', frac_loop fuel1 W n conf fl st = Ok st' -> l_ds st' <= dstop).
Proof.
  intros HW HD F1 F2. induction fl as [|b fl IH]; intros st Hd; cbn [frac_loop]; [split; [reflexivity|split; [discriminate|intros st' E; injection E as <-; exact Hd]]|].
  destruct (predict W n (l_k st) (l_CtoP st) (l_RPtoC st) b (c_DynamicCtoP conf) (l_cur st) (l_prev st) (l_dirC st)) as [[dirC RPc]|e] eqn:Ep; cbn [bind].
  2:{ split; [reflexivity|]. split; [|discriminate]. intros E. injection E as ->. eapply predict_returns; [exact HW|exact Ep]. }
  match goal with |- context [bind (w_nsolve W ?k ?f ?x) _] => destruct (w_nsolve W k f x) as [[Xs nf]|e] eqn:Ew end; cbn [bind].
  2:{ split; [reflexivity|]. split; [|discriminate]. intros E. injection E as ->. revert Ew. apply (proj2 (proj2 HW)). intros; apply correct_returns || apply initial_returns; exact HW. }
  match goal with |- context [retry fuel1 W n conf ?RP ?s] => destruct (retry_term RP HW fuel0 fuel1 fuel2 s F1 F2) as [R1 R2]; [cbn; lra|]; pose proof (retry_ds_le RP dstop HD fuel1 s) as R3; rewrite <- R1; destruct (retry fuel1 W n conf RP s) as [s2|e] end; cbn [bind].
  - specialize (R3 _ eq_refl Hd). destruct (l_success s2); [split; [reflexivity|split; [discriminate|intros st' E; injection E as <-; exact R3]]|]. apply IH. exact R3.
  - split; [reflexivity|]. split; [exact R2|discriminate].
Qed.

Lemma main_term fuel1 fuel2 silent CtoP0 direct lam0 lam1 : world_returns W -> c_dsmin conf <= dstop -> (fuel0 <= fuel1)%nat -> (fuel0 <= fuel2)%nat ->
  forall todo pts st, l_ds st <= dstop ->
  main_loop todo fuel1 W n conf silent CtoP0 direct lam0 lam1 pts st = main_loop todo fuel2 W n conf silent CtoP0 direct lam0 lam1 pts st /\
  main_loop todo fuel1 W n conf silent CtoP0 direct lam0 lam1 pts st <> Err NoReturn.
Proof.
  intros HW HD F1 F2. induction todo as [|todo IH]; intros pts st Hd; cbn [main_loop]; [split; [reflexivity|discriminate]|]. cbv zeta.
  destruct (in_range _ _ _ _ _); [|split; [reflexivity|discriminate]].
  match goal with |- context [frac_loop fuel1 W n conf ?fl ?s] => destruct (frac_term fuel1 fuel2 HW HD F1 F2 fl s Hd) as (R1 & R2 & R3); rewrite <- R1; destruct (frac_loop fuel1 W n conf fl s) as [s1|e] end; cbn [bind].
  2:{ split; [reflexivity|]. intros E. injection E as ->. apply R2. reflexivity. }
  destruct (negb _ && negb silent)%bool; [split; [reflexivity|discriminate]|]. destruct (l_XlamC s1); [|split; [reflexivity|discriminate]].
  destruct (Nat.eqb _ 0); [split; [reflexivity|discriminate]|]. apply IH. cbn. eapply Rle_trans; [apply Rmin_r|exact Hmax].
Qed.
End Term.

Lemma pow_big x y : 0 < x -> exists m, y <= x * 2 ^ m.
Proof.
  intros Hx. assert (P : forall m, INR m + 1 <= 2 ^ m).
  { induction m; [cbn; lra|]. rewrite S_INR. cbn [pow]. pose proof (pos_INR m). lra. }
  destruct (archimed (y / x)) as [Ha _]. set (m := Z.to_nat (up (y / x))). exists m. specialize (P m).
  assert (Hm : y / x < INR m + 1).
  { unfold m. destruct (Z_le_dec 0 (up (y / x))) as [L|L]; [rewrite INR_IZR_INZ, Z2Nat.id by exact L; lra|].
    assert (IZR (up (y / x)) < 0) by (apply (IZR_lt _ 0); lia). pose proof (pos_INR (Z.to_nat (up (y / x)))). lra. }
  apply (Rmult_lt_compat_r x) in Hm; [|exact Hx]. unfold Rdiv in Hm. rewrite Rmult_assoc, Rinv_l, Rmult_1_r in Hm by lra. nra.
Qed.

Lemma continuation_returns W n self X0 lam0 lam1 : 0 < c_dsmin (k_conf self) -> world_returns W ->
  exists fuel0 r, r <> Err NoReturn /\ forall fuel, (fuel0 <= fuel)%nat -> continuation fuel W n self X0 lam0 lam1 = r.
Proof.
  intros Hm HW. set (conf := run_conf self).
  assert (E1 : c_dsmin conf = c_dsmin (k_conf self)) by (apply run_conf_eq; reflexivity).
  set (dstop := Rmax (Rmax (c_dsmax conf) (c_ds0 conf)) (c_dsmin conf)).
  destruct (pow_big (c_dsmin conf) dstop ltac:(lra)) as [fuel0 Hf].
  exists fuel0, (continuation fuel0 W n self X0 lam0 lam1).
  assert (D1 : c_dsmax conf <= dstop) by (unfold dstop; eapply Rle_trans; [apply Rmax_l|apply Rmax_l]).
  assert (D2 : c_ds0 conf <= dstop) by (unfold dstop; eapply Rle_trans; [apply Rmax_r|apply Rmax_l]).
  assert (D3 : c_dsmin conf <= dstop) by (unfold dstop; apply Rmax_r).
  assert (G : forall fuel, (fuel0 <= fuel)%nat -> continuation fuel W n self X0 lam0 lam1 = continuation fuel0 W n self X0 lam0 lam1 /\ continuation fuel W n self X0 lam0 lam1 <> Err NoReturn).
  { intros fuel Hfl. unfold continuation. cbv zeta. fold (run_conf self). fold conf.
    match goal with |- context [bind (w_nsolve W 0%nat ?f ?x) _] => destruct (w_nsolve W 0%nat f x) as [[[Xc ok] nf]|e] eqn:Ew end; cbn [bind fst snd].
    2:{ split; [reflexivity|]. intros E. injection E as ->. revert Ew. apply (proj2 (proj2 HW)). intros; apply correct_returns || apply initial_returns; exact HW. }
    destruct ok; [|split; [reflexivity|discriminate]]. destruct (c_MaxSteps conf) as [|todo]; [split; [reflexivity|discriminate]|].
    match goal with |- context [main_loop todo fuel W n conf ?si ?C ?d ?l0 ?l1 ?p ?s] =>
      destruct (main_term W n conf fuel0 dstop ltac:(lra) D1 Hf fuel fuel0 si C d l0 l1 HW D3 Hfl (le_n _) todo p s D2) as [R1 R2]; rewrite <- R1;
      destruct (main_loop todo fuel W n conf si C d l0 l1 p s) as [[ps st]|e] end; cbn [bind].
    2:{ split; [reflexivity|]. intros E. injection E as ->. apply R2. reflexivity. }
    split; [reflexivity|]. destruct (c_callback conf); [|cbn [bind]; discriminate]. destruct (l_success st); [|cbn [bind]; discriminate].
    match goal with |- context [predict ?a ?b ?c ?d ?e ?f ?g ?h ?i ?j] => pose proof (predict_returns W n c d e f g h i j HW) as PR; destruct (predict a b c d e f g h i j) as [[q1 q2]|e1] end; cbn [bind]; [discriminate|].
    intros E. injection E as ->. apply PR. reflexivity. }
  split; [apply (G fuel0 (le_n _))|]. intros fuel Hfl. apply (G fuel Hfl).
Qed.

(** ---- C43 ---- *)
Lemma retry_keeps W n conf RP : forall fuel st st', retry fuel W n conf RP st = Ok st' -> l_CtoP st' = l_CtoP st /\ l_b st' = l_b st.
Proof.
  induction fuel as [|fuel IH]; intros st st' H; cbn [retry] in H.
  - destruct (negb _ && _)%bool; [discriminate|]. injection H as <-. tauto.
  - destruct (negb _ && Rltb _ (l_ds st))%bool; [|injection H as <-; tauto]. apply bind_ok in H. destruct H as ([[Xc ok] nf] & E1 & H).
    destruct (IH _ _ H) as [A B]. split; assumption.
Qed.
Lemma frac_keeps W n conf fuel : forall fl st st', frac_loop fuel W n conf fl st = Ok st' -> l_CtoP st' = l_CtoP st /\ (fl <> [] -> In (l_b st') fl).
Proof.
  induction fl as [|b fl IH]; intros st st' H; cbn [frac_loop] in H; [injection H as <-; tauto|].
  apply bind_ok in H. destruct H as ([dirC RPc] & E1 & H). apply bind_ok in H. destruct H as ([[Xc ok] nf] & E2 & H). apply bind_ok in H. destruct H as (s2 & E3 & H).
  destruct (retry_keeps _ _ _ _ _ _ _ E3) as [A B]. cbn in A, B. destruct (l_success s2).
  - injection H as <-. split; [exact A|]. intros _. left. symmetry. exact B.
  - destruct (IH _ _ H) as [C D]. split; [congruence|]. intros _. destruct fl; [cbn in H; injection H as <-; left; symmetry; exact B|right; apply D; discriminate].
Qed.
Lemma main_keeps W n conf fuel silent CtoP0 direct lam0 lam1 (P : R -> Prop) : (forall b, In b (c_FracLamList conf) -> P b) -> c_FracLamList conf <> [] -> forall todo pts st pts' st',
  main_loop todo fuel W n conf silent CtoP0 direct lam0 lam1 pts st = Ok (pts', st') -> P (l_b st) ->
  P (l_b st') /\ (c_DynamicCtoP conf = false -> l_CtoP st' = l_CtoP st).
Proof.
  intros HP Hfl. induction todo as [|todo IH]; intros pts st pts' st' H Hb; cbn [main_loop] in H; [injection H as <- <-; tauto|]. cbv zeta in H.
  destruct (in_range _ _ _ _ _); [|injection H as <- <-; tauto]. apply bind_ok in H. destruct H as (s1 & E1 & H).
  destruct (frac_keeps _ _ _ _ _ _ _ E1) as [A B]. specialize (B Hfl). cbn [l_CtoP] in A.
  assert (A' : c_DynamicCtoP conf = false -> l_CtoP s1 = l_CtoP st) by (intros Ed; rewrite Ed in A; exact A).
  destruct (negb _ && negb silent)%bool; [injection H as <- <-; split; [apply HP; exact B|exact A']|].
  destruct (l_XlamC s1); [|discriminate]. destruct (Nat.eqb _ 0); [discriminate|].
  destruct (IH _ _ _ _ H ltac:(cbn; apply HP; exact B)) as [C D]. split; [exact C|]. intros Ed. rewrite (D Ed). cbn. apply A'. exact Ed.
Qed.
Lemma retry_scale W n conf RP : forall fuel st st', retry fuel W n conf RP st = Ok st' -> l_RPtoC st' = l_RPtoC st.
Proof.
  induction fuel as [|fuel IH]; intros st st' H; cbn [retry] in H.
  - destruct (negb _ && _)%bool; [discriminate|]. injection H as <-. reflexivity.
  - destruct (negb _ && Rltb _ (l_ds st))%bool; [|injection H as <-; reflexivity]. apply bind_ok in H. destruct H as ([[Xc ok] nf] & E1 & H). rewrite (IH _ _ H). reflexivity.
Qed.
(** invariant of the residual scaling *)
Lemma main_scale W n conf fuel silent CtoP0 direct lam0 lam1 (Q : scale -> Prop) :
  (forall k C s b p pv dp d s', Q s -> predict W n k C s b (c_DynamicCtoP conf) p pv dp = Ok (d, s') -> Q s') -> forall todo pts st pts' st',
  main_loop todo fuel W n conf silent CtoP0 direct lam0 lam1 pts st = Ok (pts', st') -> Q (l_RPtoC st) -> Q (l_RPtoC st').
Proof.
  intros HQ. assert (HF : forall fl st st', frac_loop fuel W n conf fl st = Ok st' -> Q (l_RPtoC st) -> Q (l_RPtoC st')).
  { induction fl as [|b fl IH]; intros st st' H Hq; cbn [frac_loop] in H; [injection H as <-; exact Hq|].
    apply bind_ok in H. destruct H as ([dirC RPc] & E1 & H). apply bind_ok in H. destruct H as ([[Xc ok] nf] & E2 & H). apply bind_ok in H. destruct H as (s2 & E3 & H).
    apply retry_scale in E3. cbn in E3. assert (Q (l_RPtoC s2)) by (rewrite E3; eapply HQ; [exact Hq|exact E1]).
    destruct (l_success s2); [injection H as <-; assumption|]. eapply IH; eassumption. }
  induction todo as [|todo IH]; intros pts st pts' st' H Hq; cbn [main_loop] in H; [injection H as <- <-; exact Hq|]. cbv zeta in H.
  destruct (in_range _ _ _ _ _); [|injection H as <- <-; exact Hq]. apply bind_ok in H. destruct H as (s1 & E1 & H). apply HF in E1; [|exact Hq].
  destruct (negb _ && negb silent)%bool; [injection H as <- <-; exact E1|].
  destruct (l_XlamC s1); [|discriminate]. destruct (Nat.eqb _ 0); [discriminate|]. eapply IH; [exact H|exact E1].
Qed.

(** two objects for which runs are the same *)
Definition equiv (a b : cont) : Prop := run_conf a = run_conf b /\ run_CtoP a = run_CtoP b /\ run_RP a = run_RP b /\
  Z.ltb (c_verbose (k_conf a)) 0 = Z.ltb (c_verbose (k_conf b)) 0.

Lemma equiv_run a b fuel W n X lam0 lam1 : equiv a b -> outcome (continuation fuel W n a X lam0 lam1) = outcome (continuation fuel W n b X lam0 lam1).
Proof.
  intros (E1 & E2 & E3 & E4). unfold continuation. cbv zeta. fold (run_conf a) (run_conf b) (run_CtoP a) (run_CtoP b) (run_RP a) (run_RP b).
  rewrite E1, E2, E3, E4.
  match goal with |- context [bind (w_nsolve W 0%nat ?f ?x) _] => destruct (w_nsolve W 0%nat f x) as [[[Xc ok] nf]|e] end; cbn [bind fst snd]; [|reflexivity].
  destruct ok; [|reflexivity]. destruct (c_MaxSteps (run_conf b)) as [|todo]; [reflexivity|].
  match goal with |- context [bind (main_loop ?a ?b ?c ?d ?e ?f ?g ?h ?i ?j ?k ?l) _] => destruct (main_loop a b c d e f g h i j k l) as [[ps st]|e0] end; cbn [bind]; [|reflexivity].
  match goal with |- context [bind ?r _] => destruct r as [[q1 q2]|e0] end; reflexivity.
Qed.

Lemma run_keeps fuel W n self X lam0 lam1 pts self' tr : c_FracLamList (k_conf self) = [c_FracLam (k_conf self)] ->
  (0 <= c_verbose (k_conf self))%Z ->
  (k_setCtoP self = true \/ c_DynamicCtoP (k_conf self) = false) ->
  (k_setRPtoC self = true \/ (c_DynamicCtoP (k_conf self) = false /\ exists r, forall i, sc (k_RPtoC self) i = r)) ->
  continuation fuel W n self X lam0 lam1 = Ok (pts, self', tr) ->
  k_conf self' = k_conf self /\ k_setCtoP self' = k_setCtoP self /\ k_setRPtoC self' = k_setRPtoC self /\ run_CtoP self' = run_CtoP self /\
  run_RP self' = run_RP self.
Proof.
  intros Hf Hv HC HRP E. unfold continuation in E. cbv zeta in E. fold (run_conf self) (run_CtoP self) (run_RP self) in E.
  assert (Ec : run_conf self = k_conf self) by (unfold run_conf; rewrite (proj2 (Z.ltb_ge _ _) Hv); reflexivity). rewrite Ec in E.
  apply bind_ok in E. destruct E as ([[Xc ok] nf] & E0 & E). cbn [fst snd] in E. destruct ok; [|discriminate].
  destruct (c_MaxSteps (k_conf self)) as [|todo]; [discriminate|].
  apply bind_ok in E. destruct E as ([rpts st] & E1 & E). apply bind_ok in E. destruct E as ([RPe trace] & E2 & E). injection E as _ <- _.
  cbn [k_conf k_setCtoP k_setRPtoC].
  destruct (main_keeps W n (k_conf self) fuel _ _ _ _ _ (fun b => b = c_FracLam (k_conf self)) ltac:(rewrite Hf; intros b [<-|[]]; reflexivity) ltac:(rewrite Hf; discriminate) _ _ _ _ _ E1 eq_refl) as [K1 K2].
  split; [cbv beta in K1; rewrite K1; destruct (k_conf self); reflexivity|]. split; [reflexivity|]. split; [reflexivity|]. split.
  - unfold run_CtoP. cbn. destruct (k_setCtoP self) eqn:Es; [reflexivity|]. destruct HC as [HC|HC]; [discriminate|]. rewrite (K2 HC). cbn. unfold run_CtoP. rewrite Es. reflexivity.
  - unfold run_RP. cbn [k_setRPtoC k_RPtoC]. destruct (k_setRPtoC self) eqn:Es; [reflexivity|]. destruct HRP as [HRP|[Hd (r & Hr)]]; [discriminate|].
    set (Q := fun s : scale => (exists v, s = Vec v /\ v = sc (k_RPtoC self)) \/ s = Num r).
    assert (HQ : forall k C s b p pv dp d s', Q s -> predict W n k C s b (c_DynamicCtoP (k_conf self)) p pv dp = Ok (d, s') -> Q s').
    { intros k C s b p pv dp d s' Hs Hp. right. rewrite Hd in Hp. eapply predict_scale; [|exact Hp].
      destruct Hs as [(v & -> & ->)| ->]; [intros i _; apply Hr|reflexivity]. }
    assert (HQ1 : Q (l_RPtoC st)).
    { eapply main_scale; [exact HQ|exact E1|]. left. cbn. eexists. split; [reflexivity|]. unfold run_RP. rewrite Es. reflexivity. }
    assert (HQ2 : Q RPe).
    { destruct (c_callback (k_conf self)); [|injection E2 as <- _; exact HQ1]. destruct (l_success st); [|injection E2 as <- _; exact HQ1].
      apply bind_ok in E2. destruct E2 as ([d RP] & Ep & E2). injection E2 as <- _. eapply HQ; [exact HQ1|exact Ep]. }
    destruct HQ2 as [(v & -> & ->)| ->]; [reflexivity|]. apply functional_extensionality. intros i. rewrite Hr. reflexivity.
Qed.

Lemma settings_kept self self' : kept_settings self -> after_runs self self' ->
  forall fuel W n X lam0 lam1, outcome (continuation fuel W n self' X lam0 lam1) = outcome (continuation fuel W n self X lam0 lam1).
Proof.
  intros (Hv & Hf & HC & HR) HA.
  enough (H : k_conf self' = k_conf self /\ k_setCtoP self' = k_setCtoP self /\ k_setRPtoC self' = k_setRPtoC self /\ run_CtoP self' = run_CtoP self /\ run_RP self' = run_RP self).
  { destruct H as (A & _ & _ & D & F). intros. apply equiv_run. repeat split; [unfold run_conf; rewrite A; reflexivity|exact D|exact F|rewrite A; reflexivity]. }
  induction HA as [|self1 fuel W n X lam0 lam1 pts self2 tr HA IH E]; [repeat split|].
  destruct IH as (A & B & C & D & F).
  destruct (run_keeps _ _ _ _ _ _ _ _ _ _ ltac:(rewrite A; exact Hf) ltac:(rewrite A; exact Hv) ltac:(rewrite A, B; exact HC)
     ltac:(rewrite A, C; destruct (k_setRPtoC self) eqn:Es; [left; reflexivity|right; destruct HR as [HR|(HR1 & r & HR2)]; [discriminate|];
       split; [exact HR1|]; exists r; intros i; unfold run_RP in F; rewrite C, Es in F; rewrite F, HR2; reflexivity]) E) as (A' & B' & C' & D' & F').
  repeat split; congruence.
Qed.
