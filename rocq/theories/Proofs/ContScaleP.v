From Coq Require Import Reals List Arith Bool ZArith Lia Lra Psatz FunctionalExtensionality.
From Verif.Lib Require Import RSum Calc LinAlg Py.
From Verif.Spec Require Import Calculus Harmonic System Continuation.
From Verif.Model Require Import VibSys Solver Continuation.
From Verif.Proofs Require Import HarmonicP VibSysP VibControlP VprnmP ContP ContLoopP ContRunP ContEndP ContCasesP.
Import ListNotations.
Open Scope R_scope.

(** * residuals of the returned points, for every scaling *)
Lemma max_diag_largest d : forall n, (0 < n)%nat -> largest n d (max_diag n d).
Proof.
  induction n as [|n IH]; intros Hn; [lia|]. destruct n as [|n].
  - cbn. split; [exists 0%nat; split; [lia|reflexivity]|]. intros i Hi. replace i with 0%nat by lia. lra.
  - specialize (IH ltac:(lia)). change (max_diag (S (S n)) d) with (Rmax (max_diag (S n) d) (Rabs (d (S n)))). destruct IH as [(i0 & H0 & E0) HB]. split.
    + unfold Rmax. destruct (Rle_dec (max_diag (S n) d) (Rabs (d (S n)))); [exists (S n); split; [lia|reflexivity]|exists i0; split; [lia|exact E0]].
    + intros i Hi. destruct (Nat.eq_dec i (S n)) as [->|Ne]; [apply Rmax_r|]. eapply Rle_trans; [apply HB; lia|apply Rmax_l].
Qed.
Lemma predict_dynamic W n k C s b p pv dp d s' : (0 < n)%nat -> predict W n k C s b true p pv dp = Ok (d, s') ->
  exists Rr dX dl m, w_fun W p true = Ok (Rr, Some (dX, dl)) /\ largest n (fun i => dX i i * C i) m /\ s' = Num (1 / m).
Proof.
  intros Hn H. unfold predict in H. apply bind_ok in H. destruct H as ([Rr G] & EF & H). destruct G as [[dX dl]|]; [|discriminate].
  apply bind_ok in H. destruct H as (d0 & _ & H). injection H as _ <-. exists Rr, dX, dl, (max_diag n (fun i => predict_matrix n C dX dl dp i i)).
  split; [exact EF|]. split; [|reflexivity]. destruct (max_diag_largest (fun i => predict_matrix n C dX dl dp i i) n Hn) as [(i & Hi & E) HB].
  assert (D : forall j, (j < n)%nat -> predict_matrix n C dX dl dp j j = dX j j * C j) by (intros j Hj; unfold predict_matrix; rewrite (proj2 (Nat.ltb_lt j n) Hj); reflexivity).
  split; [exists i; split; [exact Hi|]; rewrite E, D by exact Hi; reflexivity|]. intros j Hj. rewrite <- D by exact Hj. apply HB. exact Hj.
Qed.
Lemma predict_fixed W n k C s b p pv dp d s' : predict W n k C s b false p pv dp = Ok (d, s') ->
  s' = Num (match s with Num r => r | Vec v => rsum (n + 1) v / INR (n + 1) end).
Proof.
  intros H. unfold predict in H. apply bind_ok in H. destruct H as ([Rr G] & EF & H). destruct G as [[dX dl]|]; [|discriminate].
  apply bind_ok in H. destruct H as (d0 & _ & H). injection H as _ <-. reflexivity.
Qed.
Lemma step_residual W n conf Q C0 tol p p' d : c_corrector conf <> OtherCorrector -> sound_solver n tol W ->
  step_found W n conf Q false C0 p p' d -> exists k C s b pv dp dir s', predict W n k C s b (c_DynamicCtoP conf) p pv dp = Ok (dir, s') /\ Q s' /\
    (c_DynamicCtoP conf = true -> C = (fun i => Rmax (Rabs (p i)) (C0 i))) /\ residual_below W n (sc s' 0) tol p'.
Proof.
  intros Hcor HS (st & Xc' & (k & x0 & Xc2 & EX & K & S) & (k2 & s2 & pv & dp & Ep & _ & Hq) & Hc & EX' & Hp' & _ & Hs & Hdy).
  rewrite (Hs eq_refl) in S. rewrite EX' in EX. injection EX as <-.
  destruct (HS _ _ _ _ _ S) as (Rr & G & EF & HB). rewrite (proj2 (Nat.eqb_neq k 0)) in HB by lia.
  rewrite correct_unfold in EF by exact Hcor.
  apply bind_ok in EF. destruct EF as ([R1 G1] & EF1 & EF). cbv zeta in EF. destruct G1 as [[dX dl]|]; [|discriminate]. injection EF as <- _.
  exists k2, (l_CtoP st), s2, (l_b st), pv, dp, (l_dirC st), (l_RPtoC st). split; [rewrite <- Hc; exact Ep|]. split; [exact Hq|]. split; [exact Hdy|].
  exists R1, (Some (dX, dl)). split; [rewrite Hp', <- EF1; f_equal; apply functional_extensionality; intros; ring|].
  intros i Hi. specialize (HB i ltac:(lia)). cbv beta in HB. rewrite ltb_t in HB by exact Hi. exact HB.
Qed.

Lemma run_scales self i : run_RP self i = residual_scale self i /\ run_CtoP self i = unknown_scale self i.
Proof. unfold run_RP, residual_scale, run_CtoP, unknown_scale. destruct (k_setRPtoC self), (k_setCtoP self); split; reflexivity. Qed.

Lemma scaled_residuals fuel W n self X0 lam0 lam1 pts self' tr tol : (0 < n)%nat -> reachable self -> (0 <= c_verbose (k_conf self))%Z ->
  c_corrector (k_conf self) <> OtherCorrector -> sound_solver n tol W ->
  continuation fuel W n self X0 lam0 lam1 = Ok (pts, self', tr) ->
  exists p0 rest, pts = p0 :: rest /\
    (exists Rr G, w_fun W p0 true = Ok (Rr, G) /\ forall i, (i < n)%nat -> Rabs (residual_scale self i * Rr i) <= tol) /\
    (if c_DynamicCtoP (k_conf self) then consecutive (relative_below W n (unknown_scale self) tol) pts
     else Forall (residual_below W n (rsum (n + 1) (residual_scale self) / INR (n + 1)) tol) rest).
Proof.
  intros Hn HR Hv Hcor HS E. set (mean := rsum (n + 1) (residual_scale self) / INR (n + 1)).
  set (Q := fun s : scale => c_DynamicCtoP (k_conf self) = false -> s = Vec (run_RP self) \/ s = Num mean).
  assert (HQ : forall k C s b p pv dp d s', Q s -> predict W n k C s b (c_DynamicCtoP (k_conf self)) p pv dp = Ok (d, s') -> Q s').
  { intros k C s b p pv dp d s' Hs H Ed. rewrite Ed in H. apply predict_fixed in H. right. rewrite H. f_equal. destruct (Hs Ed) as [->| ->]; [|reflexivity].
    unfold mean. f_equal. apply rsum_ext. intros i _. apply run_scales. }
  destruct (continuation_facts _ _ _ _ _ _ _ _ _ _ _ HQ (fun _ => or_introl eq_refl) (reachable_frac _ HR) E) as (Xc & nf & p0 & rpts & dirs & trace & E0 & Hp0 & HP & Hpts & _).
  rewrite (proj2 (Z.ltb_ge _ _) Hv) in HP.
  assert (Hd : c_DynamicCtoP (run_conf self) = c_DynamicCtoP (k_conf self)) by (unfold run_conf; destruct (Z.ltb _ 0); reflexivity).
  assert (Hc' : c_corrector (run_conf self) <> OtherCorrector) by (unfold run_conf; destruct (Z.ltb _ 0); exact Hcor).
  set (P := fun p p' : vec => if c_DynamicCtoP (k_conf self) then relative_below W n (unknown_scale self) tol p p' else residual_below W n mean tol p').
  assert (HPP : forall p p' d, step_found W n (run_conf self) Q false (run_CtoP self) p p' d -> P p p').
  { intros p p' d H. destruct (step_residual _ _ _ _ _ _ _ _ _ Hc' HS H) as (k & C & s & b & pv & dp & dir & s' & Ep & Hq & HC & HB). unfold P. rewrite Hd in Ep, HC.
    destruct (c_DynamicCtoP (k_conf self)) eqn:Ed.
    - destruct (predict_dynamic _ _ _ _ _ _ _ _ _ _ _ Hn Ep) as (Rr & dX & dl & m & E1 & E2 & ->). exists Rr, dX, dl, m. split; [exact E1|].
      split; [|intros Hm; destruct HB as (R1 & G1 & F1 & HB); exists R1, G1; split; [exact F1|]; intros i Hi; specialize (HB i Hi); cbn [sc] in HB;
               rewrite Rabs_mult, (Rabs_pos_eq (1 / m)) in HB by (apply Rlt_le, Rdiv_lt_0_compat; lra); rewrite Rmult_1_l;
               apply (Rmult_le_compat_r m) in HB; [|lra]; replace (1 / m * Rabs (R1 i) * m) with (Rabs (R1 i)) in HB by (field; lra); exact HB].
      rewrite (HC eq_refl) in E2. destruct E2 as [(i & Hi & Em) HL]. split.
      + exists i. split; [exact Hi|]. rewrite Em. rewrite (proj2 (run_scales self i)). reflexivity.
      + intros j Hj. rewrite <- (proj2 (run_scales self j)). apply HL. exact Hj.
    - assert (Es : s' = Num mean); [|rewrite Es in HB; exact HB].
      pose proof (predict_fixed _ _ _ _ _ _ _ _ _ _ _ Ep) as EE. destruct (Hq eq_refl) as [E3|E3]; [rewrite E3 in EE; discriminate|exact E3]. }
  destruct (path_rev_consecutive _ _ _ _ _ _ _ _ HPP _ _ HP) as [HC (r & Hr)]. rewrite <- Hpts in HC, Hr. exists p0, r. split; [exact Hr|]. split.
  - destruct (HS _ _ _ _ _ E0) as (Rr & G & EF & HB). unfold conditioning_wrapper, conditioned_fun, initial_fun in EF.
    apply bind_ok in EF. destruct EF as ([R1 G1] & EF1 & EF). apply bind_ok in EF1. destruct EF1 as ([R2 G2] & EF2 & EF1). injection EF1 as <- <-.
    destruct G2 as [[dX dl]|]; [|discriminate]. injection EF as <- _. exists R2, (Some (dX, dl)). split; [rewrite Hp0; exact EF2|].
    intros i Hi. specialize (HB i Hi). cbn [sc] in HB. rewrite (proj1 (run_scales self i)) in HB. exact HB.
  - unfold P in HC. rewrite Hr in HC |- *. destruct (c_DynamicCtoP (k_conf self)); [exact HC|].
    clear - HC. revert p0 HC. induction r as [|q r IH]; intros p0 HC; [constructor|]. cbn [consecutive] in HC. destruct HC as [H1 H2]. constructor; [exact H1|]. apply (IH q). exact H2.
Qed.

(** * several weights: the points of later runs *)
Lemma predict_any_weight W n k C s b b' dyn p pv dp :
  match predict W n k C s b dyn p pv dp with
  | Ok (_, s') => exists d', predict W n k C s b' dyn p pv dp = Ok (d', s')
  | Err e => predict W n k C s b' dyn p pv dp = Err e
  end.
Proof.
  unfold predict. destruct (w_fun W p true) as [[Rr G]|e]; cbn [bind]; [|reflexivity]. destruct G as [[dX dl]|]; [|reflexivity].
  destruct (w_lin W k (predict_matrix n C dX dl dp) _) as [d0|e]; cbn [bind]; [|reflexivity]. eexists. reflexivity.
Qed.

(** states that differ in the weight only *)
Definition reweight (st : loop_state) (b : R) : loop_state :=
  mkSt (l_CtoP st) (l_RPtoC st) b (l_ds st) (l_prev st) (l_cur st) (l_dirC st) (l_k st) (l_XlamC st) (l_success st) (l_nfev st) (l_trace st).
Lemma main_reweight W n conf fuel silent C0 direct lam0 lam1 todo pts st b : c_FracLamList conf <> [] ->
  match main_loop todo fuel W n conf silent C0 direct lam0 lam1 pts st with
  | Ok (ps, st') => exists b', main_loop todo fuel W n conf silent C0 direct lam0 lam1 pts (reweight st b) = Ok (ps, reweight st' b')
  | Err e => main_loop todo fuel W n conf silent C0 direct lam0 lam1 pts (reweight st b) = Err e
  end.
Proof.
  intros Hfl. destruct todo as [|todo]; cbn [main_loop]; [exists b; reflexivity|]. cbv zeta. unfold reweight; cbn [l_cur l_CtoP l_RPtoC l_ds l_prev l_dirC l_k l_XlamC l_success l_nfev l_trace].
  destruct (in_range _ _ _ _ _); [|exists b; reflexivity]. destruct (c_FracLamList conf) as [|b1 fl]; [contradiction|]. cbn [frac_loop l_cur l_CtoP l_RPtoC l_ds l_prev l_dirC l_k l_trace].
  match goal with |- match ?x with Ok _ => _ | Err _ => _ end => destruct x as [[ps st']|e] end; [exists (l_b st'); destruct st'; reflexivity|reflexivity].
Qed.

Lemma main_weight W n ca f fuel : forall t si C d l0 l1 ps st, main_loop t fuel W n (set_FracLam ca f) si C d l0 l1 ps st = main_loop t fuel W n ca si C d l0 l1 ps st.
Proof.
  induction t as [|t IH]; intros si C d l0 l1 ps st; [reflexivity|]. cbn [main_loop]. cbv zeta. cbn [set_FracLam c_DynamicCtoP c_FracLamList c_callback].
    replace (in_range (set_FracLam ca f)) with (in_range ca) by reflexivity. destruct (in_range ca _ _ _ _); [|reflexivity].
    assert (RT : forall fu RP s, retry fu W n (set_FracLam ca f) RP s = retry fu W n ca RP s).
    { induction fu as [|fu IHf]; intros RP s; cbn [retry]; [reflexivity|]. cbn [set_FracLam c_dsmin c_corrector]. destruct (negb _ && _)%bool; [|reflexivity].
      match goal with |- bind ?x _ = _ => destruct x as [[Xs nfe]|e] end; cbn [bind]; [apply IHf|reflexivity]. }
    assert (FL : forall fl s, frac_loop fuel W n (set_FracLam ca f) fl s = frac_loop fuel W n ca fl s).
    { induction fl as [|b0 fl IHf]; intros s; [reflexivity|]. cbn [frac_loop]. cbn [set_FracLam c_DynamicCtoP c_corrector].
      match goal with |- bind ?x _ = _ => destruct x as [[dC RPc]|e] end; cbn [bind]; [|reflexivity].
      match goal with |- bind ?x _ = _ => destruct x as [[Xs nfe]|e] end; cbn [bind]; [|reflexivity].
      rewrite RT. match goal with |- bind ?x _ = _ => destruct x as [s2|e] end; cbn [bind]; [|reflexivity]. destruct (l_success s2); [reflexivity|apply IHf]. }
    rewrite FL. match goal with |- bind ?x _ = _ => destruct x as [s1|e] end; cbn [bind]; [|reflexivity].
    destruct (negb _ && negb _)%bool; [reflexivity|]. destruct (l_XlamC s1); [|reflexivity]. destruct (Nat.eqb _ 0); [reflexivity|]. apply IH.
Qed.

(** objects whose runs differ in the weight only *)
Definition similar (a b : cont) : Prop := k_conf b = set_FracLam (k_conf a) (c_FracLam (k_conf b)) /\ run_CtoP a = run_CtoP b /\ run_RP a = run_RP b.
Lemma similar_run a b fuel W n X lam0 lam1 : (0 <= c_verbose (k_conf a))%Z -> c_FracLamList (k_conf a) <> [] -> similar a b ->
  visible (continuation fuel W n b X lam0 lam1) = visible (continuation fuel W n a X lam0 lam1) /\
  (c_callback (k_conf a) = false -> outcome (continuation fuel W n b X lam0 lam1) = outcome (continuation fuel W n a X lam0 lam1)).
Proof.
  intros Hv Hfl (E1 & E2 & E3). unfold continuation. cbv zeta. fold (run_conf a) (run_conf b) (run_CtoP a) (run_CtoP b) (run_RP a) (run_RP b).
  rewrite <- E2, <- E3.
  assert (Ca : run_conf a = k_conf a) by (unfold run_conf; rewrite (proj2 (Z.ltb_ge _ _) Hv); reflexivity).
  assert (Hvb : c_verbose (k_conf b) = c_verbose (k_conf a)) by (rewrite E1; reflexivity).
  assert (Cb : run_conf b = k_conf b) by (unfold run_conf; rewrite Hvb, (proj2 (Z.ltb_ge _ _) Hv); reflexivity).
  rewrite Ca, Cb, Hvb. set (ca := k_conf a) in *. set (f := c_FracLam (k_conf b)) in *. rewrite E1. clear E1.
  match goal with |- context [bind (w_nsolve W 0%nat ?g ?x) _] => destruct (w_nsolve W 0%nat g x) as [[[Xc ok] nf]|e] end; cbn [bind fst snd]; [|split; reflexivity].
  destruct ok; [|split; reflexivity]. cbn [set_FracLam c_MaxSteps c_callback c_ds0 c_FracLam c_DynamicCtoP]. destruct (c_MaxSteps ca) as [|todo]; [split; reflexivity|].
  rewrite main_weight.
  match goal with |- context [main_loop todo fuel W n ca ?si ?C ?d ?l0 ?l1 ?p (mkSt ?x1 ?x2 (c_FracLam ca) ?x4 ?x5 ?x6 ?x7 ?x8 ?x9 ?y1 ?y2 ?y3)] =>
    pose proof (main_reweight W n ca fuel si C d l0 l1 todo p (mkSt x1 x2 (c_FracLam ca) x4 x5 x6 x7 x8 x9 y1 y2 y3) f Hfl) as HM; unfold reweight in HM; cbn [l_cur l_CtoP l_RPtoC l_ds l_prev l_dirC l_k l_XlamC l_success l_nfev l_trace] in HM;
    destruct (main_loop todo fuel W n ca si C d l0 l1 p (mkSt x1 x2 (c_FracLam ca) x4 x5 x6 x7 x8 x9 y1 y2 y3)) as [[ps st]|e] end.
  2:{ rewrite HM. cbn [bind]. split; reflexivity. }
  destruct HM as (b' & HM). rewrite HM. unfold reweight; cbn [bind l_cur l_CtoP l_RPtoC l_ds l_prev l_dirC l_k l_XlamC l_success l_nfev l_trace l_b].
  destruct (c_callback ca) eqn:Ecb; [|cbn [bind]; split; reflexivity]. split; [|discriminate].
  destruct (l_success st); [|cbn [bind visible]; reflexivity].
  pose proof (predict_any_weight W n (l_k st) (l_CtoP st) (l_RPtoC st) (l_b st) b' (c_DynamicCtoP ca) (l_cur st) (l_prev st) (l_dirC st)) as HPW.
  destruct (predict W n (l_k st) (l_CtoP st) (l_RPtoC st) (l_b st) (c_DynamicCtoP ca) (l_cur st) (l_prev st) (l_dirC st)) as [[d s']|e].
  - destruct HPW as (d' & HPW). rewrite HPW. cbn [bind visible rev]. rewrite !map_app. reflexivity.
  - rewrite HPW. reflexivity.
Qed.

Lemma run_keeps_scales fuel W n self X lam0 lam1 pts self' tr : (0 <= c_verbose (k_conf self))%Z ->
  (k_setCtoP self = true \/ c_DynamicCtoP (k_conf self) = false) ->
  (k_setRPtoC self = true \/ (c_DynamicCtoP (k_conf self) = false /\ exists r, forall i, sc (k_RPtoC self) i = r)) ->
  continuation fuel W n self X lam0 lam1 = Ok (pts, self', tr) ->
  k_conf self' = set_FracLam (k_conf self) (c_FracLam (k_conf self')) /\ k_setCtoP self' = k_setCtoP self /\ k_setRPtoC self' = k_setRPtoC self /\
  run_CtoP self' = run_CtoP self /\ run_RP self' = run_RP self.
Proof.
  intros Hv HC HRP E. unfold continuation in E. cbv zeta in E. fold (run_conf self) (run_CtoP self) (run_RP self) in E.
  assert (Ec : run_conf self = k_conf self) by (unfold run_conf; rewrite (proj2 (Z.ltb_ge _ _) Hv); reflexivity). rewrite Ec in E.
  apply bind_ok in E. destruct E as ([[Xc ok] nf] & E0 & E). cbn [fst snd] in E. destruct ok; [|discriminate].
  destruct (c_MaxSteps (k_conf self)) as [|todo]; [discriminate|].
  apply bind_ok in E. destruct E as ([rpts st] & E1 & E). apply bind_ok in E. destruct E as ([RPe trace] & E2 & E). injection E as _ <- _.
  cbn [k_conf k_setCtoP k_setRPtoC]. split; [reflexivity|]. split; [reflexivity|]. split; [reflexivity|]. split.
  - unfold run_CtoP. cbn. destruct (k_setCtoP self) eqn:Es; [reflexivity|]. destruct HC as [HC|HC]; [discriminate|].
    assert (K : forall todo pts st pts' st', main_loop todo fuel W n (k_conf self) (Z.ltb (c_verbose (k_conf self)) 0) (run_CtoP self) (Rsign (lam1 - lam0)) lam0 lam1 pts st = Ok (pts', st') -> l_CtoP st' = l_CtoP st).
    { clear - HC. induction todo as [|todo IH]; intros pts st pts' st' H; cbn [main_loop] in H; [injection H as <- <-; reflexivity|]. cbv zeta in H.
      destruct (in_range _ _ _ _ _); [|injection H as <- <-; reflexivity]. apply bind_ok in H. destruct H as (s1 & E1 & H).
      destruct (frac_keeps _ _ _ _ _ _ _ E1) as [A _]. cbn [l_CtoP] in A. rewrite HC in A.
      destruct (negb _ && negb _)%bool; [injection H as <- <-; exact A|]. destruct (l_XlamC s1); [|discriminate]. destruct (Nat.eqb _ 0); [discriminate|].
      rewrite (IH _ _ _ _ H). cbn. exact A. }
    rewrite (K _ _ _ _ _ E1). cbn. unfold run_CtoP. rewrite Es. reflexivity.
  - unfold run_RP. cbn [k_setRPtoC k_RPtoC]. destruct (k_setRPtoC self) eqn:Es; [reflexivity|]. destruct HRP as [HRP|[Hd (r & Hr)]]; [discriminate|].
    set (Q := fun s : scale => (exists v, s = Vec v /\ v = sc (k_RPtoC self)) \/ s = Num r).
    assert (HQ : forall k C s b p pv dp d s', Q s -> predict W n k C s b (c_DynamicCtoP (k_conf self)) p pv dp = Ok (d, s') -> Q s').
    { intros k C s b p pv dp d s' Hs Hp. right. rewrite Hd in Hp. eapply predict_scale; [|exact Hp].
      destruct Hs as [(v & -> & ->)| ->]; [intros i _; apply Hr|reflexivity]. }
    assert (HQ1 : Q (l_RPtoC st)).
    { eapply main_scale; [exact HQ|exact E1|]. left. cbn. eexists. split; [reflexivity|]. unfold run_RP. rewrite Es. reflexivity. }
    assert (HQ2 : Q RPe).
    { destruct (c_callback (k_conf self)); [|injection E2 as <- _; exact HQ1]. destruct (l_success st); [|injection E2 as <- _; exact HQ1].
      apply bind_ok in E2. destruct E2 as ([d RP] & Ep & E2). injection E2 as <- _. eapply HQ; [exact HQ1|exact Ep]. }
    destruct HQ2 as [(v & -> & ->)| ->]; [reflexivity|]. apply functional_extensionality. intros i. rewrite Hr. reflexivity.
Qed.

(** a run that makes a step forgets the weight of the object *)
Definition makes_steps (conf : config) : Prop := (2 <= c_MaxSteps conf)%nat /\ match c_backtrackStop conf with Some bs => 0 < bs | None => True end.
Lemma sign_square lam0 lam1 : lam0 <> lam1 -> Rsign (lam1 - lam0) * Rsign (lam1 - lam0) = 1 /\ Rsign (lam1 - lam0) * lam0 < Rsign (lam1 - lam0) * lam1.
Proof. intros H. unfold Rsign. destruct (Rlt_dec 0 (lam1 - lam0)); [lra|]. destruct (Rlt_dec (lam1 - lam0) 0); lra. Qed.
Lemma start_in_range conf lam0 lam1 : lam0 <> lam1 -> makes_steps conf -> in_range conf (Rsign (lam1 - lam0)) lam0 lam1 lam0 = true.
Proof.
  intros H (_ & Hb). destruct (sign_square lam0 lam1 H) as [H1 H2]. unfold in_range. rewrite (proj2 (Rltb_true _ _) H2). cbn [andb].
  destruct (c_backtrackStop conf) as [bs|]; [|reflexivity]. apply Rltb_true. set (g := Rsign (lam1 - lam0)) in *. nra.
Qed.
Lemma in_range_steps conf lam0 lam1 : in_range conf (Rsign (lam1 - lam0)) lam0 lam1 lam0 = true -> match c_backtrackStop conf with Some bs => 0 < bs | None => True end.
Proof.
  unfold in_range. intros H. apply andb_prop in H. destruct H as [H1 H2]. apply Rltb_true in H1. destruct (c_backtrackStop conf) as [bs|]; [|exact I]. apply Rltb_true in H2.
  assert (N : lam0 <> lam1) by (intros ->; lra). destruct (sign_square lam0 lam1 N) as [H3 _]. set (g := Rsign (lam1 - lam0)) in *. nra.
Qed.
Lemma main_forgets W n conf fuel silent C0 direct lam0 lam1 todo (p : vec) st b : c_FracLamList conf <> [] -> (0 < todo)%nat -> in_range conf direct lam0 lam1 (p n) = true ->
  main_loop todo fuel W n conf silent C0 direct lam0 lam1 [p] (reweight st b) = main_loop todo fuel W n conf silent C0 direct lam0 lam1 [p] st.
Proof.
  intros Hfl Ht Hin. destruct todo as [|todo]; [lia|]. cbn [main_loop]. cbv zeta. unfold reweight; cbn [l_cur l_CtoP l_RPtoC l_ds l_prev l_dirC l_k l_XlamC l_success l_nfev l_trace].
  rewrite Hin. destruct (c_FracLamList conf) as [|b1 fl]; [contradiction|]. reflexivity.
Qed.
Lemma similar_same a b fuel W n X lam0 lam1 : (0 <= c_verbose (k_conf a))%Z -> c_FracLamList (k_conf a) <> [] -> similar a b ->
  c_FracLam (k_conf b) = c_FracLam (k_conf a) \/ makes_steps (k_conf a) -> lam0 <> lam1 ->
  outcome (continuation fuel W n b X lam0 lam1) = outcome (continuation fuel W n a X lam0 lam1).
Proof.
  intros Hv Hfl (E1 & E2 & E3) Hw Hlam.
  assert (Ca : run_conf a = k_conf a) by (unfold run_conf; rewrite (proj2 (Z.ltb_ge _ _) Hv); reflexivity).
  assert (Hvb : c_verbose (k_conf b) = c_verbose (k_conf a)) by (rewrite E1; reflexivity).
  assert (Cb : run_conf b = k_conf b) by (unfold run_conf; rewrite Hvb, (proj2 (Z.ltb_ge _ _) Hv); reflexivity).
  destruct Hw as [Hw|Hs].
  { apply equiv_run. unfold equiv. rewrite Ca, Cb, Hvb, <- E2, <- E3. repeat split. rewrite E1, Hw. destruct (k_conf a); reflexivity. }
  unfold continuation. cbv zeta. fold (run_conf a) (run_conf b) (run_CtoP a) (run_CtoP b) (run_RP a) (run_RP b).
  rewrite <- E2, <- E3. rewrite Ca, Cb, Hvb. set (ca := k_conf a) in *. set (f := c_FracLam (k_conf b)) in *. rewrite E1. clear E1.
  match goal with |- context [bind (w_nsolve W 0%nat ?g ?x) _] => destruct (w_nsolve W 0%nat g x) as [[[Xc ok] nf]|e] end; cbn [bind fst snd]; [|reflexivity].
  destruct ok; [|reflexivity]. cbn [set_FracLam c_MaxSteps c_callback c_ds0 c_FracLam c_DynamicCtoP]. destruct (c_MaxSteps ca) as [|todo] eqn:EM; [reflexivity|].
  rewrite main_weight.
  match goal with |- context [main_loop todo fuel W n ca ?si ?C ?d ?l0 ?l1 [?p] (mkSt ?x1 ?x2 (c_FracLam ca) ?x4 ?x5 ?x6 ?x7 ?x8 ?x9 ?y1 ?y2 ?y3)] =>
    pose proof (main_forgets W n ca fuel si C d l0 l1 todo p (mkSt x1 x2 (c_FracLam ca) x4 x5 x6 x7 x8 x9 y1 y2 y3) f Hfl) as HM end.
  unfold reweight in HM; cbn [l_cur l_CtoP l_RPtoC l_ds l_prev l_dirC l_k l_XlamC l_success l_nfev l_trace] in HM. rewrite HM; clear HM.
  2:{ destruct Hs as [Hs _]. rewrite EM in Hs. lia. }
  2:{ rewrite with_entry_n. apply start_in_range; [exact Hlam|exact Hs]. }
  match goal with |- context [bind (main_loop ?a ?b ?c ?d ?e ?f ?g ?h ?i ?j ?k ?l) _] => destruct (main_loop a b c d e f g h i j k l) as [[ps st]|e0] end; cbn [bind]; [|reflexivity].
  match goal with |- context [bind ?r _] => destruct r as [[q1 q2]|e0] end; reflexivity.
Qed.
Lemma run_weight fuel W n self X lam0 lam1 pts self' tr : (0 <= c_verbose (k_conf self))%Z ->
  continuation fuel W n self X lam0 lam1 = Ok (pts, self', tr) -> c_FracLam (k_conf self') = c_FracLam (k_conf self) \/ makes_steps (k_conf self).
Proof.
  intros Hv E. unfold continuation in E. cbv zeta in E. fold (run_conf self) (run_CtoP self) (run_RP self) in E.
  assert (Ec : run_conf self = k_conf self) by (unfold run_conf; rewrite (proj2 (Z.ltb_ge _ _) Hv); reflexivity). rewrite Ec in E.
  apply bind_ok in E. destruct E as ([[Xc ok] nf] & E0 & E). cbn [fst snd] in E. destruct ok; [|discriminate].
  destruct (c_MaxSteps (k_conf self)) as [|todo] eqn:EM; [discriminate|].
  apply bind_ok in E. destruct E as ([rpts st] & E1 & E). apply bind_ok in E. destruct E as ([RPe trace] & E2 & E). injection E as _ <- _.
  cbn [k_conf set_FracLam c_FracLam]. destruct todo as [|todo]; [cbn in E1; injection E1 as _ <-; left; reflexivity|].
  cbn [main_loop] in E1. cbv zeta in E1. set (start := with_entry n (fun i => Xc i * run_CtoP self i) lam0) in *.
  assert (Es : start n = lam0) by (unfold start; apply with_entry_n). rewrite Es in E1.
  destruct (in_range (k_conf self) _ lam0 lam1 lam0) eqn:Ein; [right|left; injection E1 as _ <-; reflexivity].
  split; [rewrite EM; lia|]. eapply in_range_steps. exact Ein.
Qed.

Lemma points_kept self self' : reachable self -> kept_scales self -> after_runs self self' -> forall fuel W n X lam0 lam1,
  visible (continuation fuel W n self' X lam0 lam1) = visible (continuation fuel W n self X lam0 lam1) /\
  (c_callback (k_conf self) = false \/ lam0 <> lam1 -> outcome (continuation fuel W n self' X lam0 lam1) = outcome (continuation fuel W n self X lam0 lam1)).
Proof.
  intros HRe (Hv & HC & HR) HA.
  enough (H : (k_conf self' = set_FracLam (k_conf self) (c_FracLam (k_conf self')) /\ k_setCtoP self' = k_setCtoP self /\ k_setRPtoC self' = k_setRPtoC self /\ run_CtoP self' = run_CtoP self /\ run_RP self' = run_RP self) /\
              (c_FracLam (k_conf self') = c_FracLam (k_conf self) \/ makes_steps (k_conf self))).
  { destruct H as ((A & _ & _ & D & F) & G). intros fuel W n X lam0 lam1. assert (SI : similar self self') by (split; [exact A|]; split; symmetry; assumption).
    destruct (similar_run self self' fuel W n X lam0 lam1 Hv (reachable_frac _ HRe) SI) as [V O]. split; [exact V|]. intros [H|H]; [apply O; exact H|].
    apply similar_same; [exact Hv|apply reachable_frac; exact HRe|exact SI|exact G|exact H]. }
  induction HA as [|self1 fuel W n X lam0 lam1 pts self2 tr HA IH E]; [split; [split; [destruct (k_conf self); reflexivity|]; repeat split|left; reflexivity]|].
  destruct IH as ((A & B & C & D & F) & G).
  destruct (run_keeps_scales _ _ _ _ _ _ _ _ _ _ ltac:(rewrite A; exact Hv) ltac:(rewrite A, B; exact HC)
     ltac:(rewrite A, C; destruct (k_setRPtoC self) eqn:Es; [left; reflexivity|right; destruct HR as [HR|(HR1 & r & HR2)]; [discriminate|];
       split; [exact HR1|]; exists r; intros i; unfold run_RP in F; rewrite C, Es in F; rewrite F, HR2; reflexivity]) E) as (A' & B' & C' & D' & F').
  split; [split; [rewrite A', A; reflexivity|]; repeat split; congruence|].
  destruct (run_weight _ _ _ _ _ _ _ _ _ _ ltac:(rewrite A; exact Hv) E) as [G'|G'].
  - rewrite G'. exact G.
  - right. rewrite A in G'. exact G'.
Qed.

(** * a run with DynamicCtoP along the line X = lam, two weights *)
Definition dynamic_cont : cont := cont_new None None (mkConf (1 / 2) 1 1 1 2 20 true 0 Ortho [1 / 2] None (6 / 5) false).
Lemma dynamic_predict d s' C : C = (fun _ => 1) ->
  predict line_world 1 1 (fun _ => 1) (Vec (fun _ => 1)) (1 / 2) false (line_p 1) (line_p (1 - 1)) (fun i => line_p 1 i - line_p (1 - 1) i) = Ok (d, s') ->
  predict line_world 1 1 C (Vec (fun _ => 1)) (1 / 2) true (line_p 1) (line_p (1 - 1)) (fun i => line_p 1 i - line_p (1 - 1) i) = Ok (d, Num 1).
Proof.
  intros -> H. unfold predict in *. cbn [w_fun line_world bind] in *. match goal with |- bind ?x _ = _ => destruct x as [d0|e] end; [|discriminate]. cbn [bind] in *.
  apply (f_equal (fun r => match r with Ok (a, _) => a | Err _ => d end)) in H. cbv beta iota in H. f_equal. apply f_equal2; [exact H|]. cbn. rewrite Rmult_1_l, Rabs_R1. f_equal. field.
Qed.
Lemma dynamic_run : exists p1 p2 self' tr,
  continuation 0 line_world 1 dynamic_cont (fun _ => 1) 1 2 = Ok ([p1; p2], self', tr) /\ p1 0%nat = 1 /\ p1 1%nat = 1 /\ p2 0%nat = 2 /\ p2 1%nat = 2.
Proof.
  set (self := dynamic_cont).
  assert (Fl : c_FracLamList (k_conf self) = [1 / 2]) by (cbn; destruct (Req_EM_T (1 / 2) (1 / 2)); [reflexivity|lra]).
  assert (Ec : run_conf self = k_conf self) by reflexivity.
  assert (S1 : Rsign (2 - 1) = 1) by (unfold Rsign; destruct (Rlt_dec 0 (2 - 1)); lra).
  assert (HC : dyn_CtoP (run_conf self) (run_CtoP self) (run_CtoP self) (with_entry 1 (fun i => 1 / 1 * run_CtoP self i) 1) = (fun _ => 1)).
  { unfold dyn_CtoP. cbn [run_conf self dynamic_cont cont_new k_conf set_FracLamList c_verbose Z.ltb Z.compare c_DynamicCtoP]. apply functional_extensionality. intros i.
    unfold run_CtoP. cbn [self dynamic_cont cont_new k_setCtoP]. unfold with_entry. destruct (Nat.ltb i 1); [replace (1 / 1 * 1) with 1 by field|]; rewrite Rabs_R1; apply Rmax_left; lra. }
  destruct line_predict as (dirC & Ed & D0 & D1).
  destruct (run_one 0 line_world 1 self (fun _ => 1) 1 2 (fun _ => 1 / 1) 1 (1 / 2) dirC (Num 1) (fun i => line_p 1 i / 1 + dirC i * 1) true 1) as (tr & E).
  - rewrite Ec. exact Fl.
  - reflexivity.
  - reflexivity.
  - rewrite Ec, S1. unfold in_range. cbn. rewrite (proj2 (Rltb_true _ _)) by lra. reflexivity.
  - cbn -[Rleb]. unfold try_solver. cbn -[Rleb]. replace (1 * _) with 0 by (unfold with_entry; cbn; field). rewrite Rabs_R0. rewrite (proj2 (Rleb_true 0 1)) by lra. reflexivity.
  - rewrite HC, S1. replace (fun i => 1 / 1 * run_CtoP self i) with (fun _ : nat => 1 * 1) by (apply functional_extensionality; intros; cbn; field).
    exact (dynamic_predict _ _ _ eq_refl Ed).
  - rewrite HC. cbn -[Rleb correct_res]. unfold try_solver. rewrite correct_unfold by discriminate. cbn -[Rleb arc_eq line_p].
    rewrite D0, D1. replace (1 * _) with 0 by field. rewrite Rabs_R0. rewrite (proj2 (Rleb_true 0 1)) by lra.
    assert (Z : fst (arc_eq Ortho 1 (fun i => with_entry 1 (fun _ : nat => 1 / 1 * 1) 1 i / 1 + dirC i * 1) (fun i => with_entry 1 (fun _ : nat => 1 / 1 * 1) 1 i / 1) dirC 1 (1 / 2)) = 0).
    { unfold arc_eq, orthogonal_arc_res, dot. cbn [fst]. cbn [rsum]. unfold Rdiv. ring_simplify. reflexivity. }
    rewrite Z, Rabs_R0. rewrite (proj2 (Rleb_true 0 1)) by lra. cbn [andb].
    replace (fun i : nat => line_p 1 i / 1 + dirC i * 1) with (fun i => with_entry 1 (fun _ : nat => 1 / 1 * 1) 1 i / 1 + dirC i * 1); [reflexivity|].
    apply functional_extensionality. intros i. unfold line_p, with_entry. destruct (Nat.ltb i 1); field.
  - discriminate.
  - left. reflexivity.
  - eexists _, _, _, tr. split; [exact E|]. rewrite HC. unfold line_p, with_entry. cbn. rewrite D0, D1. repeat split; field.
Qed.
