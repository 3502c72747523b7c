From Coq Require Import Reals List Arith Bool ZArith Lia Lra Psatz FunctionalExtensionality.
From Verif.Lib Require Import RSum Calc LinAlg Py.
From Verif.Spec Require Import Calculus Harmonic System Continuation.
From Verif.Model Require Import VibSys Solver Continuation.
From Verif.Proofs Require Import HarmonicP VibSysP VibControlP VprnmP ContP ContLoopP.
Import ListNotations.
Open Scope R_scope.

Lemma reachable_frac self : reachable self -> c_FracLamList (k_conf self) <> [].
Proof.
  induction 1 as [CtoP RPtoC conf|self fuel W n X lam0 lam1 pts self' tr HR IH E].
  - cbn. unfold init_FracLamList. destruct (c_FracLamList conf) as [|x l]; [discriminate|]. destruct (Req_EM_T x (c_FracLam conf)); discriminate.
  - unfold continuation in E. cbv zeta in E. apply bind_ok in E. destruct E as ([[Xc ok] nf] & _ & E). cbn [fst snd] in E.
    destruct ok; [|discriminate]. destruct (c_MaxSteps _); [discriminate|].
    apply bind_ok in E. destruct E as ([ps st] & _ & E). apply bind_ok in E. destruct E as ([RPe t] & _ & E). injection E as _ <- _.
    cbn [k_conf set_FracLam c_FracLamList]. destruct (Z.ltb _ 0); exact IH.
Qed.

Definition run_conf (self : cont) : config := if Z.ltb (c_verbose (k_conf self)) 0 then set_verbose (k_conf self) 0 else k_conf self.
Definition run_CtoP (self : cont) : vec := if k_setCtoP self then (fun _ => 1) else k_CtoP self.
Definition run_RP (self : cont) : vec := sc (if k_setRPtoC self then Vec (fun _ => 1) else k_RPtoC self).

Lemma continuation_facts fuel W n self X0 lam0 lam1 pts self' tr (Q : scale -> Prop) :
  (forall k C s b p pv dp d s', Q s -> predict W n k C s b (c_DynamicCtoP (k_conf self)) p pv dp = Ok (d, s') -> Q s') -> Q (Vec (run_RP self)) ->
  c_FracLamList (k_conf self) <> [] ->
  continuation fuel W n self X0 lam0 lam1 = Ok (pts, self', tr) ->
  let conf := run_conf self in let silent := Z.ltb (c_verbose (k_conf self)) 0 in
  exists Xc nf p0 rpts dirs trace,
    w_nsolve W 0 (conditioning_wrapper (initial_fun W n lam0) (run_CtoP self) (Vec (run_RP self))) (fun i => X0 i / run_CtoP self i) = Ok (Xc, true, nf) /\
    p0 = with_entry n (fun i => Xc i * run_CtoP self i) lam0 /\
    path W n conf Q silent (run_CtoP self) p0 rpts dirs /\ pts = rev rpts /\ tr = rev trace /\ (1 <= length pts <= c_MaxSteps conf)%nat /\
    rhalving conf trace /\ closed conf trace /\
    match rpts with _ :: r => Forall (fun p => in_range conf (Rsign (lam1 - lam0)) lam0 lam1 (p n) = true) r | [] => True end /\
    (if c_callback conf then exists dEnd, callbacks trace = CbEnd dEnd :: seen rpts dirs /\
       (silent = false -> sound_linear_solver n W -> exists p r, rpts = p :: r /\ exists k C s b dyn pv dp d s', predict W n k C s b dyn p pv dp = Ok (d, s') /\ dEnd = fun i => d i * C i)
     else callbacks trace = []) /\
    (0 <= c_dsmin conf -> c_dsmin conf <= c_ds0 conf <= c_dsmax conf -> Forall (in_bounds conf) trace).
Proof.
  intros HQ HQ0 Hfl E conf silent. unfold continuation in E. cbv zeta in E.
  fold (run_conf self) in E. fold (run_CtoP self) in E. fold (run_RP self) in E. fold conf in E. fold silent in E.
  apply bind_ok in E. destruct E as ([[Xc ok] nf] & E0 & E). cbn [fst snd] in E.
  destruct ok; [|discriminate]. destruct (c_MaxSteps conf) as [|todo] eqn:EM; [discriminate|].
  apply bind_ok in E. destruct E as ([rpts st] & E1 & E). apply bind_ok in E. destruct E as ([RPe trace] & E2 & E). injection E as <- <- <-.
  match type of E1 with main_loop _ _ _ _ _ _ _ _ _ _ [?p] ?s = _ => set (p0 := p) in *; set (s0 := s) in * end.
  assert (HQ' : forall k C s b p pv dp d s', Q s -> predict W n k C s b (c_DynamicCtoP conf) p pv dp = Ok (d, s') -> Q s') by (unfold conf, run_conf; destruct (Z.ltb _ 0); exact HQ).
  assert (Hfl' : c_FracLamList conf <> []) by (unfold conf, run_conf; destruct (Z.ltb _ 0); exact Hfl).
  assert (HO : outer W n conf Q silent (run_CtoP self) (Rsign (lam1 - lam0)) lam0 lam1 p0 [p0] [] s0).
  { constructor.
    - reflexivity.
    - exists []. reflexivity.
    - cbn. unfold add_event. destruct (c_callback conf); intros a ds b bf EE Ne; [destruct a as [|x [|y a]]; [contradiction|discriminate|discriminate]|destruct a; discriminate].
    - cbn. unfold add_event. destruct (c_callback conf); cbn; tauto.
    - cbn. unfold add_event. destruct (c_callback conf); reflexivity.
    - constructor.
    - exact HQ0.
    - reflexivity. }
  destruct (main_outer W n conf Q HQ' silent (run_CtoP self) _ _ _ p0 fuel Hfl' _ _ _ _ _ _ E1 HO) as (dirs & pts1 & P1 & P2 & P3 & P4 & P5 & P6 & P7 & (r & P8) & P9).
  exists Xc, nf, p0, rpts, dirs, trace. split; [exact E0|]. split; [reflexivity|]. split; [exact P1|]. split; [reflexivity|]. split; [reflexivity|].
  split; [rewrite rev_length, P2, app_length; cbn; lia|].
  destruct (c_callback conf) eqn:Ecb.
  - assert (HE : exists dEnd, trace = CbEnd dEnd :: l_trace st /\ (silent = false -> exists k C s b dyn pv dp d s', predict W n k C s b dyn (l_cur st) pv dp = Ok (d, s') /\ dEnd = fun i => d i * C i)).
    { destruct (l_success st) eqn:Es.
      - apply bind_ok in E2. destruct E2 as ([d s'] & Ep & E2). injection E2 as _ <-. eexists. split; [reflexivity|]. intros _. do 9 eexists. split; [exact Ep|reflexivity].
      - injection E2 as _ <-. eexists. split; [reflexivity|]. intros Hs. destruct (P9 Hs) as [P|P]; [congruence|].
        destruct P as (k & s & pv & dp & P & _). do 9 eexists. split; [exact P|reflexivity]. }
    destruct HE as (dEnd & -> & HE).
    split; [apply rhalving_push; [exact P4|apply closed_closes; exact P5]|]. split; [cbn; tauto|]. split; [exact P7|].
    split.
    + exists dEnd. split; [cbn [callbacks filter is_callback]; f_equal; exact P6|]. intros Hs _. exists (l_cur st), r. split; [exact P8|]. apply HE. exact Hs.
    + intros H0 Hd. constructor; [exact I|]. eapply main_bounds; [| |exact E1| |]; [lra|exact H0|exact Hd|]. cbn. unfold add_event. constructor; [exact I|constructor].
  - injection E2 as _ <-. split; [exact P4|]. split; [exact P5|]. split; [exact P7|]. split; [exact P6|].
    intros H0 Hd. eapply main_bounds; [| |exact E1| |]; [lra|exact H0|exact Hd|]. cbn. unfold add_event. constructor.
Qed.

(** kernel of the predictor without side conditions *)
Lemma predict_kernel W n k CtoP s b dyn p pv dp d s' : sound_linear_solver n W ->
  predict W n k CtoP s b dyn p pv dp = Ok (d, s') -> tangent W n p (fun i => d i * CtoP i).
Proof.
  intros HL HP Rr dX dl HF i Hi. unfold predict in HP. rewrite HF in HP. cbn [bind] in HP.
  set (A := predict_matrix n CtoP dX dl dp) in *.
  destruct (w_lin W k A (fun i => if Nat.eqb i n then 1 else 0)) as [d0|e] eqn:EL; [|discriminate]. cbn [bind] in HP.
  pose proof (HL _ _ _ _ EL i ltac:(lia)) as L. cbv beta in L. rewrite (proj2 (Nat.eqb_neq i n)) in L by lia.
  assert (Hd : exists q0 g, d = (fun i => d0 i / q0 * g)).
  { eexists _, _. symmetry. exact (f_equal (fun r => match r with Ok (a, _) => a | Err _ => d end) HP). }
  destruct Hd as (q0 & g & ->). clear HP.
  transitivity (g / q0 * rsum (n + 1) (fun j => A i j * d0 j)); [|rewrite L; ring].
  rewrite <- rsum_scal_l. apply rsum_ext. intros j Hj. unfold A, predict_matrix, hcat. rewrite (proj2 (Nat.ltb_lt i n) Hi). unfold Rdiv.
  destruct (Nat.ltb_spec j n); [ring|]. replace j with n by lia. ring.
Qed.

(** ---- C40 ---- *)
Lemma path_rev_consecutive W n conf Q silent C0 p0 (P : vec -> vec -> Prop) :
  (forall p p' d, step_found W n conf Q silent C0 p p' d -> P p p') ->
  forall rpts dirs, path W n conf Q silent C0 p0 rpts dirs -> consecutive P (rev rpts) /\ (exists r, rev rpts = p0 :: r).
Proof.
  intros HP. assert (Snoc : forall l (x y : vec), consecutive P (l ++ [x]) -> P x y -> consecutive P ((l ++ [x]) ++ [y])).
  { induction l as [|z l IH]; intros x y H1 H2; [cbn; tauto|]. cbn [app consecutive] in *. destruct H1 as [Ha Hb]. split; [destruct l; exact Ha|apply IH; assumption]. }
  induction rpts as [|p' rpts IH]; intros dirs H; [destruct dirs; contradiction|]. cbn [path] in H. destruct dirs as [|d dirs].
  - destruct rpts; [subst; cbn; split; [tauto|eexists; reflexivity]|contradiction].
  - assert (H' : (match rpts with p :: _ => step_found W n conf Q silent C0 p p' d | [] => False end) /\ path W n conf Q silent C0 p0 rpts dirs) by (destruct rpts; exact H).
    destruct H' as [H1 H2]. destruct (IH _ H2) as [C (r & Hr)]. destruct rpts as [|p rpts]; [contradiction|]. split.
    + cbn [rev]. apply Snoc; [exact C|]. eapply HP. exact H1.
    + cbn [rev] in *. rewrite Hr. eexists. reflexivity.
Qed.

Lemma only_converged fuel W n self X0 lam0 lam1 pts self' tr : reachable self -> (0 <= c_verbose (k_conf self))%Z ->
  continuation fuel W n self X0 lam0 lam1 = Ok (pts, self', tr) ->
  (exists CtoP s x0 Xc nf rest, w_nsolve W 0 (conditioning_wrapper (initial_fun W n lam0) CtoP s) x0 = Ok (Xc, true, nf) /\ pts = with_entry n (fun i => Xc i * CtoP i) lam0 :: rest) /\
  consecutive (found_by W n (c_corrector (k_conf self))) pts.
Proof.
  intros HR Hv E. destruct (continuation_facts _ _ _ _ _ _ _ _ _ _ (fun _ => True) (fun _ _ _ _ _ _ _ _ _ _ _ => I) I (reachable_frac _ HR) E) as (Xc & nf & p0 & rpts & dirs & trace & E0 & Hp0 & HP & -> & _).
  rewrite (proj2 (Z.ltb_ge _ _) Hv) in HP.
  assert (S : forall p p' d, step_found W n (run_conf self) (fun _ => True) false (run_CtoP self) p p' d -> found_by W n (c_corrector (k_conf self)) p p').
  { intros p p' d (st & Xc' & (k & x0 & Xc2 & EX & K & S) & _ & Hc & EX' & Hp' & _ & Hs & _).
    rewrite (Hs eq_refl) in S. rewrite EX' in EX. injection EX as <-. rewrite Hc in S.
    exists k, (l_CtoP st), (sc (l_RPtoC st) 0), (l_b st), (l_ds st), (l_dirC st), x0, Xc', (l_nfev st).
    split; [exact K|]. split; [|exact Hp']. replace (c_corrector (k_conf self)) with (c_corrector (run_conf self)); [exact S|]. unfold run_conf. destruct (Z.ltb _ 0); reflexivity. }
  destruct (path_rev_consecutive _ _ _ _ _ _ _ _ S _ _ HP) as [C (r & Hr)]. split; [|exact C].
  do 6 eexists. split; [exact E0|]. rewrite Hr, Hp0. reflexivity.
Qed.

(** residual scaling along a run *)
Definition scale_is (n : nat) (r : R) (s : scale) : Prop := match s with Num q => q = r | Vec v => forall i, (i < n + 1)%nat -> v i = r end.
Lemma predict_scale W n k C s b p pv dp d s' r : scale_is n r s -> predict W n k C s b false p pv dp = Ok (d, s') -> s' = Num r.
Proof.
  intros Hs H. unfold predict in H. apply bind_ok in H. destruct H as ([Rr G] & _ & H). destruct G as [[dX dl]|]; [|discriminate].
  apply bind_ok in H. destruct H as (d0 & _ & H). injection H as _ <-. f_equal. destruct s as [q|v]; [exact Hs|].
  rewrite (rsum_ext (n + 1) v (fun _ => r)) by exact Hs. rewrite rsum_const. field. apply not_0_INR. lia.
Qed.

Lemma scaling_run_RP n self r : scaling self r -> scale_is n r (Vec (run_RP self)).
Proof. intros H i Hi. unfold run_RP. destruct H as [[-> ->]|[-> ->]]; reflexivity. Qed.

Lemma path_forall W n conf Q silent C0 p0 (P : vec -> Prop) : P p0 -> (forall p p' d, step_found W n conf Q silent C0 p p' d -> P p') ->
  forall rpts dirs, path W n conf Q silent C0 p0 rpts dirs -> Forall P rpts.
Proof.
  intros H0 HS. induction rpts as [|p' rpts IH]; intros dirs H; [constructor|]. cbn [path] in H. destruct dirs as [|d dirs].
  - destruct rpts; [subst; constructor; [exact H0|constructor]|contradiction].
  - assert (H' : (match rpts with p :: _ => step_found W n conf Q silent C0 p p' d | [] => False end) /\ path W n conf Q silent C0 p0 rpts dirs) by (destruct rpts; exact H).
    destruct H' as [H1 H2]. constructor; [|apply (IH _ H2)]. destruct rpts; [contradiction|]. eapply HS. exact H1.
Qed.

Lemma residuals_below fuel W n self X0 lam0 lam1 pts self' tr r tol : reachable self -> (0 <= c_verbose (k_conf self))%Z ->
  c_DynamicCtoP (k_conf self) = false -> c_corrector (k_conf self) <> OtherCorrector -> scaling self r -> sound_solver n tol W ->
  continuation fuel W n self X0 lam0 lam1 = Ok (pts, self', tr) -> Forall (residual_below W n r tol) pts.
Proof.
  intros HR Hv Hd Hcor Hsc HS E.
  assert (HQ : forall k C s b p pv dp d s', scale_is n r s -> predict W n k C s b (c_DynamicCtoP (k_conf self)) p pv dp = Ok (d, s') -> scale_is n r s').
  { intros. rewrite Hd in H0. rewrite (predict_scale _ _ _ _ _ _ _ _ _ _ _ _ H H0). reflexivity. }
  destruct (continuation_facts _ _ _ _ _ _ _ _ _ _ _ HQ (scaling_run_RP n self r Hsc) (reachable_frac _ HR) E) as (Xc & nf & p0 & rpts & dirs & trace & E0 & Hp0 & HP & -> & _).
  apply Forall_rev. rewrite (proj2 (Z.ltb_ge _ _) Hv) in HP. eapply path_forall; [| |exact HP].
  - destruct (HS _ _ _ _ _ E0) as (Rr & G & EF & HB). unfold conditioning_wrapper, conditioned_fun, initial_fun in EF.
    apply bind_ok in EF. destruct EF as ([R1 G1] & EF1 & EF). apply bind_ok in EF1. destruct EF1 as ([R2 G2] & EF2 & EF1). injection EF1 as <- <-.
    destruct G2 as [[dX dl]|]; [|discriminate]. injection EF as <- _. exists R2, (Some (dX, dl)). split; [rewrite Hp0; exact EF2|].
    intros i Hi. specialize (HB i Hi). cbn [sc] in HB. rewrite (scaling_run_RP n self r Hsc i) in HB by lia. exact HB.
  - intros p p' d (st & Xc' & (k & x0 & Xc2 & EX & K & S) & (k2 & s2 & pv & dp & Ep & _ & Hq) & Hc & EX' & Hp' & _ & Hs & _).
    rewrite (Hs eq_refl) in S. rewrite EX' in EX. injection EX as <-.
    destruct (HS _ _ _ _ _ S) as (Rr & G & EF & HB). rewrite (proj2 (Nat.eqb_neq k 0)) in HB by lia.
    rewrite correct_unfold in EF by (unfold run_conf; destruct (Z.ltb _ 0); exact Hcor).
    apply bind_ok in EF. destruct EF as ([R1 G1] & EF1 & EF). cbv zeta in EF. destruct G1 as [[dX dl]|]; [|discriminate]. injection EF as <- _.
    exists R1, (Some (dX, dl)). split; [rewrite Hp', <- EF1; f_equal; apply functional_extensionality; intros; ring|].
    intros i Hi. specialize (HB i ltac:(lia)). cbv beta in HB. rewrite ltb_t in HB by exact Hi.
    replace (sc (l_RPtoC st) 0) with r in HB; [exact HB|]. destruct (l_RPtoC st) as [q|v]; [symmetry; exact Hq|symmetry; apply Hq; lia].
Qed.
