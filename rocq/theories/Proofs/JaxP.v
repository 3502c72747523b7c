From Coq Require Import Reals List Arith Bool ZArith Lia Lra Psatz FunctionalExtensionality.
From Verif.Lib Require Import RSum Py.
From Verif.Spec Require Import Solver.
From Verif.Model Require Import JaxSolver.
Import ListNotations.
Open Scope R_scope.

Lemma bind_inv {A B} (r : result A) (f : A -> result B) b : bind r f = Ok b -> exists a, r = Ok a /\ f a = Ok b.
Proof. destruct r; [|discriminate]. intros H. exists a. auto. Qed.

(** ---- convergence test ---- *)
Lemma check_true c m : forall l, (forall k, In k l -> tolerance c k <> None) -> check_convg l c m true = Ok true.
Proof. induction l as [|k l IH]; [reflexivity|]. intros H. cbn. apply IH. intros k' Hk. apply H. right. exact Hk. Qed.

Lemma check_true' c m l : check_convg l c m true = Ok true.
Proof. induction l as [|k l IH]; [reflexivity|]. exact IH. Qed.

Lemma check_iff c m : forall l b, check_convg l c m false = Ok b -> (b = true <-> exists k, In k l /\ below (error_value m k) (tolerance c k)).
Proof.
  induction l as [|k l IH]; intros b H.
  - injection H as <-. split; [discriminate|intros (k & [] & _)].
  - cbn in H. destruct (tolerance c k) as [t|] eqn:Et; [|discriminate]. destruct (error_value m k) as [v|] eqn:Ev.
    + destruct (Rltb (Rabs v) t) eqn:El.
      * rewrite check_true' in H. injection H as <-. split; [intros _|reflexivity]. exists k. split; [left; reflexivity|]. exists v, t. apply Rltb_true in El. auto.
      * rewrite (IH _ H). apply Rltb_false in El. split; intros (k' & Hk & Hb).
        -- exists k'. split; [right; exact Hk|exact Hb].
        -- destruct Hk as [<-|Hk]; [|exists k'; auto]. destruct Hb as (x & y & E1 & E2 & L). rewrite Ev in E1. rewrite Et in E2. injection E1 as <-. injection E2 as <-. lra.
    + rewrite (IH _ H). split; intros (k' & Hk & Hb).
      * exists k'. split; [right; exact Hk|exact Hb].
      * destruct Hk as [<-|Hk]; [|exists k'; auto]. destruct Hb as (x & y & E1 & _). rewrite Ev in E1. discriminate.
Qed.

Lemma check_ok c m : forall l b, (forall k, In k l -> tolerance c k <> None) -> exists r, check_convg l c m b = Ok r.
Proof.
  induction l as [|k l IH]; intros b H; [eexists; reflexivity|]. cbn. assert (H' : forall k', In k' l -> tolerance c k' <> None) by (intros k' Hk; apply H; right; exact Hk).
  destruct b; [apply IH; exact H'|]. destruct (tolerance c k) as [t|] eqn:Et; [apply IH; exact H'|]. exfalso. exact (H k (or_introl eq_refl) Et).
Qed.

Lemma documented_same m k : k <> XtolRel -> k <> EtolRel -> error_value m k = documented_value m k.
Proof. destruct k; intros; try contradiction; reflexivity. Qed.

Lemma check_documented c m l : (forall k, In k l -> tolerance c k <> None) -> ~ In XtolRel l -> ~ In EtolRel l ->
  exists b, check_convg l c m false = Ok b /\ (b = true <-> exists k, In k l /\ below (documented_value m k) (tolerance c k)).
Proof.
  intros H H1 H2. destruct (check_ok c m l false H) as [b E]. exists b. split; [exact E|]. rewrite (check_iff _ _ _ _ E).
  split; intros (k & Hk & Hb); exists k; (split; [exact Hk|]); [rewrite <- documented_same|rewrite documented_same]; try exact Hb; intros ->; contradiction.
Qed.

Definition swapped_conf : config := mkConf 20 1 None None None (Some (1 / 100)) None (Some (1 / 100)) [XtolRel] [] 0 (1 / 2) true.

Lemma check_swapped : exists c m1 m2, c_stopping c = [XtolRel] /\
  below (documented_value m1 XtolRel) (tolerance c XtolRel) /\ check_convg (c_stopping c) c m1 false = Ok false /\
  ~ below (documented_value m2 XtolRel) (tolerance c XtolRel) /\ check_convg (c_stopping c) c m2 false = Ok true.
Proof.
  exists swapped_conf, (mkMeas (Some 1) (Some 1) (Some 1) (Some 1) (Some 1) (Some 0)), (mkMeas (Some 1) (Some 1) (Some 1) (Some 1) (Some 0) (Some 1)).
  split; [reflexivity|]. split; [exists 0, (1 / 100); repeat split; rewrite Rabs_R0; lra|]. split.
  { cbn. rewrite Rabs_R1. unfold Rltb. destruct (Rlt_dec 1 (1 / 100)); [lra|reflexivity]. }
  split; [intros (x & y & E1 & E2 & L); injection E1 as <-; injection E2 as <-; rewrite Rabs_R1 in L; lra|].
  cbn. rewrite Rabs_R0. unfold Rltb. destruct (Rlt_dec 0 (1 / 100)); [reflexivity|lra].
Qed.

(** ---- BFGS ---- *)
Definition with_p (n : nat) (ps : list (vec * vec)) : list pair := map (fun sy => (fst sy, snd sy, 1 / dot n (fst sy) (snd sy))) ps.

Lemma two_loop_spec n H0 : forall ps v, let (d1, alphas) := first_loop n (with_p n ps) v in
  second_loop n (with_p n ps) alphas (H0 d1) = bfgs_inverse n H0 ps v.
Proof.
  induction ps as [|[s y] ps IH]; intros v; [reflexivity|]. cbn [with_p map first_loop fst snd].
  specialize (IH (fun i => v i - 1 / dot n s y * dot n s v * y i)). fold (with_p n ps) in *.
  destruct (first_loop n (with_p n ps) _) as [d1 alphas]. cbn [second_loop bfgs_inverse]. rewrite IH.
  apply functional_extensionality. intros i. ring.
Qed.

Lemma bfgs_direction_spec n lu H0 ps Rr : (forall v, lu v = Some (H0 v)) ->
  bfgs_direction n lu (with_p n ps) Rr = Some (bfgs_inverse n H0 ps (fun i => - Rr i)).
Proof.
  intros H. unfold bfgs_direction. pose proof (two_loop_spec n H0 ps (fun i => - Rr i)) as L.
  destruct (first_loop n (with_p n ps) (fun i => - Rr i)) as [d1 alphas]. rewrite H, L. reflexivity.
Qed.

Lemma bfgs_zero n H0 : (forall v, (forall i, (i < n)%nat -> v i = 0) -> forall i, (i < n)%nat -> H0 v i = 0) ->
  forall ps v, (forall i, (i < n)%nat -> v i = 0) -> forall i, (i < n)%nat -> bfgs_inverse n H0 ps v i = 0.
Proof.
  intros HH. induction ps as [|[s y] ps IH]; intros v Hv i Hi; [apply HH; assumption|]. cbn [bfgs_inverse]. cbv zeta.
  assert (E : dot n s v = 0) by (unfold dot; apply rsum_zero; intros k Hk; rewrite Hv by exact Hk; ring).
  rewrite E. set (w := bfgs_inverse n H0 ps _).
  assert (W : forall k, (k < n)%nat -> w k = 0) by (intros k Hk; apply IH; [intros q Hq; rewrite Hv by exact Hq; ring|exact Hk]).
  rewrite W by exact Hi. replace (dot n y w) with 0 by (symmetry; unfold dot; apply rsum_zero; intros k Hk; rewrite W by exact Hk; ring). ring.
Qed.

Lemma bfgs_secant n H0 s y older : (forall v, (forall i, (i < n)%nat -> v i = 0) -> forall i, (i < n)%nat -> H0 v i = 0) ->
  dot n s y <> 0 -> forall i, (i < n)%nat -> bfgs_inverse n H0 ((s, y) :: older) y i = s i.
Proof.
  intros HH Hs i Hi. cbn [bfgs_inverse]. cbv zeta. set (w := bfgs_inverse n H0 older _).
  assert (W : forall k, (k < n)%nat -> w k = 0) by (intros k Hk; apply bfgs_zero; [exact HH| |exact Hk]; intros q Hq; field; exact Hs).
  rewrite W by exact Hi. replace (dot n y w) with 0 by (symmetry; unfold dot; apply rsum_zero; intros k Hk; rewrite W by exact Hk; ring). field. exact Hs.
Qed.

(** a sound solve with a regular matrix *)
Lemma regular_zero n lu A : sound_lu n lu -> (forall x, (forall i, (i < n)%nat -> matvec n A x i = 0) -> forall i, (i < n)%nat -> x i = 0) ->
  forall H0, (forall v, lu A v = Some (H0 v)) -> forall v, (forall i, (i < n)%nat -> v i = 0) -> forall i, (i < n)%nat -> H0 v i = 0.
Proof. intros S Hr H0 HH v Hv i Hi. apply Hr; [|exact Hi]. intros k Hk. rewrite (S A v (H0 v) (HH v) k Hk). apply Hv. exact Hk. Qed.

Lemma secant_regular n lu A s y older Rr d : sound_lu n lu ->
  (forall x, (forall i, (i < n)%nat -> matvec n A x i = 0) -> forall i, (i < n)%nat -> x i = 0) ->
  (forall v, lu A v <> None) -> dot n s y <> 0 -> (forall i, Rr i = y i) ->
  bfgs_direction n (lu A) (with_p n ((s, y) :: older)) Rr = Some d -> forall i, (i < n)%nat -> d i = - s i.
Proof.
  intros S Hr HN Hs HR Hd i Hi. set (H0 := fun v => match lu A v with Some x => x | None => vzero end).
  assert (HH : forall v, lu A v = Some (H0 v)) by (intros v; unfold H0; destruct (lu A v) eqn:E; [reflexivity|]; exfalso; exact (HN v E)).
  rewrite (bfgs_direction_spec n (lu A) H0 _ _ HH) in Hd. injection Hd as <-.
  cbn [bfgs_inverse]. cbv zeta. set (w := bfgs_inverse n H0 older _).
  assert (E : dot n s (fun i => - Rr i) = - dot n s y) by (unfold dot; rewrite <- rsum_opp; apply rsum_ext; intros k _; rewrite HR; ring).
  assert (W : forall k, (k < n)%nat -> w k = 0).
  { intros k Hk. apply bfgs_zero; [exact (regular_zero n lu A S Hr H0 HH)| |exact Hk]. intros q Hq. rewrite E, HR. field. exact Hs. }
  rewrite W by exact Hi. replace (dot n y w) with 0 by (symmetry; unfold dot; apply rsum_zero; intros k Hk; rewrite W by exact Hk; ring). rewrite E. field. exact Hs.
Qed.
