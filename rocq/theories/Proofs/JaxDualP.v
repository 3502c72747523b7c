(** Correctness of the dual numbers and of the loops of the JAX elements. *)
From Coq Require Import Reals Lra Lia Arith List Bool FunctionalExtensionality.
From Verif.Lib Require Import RSum Calc Py.
From Verif.Spec Require Import Harmonic Calculus Slider.
From Verif.Model Require Import Harmonic LocalForces Aft JaxDual JaxFriction.
From Verif.Proofs Require Import HarmonicP FourierP AftP SliderP.
Import ListNotations.
Open Scope R_scope.

Lemma dual_eq x y : dv x = dv y -> (forall i, dt x i = dt y i) -> x = y.
Proof. destruct x, y; cbn. intros -> H. f_equal. apply functional_extensionality. exact H. Qed.

Lemma dv_min x y : dv (dmin x y) = Rmin (dv x) (dv y).
Proof.
  unfold dmin. destruct (Rltb (dv x) (dv y)) eqn:A; [apply Rltb_true in A; rewrite Rmin_left by lra; reflexivity|]. apply Rltb_false in A.
  destruct (Rltb (dv y) (dv x)) eqn:B; [rewrite Rmin_right by lra; reflexivity|]. apply Rltb_false in B. cbn. rewrite Rmin_left by lra. reflexivity.
Qed.
Lemma dv_max x y : dv (dmax x y) = Rmax (dv x) (dv y).
Proof.
  unfold dmax. destruct (Rltb (dv y) (dv x)) eqn:A; [apply Rltb_true in A; rewrite Rmax_left by lra; reflexivity|]. apply Rltb_false in A.
  destruct (Rltb (dv x) (dv y)) eqn:B; [rewrite Rmax_right by lra; reflexivity|]. apply Rltb_false in B. cbn. rewrite Rmax_left by lra. reflexivity.
Qed.
Lemma dmin_left x y : dv x < dv y -> dmin x y = x.
Proof. intros H. unfold dmin. rewrite (proj2 (Rltb_true _ _) H). reflexivity. Qed.
Lemma dmin_right x y : dv y < dv x -> dmin x y = y.
Proof. intros H. unfold dmin. rewrite (proj2 (Rltb_false (dv x) (dv y))) by lra. rewrite (proj2 (Rltb_true _ _) H). reflexivity. Qed.
Lemma dmax_left x y : dv y < dv x -> dmax x y = x.
Proof. intros H. unfold dmax. rewrite (proj2 (Rltb_true _ _) H). reflexivity. Qed.
Lemma dmax_right x y : dv x < dv y -> dmax x y = y.
Proof. intros H. unfold dmax. rewrite (proj2 (Rltb_false (dv y) (dv x))) by lra. rewrite (proj2 (Rltb_true _ _) H). reflexivity. Qed.

(** ---- derivatives of selections ---- *)
Lemma dlim_continuous f x l : derivable_pt_lim f x l -> forall eps, 0 < eps -> exists d, 0 < d /\ forall t, Rabs (t - x) < d -> Rabs (f t - f x) < eps.
Proof.
  intros H eps He. assert (C : continuity_pt f x) by (apply derivable_continuous_pt; exists l; exact H).
  destruct (C eps He) as [d [Hd C']]. exists d. split; [exact Hd|]. intros t Ht. destruct (Req_dec x t) as [->|Hne]; [replace (f t - f t) with 0 by ring; rewrite Rabs_R0; exact He|].
  apply (C' t). split; [split; [exact I|exact Hne]|exact Ht].
Qed.

Lemma dlim_below f g x a b : derivable_pt_lim f x a -> derivable_pt_lim g x b -> f x < g x -> exists d, 0 < d /\ forall t, Rabs (t - x) < d -> f t < g t.
Proof.
  intros Hf Hg H. destruct (dlim_continuous _ _ _ Hf ((g x - f x) / 2) ltac:(lra)) as [d1 [D1 C1]]. destruct (dlim_continuous _ _ _ Hg ((g x - f x) / 2) ltac:(lra)) as [d2 [D2 C2]].
  exists (Rmin d1 d2). split; [apply Rmin_glb_lt; assumption|]. intros t Ht. specialize (C1 t ltac:(eapply Rlt_le_trans; [exact Ht|apply Rmin_l])). specialize (C2 t ltac:(eapply Rlt_le_trans; [exact Ht|apply Rmin_r])).
  apply Rabs_def2 in C1. apply Rabs_def2 in C2. lra.
Qed.

Lemma dlim_same_near f g x l d : 0 < d -> (forall t, Rabs (t - x) < d -> f t = g t) -> derivable_pt_lim f x l -> derivable_pt_lim g x l.
Proof.
  intros Hd E H. apply (dlim_ext_loc f); [|exact H]. exists d. split; [exact Hd|exact E].
Qed.

Lemma dlim_minimum f x l : derivable_pt_lim f x l -> f x = 0 -> (forall t, 0 <= f t) -> l = 0.
Proof.
  intros H H0 Hp. destruct (Req_dec l 0) as [|Hl]; [assumption|exfalso].
  assert (He : 0 < Rabs l / 2) by (pose proof (Rabs_pos_lt l Hl); lra). destruct (H _ He) as [d Hd].
  pose proof (cond_pos d) as Dp. set (e := d / 2).
  assert (P := Hd e ltac:(unfold e; lra) ltac:(unfold e; rewrite Rabs_right by lra; lra)). assert (M := Hd (- e) ltac:(unfold e; lra) ltac:(unfold e; rewrite Rabs_Ropp, Rabs_right by lra; lra)).
  rewrite H0, Rminus_0_r in P, M. assert (0 < e) by (unfold e; lra).
  assert (Qp : 0 <= f (x + e) / e) by (apply Rmult_le_pos; [apply Hp|left; apply Rinv_0_lt_compat; assumption]).
  assert (Qm : f (x + - e) / - e <= 0).
  { unfold Rdiv. rewrite Rinv_opp. assert (0 <= f (x + - e) * / e) by (apply Rmult_le_pos; [apply Hp|left; apply Rinv_0_lt_compat; assumption]). lra. }
  apply Rabs_def2 in P. apply Rabs_def2 in M. unfold Rabs in *. destruct (Rcase_abs l); lra.
Qed.

(** [x V] is the dual number computed from the inputs V; its tangents at X are its gradient *)
Definition dgrad (m : nat) (x : vec -> dual) (X : vec) : Prop := is_gradient m (fun V => dv (x V)) X (dt (x X)).

Section Grad.
  Variables (m : nat) (X : vec).

  Lemma dgrad_const c : dgrad m (fun _ => dconst c) X.
  Proof. intros g v t0 Hg Hv. cbn. eapply dlim_eq; [apply dlim_const|]. symmetry. apply rsum_zero. intros; ring. Qed.
  Lemma dgrad_add x y : dgrad m x X -> dgrad m y X -> dgrad m (fun V => dadd (x V) (y V)) X.
  Proof. intros Hx Hy g v t0 Hg Hv. cbn. eapply dlim_eq; [apply dlim_plus; [apply (Hx g v t0 Hg Hv)|apply (Hy g v t0 Hg Hv)]|]. rewrite <- rsum_plus. apply rsum_ext. intros; ring. Qed.
  Lemma dgrad_sub x y : dgrad m x X -> dgrad m y X -> dgrad m (fun V => dsub (x V) (y V)) X.
  Proof. intros Hx Hy g v t0 Hg Hv. cbn. eapply dlim_eq; [apply dlim_minus; [apply (Hx g v t0 Hg Hv)|apply (Hy g v t0 Hg Hv)]|]. rewrite <- rsum_minus. apply rsum_ext. intros; ring. Qed.
  Lemma dgrad_scal a x : dgrad m x X -> dgrad m (fun V => dscal a (x V)) X.
  Proof. intros Hx g v t0 Hg Hv. cbn. eapply dlim_eq; [apply dlim_scal; apply (Hx g v t0 Hg Hv)|]. rewrite <- rsum_scal_l. apply rsum_ext. intros; ring. Qed.
  Lemma dgrad_seed i : (i < m)%nat -> dgrad m (fun V => dseed V i) X.
  Proof.
    intros Hi g v t0 Hg Hv. cbn. eapply dlim_eq; [apply Hv; exact Hi|]. rewrite (rsum_single m i); [|exact Hi|].
    - rewrite Nat.eqb_refl. ring.
    - intros j Hj Hne. destruct (Nat.eqb_spec j i); [contradiction|ring].
  Qed.

  (** values of a family depend on the first m inputs only *)
  Definition dlocal (x : vec -> dual) : Prop := forall V W, (forall j, (j < m)%nat -> V j = W j) -> dv (x V) = dv (x W).

  Lemma dgrad_min x y : dlocal x -> dlocal y -> dgrad m x X -> dgrad m y X -> dv (x X) <> dv (y X) -> dgrad m (fun V => dmin (x V) (y V)) X.
  Proof.
    intros Lx Ly Hx Hy Hne g v t0 Hg Hv. pose proof (Hx g v t0 Hg Hv) as Dx. pose proof (Hy g v t0 Hg Hv) as Dy. cbv beta in Dx, Dy.
    assert (Ex : dv (x (g t0)) = dv (x X)) by (apply Lx; exact Hg). assert (Ey : dv (y (g t0)) = dv (y X)) by (apply Ly; exact Hg).
    destruct (Rlt_or_le (dv (x X)) (dv (y X))) as [H|H].
    - rewrite (dmin_left _ _ H). destruct (dlim_below _ _ _ _ _ Dx Dy ltac:(cbv beta; rewrite Ex, Ey; exact H)) as [d [Hd Hb]]. eapply (dlim_same_near _ _ _ _ d Hd); [|exact Dx]. intros t Ht. cbv beta. rewrite dmin_left by (apply Hb; exact Ht). reflexivity.
    - assert (H' : dv (y X) < dv (x X)) by lra. rewrite (dmin_right _ _ H'). destruct (dlim_below _ _ _ _ _ Dy Dx ltac:(cbv beta; rewrite Ex, Ey; exact H')) as [d [Hd Hb]]. eapply (dlim_same_near _ _ _ _ d Hd); [|exact Dy]. intros t Ht. cbv beta. rewrite dmin_right by (apply Hb; exact Ht). reflexivity.
  Qed.
  Lemma dgrad_max x y : dlocal x -> dlocal y -> dgrad m x X -> dgrad m y X -> dv (x X) <> dv (y X) -> dgrad m (fun V => dmax (x V) (y V)) X.
  Proof.
    intros Lx Ly Hx Hy Hne g v t0 Hg Hv. pose proof (Hx g v t0 Hg Hv) as Dx. pose proof (Hy g v t0 Hg Hv) as Dy. cbv beta in Dx, Dy.
    assert (Ex : dv (x (g t0)) = dv (x X)) by (apply Lx; exact Hg). assert (Ey : dv (y (g t0)) = dv (y X)) by (apply Ly; exact Hg).
    destruct (Rlt_or_le (dv (x X)) (dv (y X))) as [H|H].
    - rewrite (dmax_right _ _ H). destruct (dlim_below _ _ _ _ _ Dx Dy ltac:(cbv beta; rewrite Ex, Ey; exact H)) as [d [Hd Hb]]. eapply (dlim_same_near _ _ _ _ d Hd); [|exact Dy]. intros t Ht. cbv beta. rewrite dmax_right by (apply Hb; exact Ht). reflexivity.
    - assert (H' : dv (y X) < dv (x X)) by lra. rewrite (dmax_left _ _ H'). destruct (dlim_below _ _ _ _ _ Dy Dx ltac:(cbv beta; rewrite Ex, Ey; exact H')) as [d [Hd Hb]]. eapply (dlim_same_near _ _ _ _ d Hd); [|exact Dx]. intros t Ht. cbv beta. rewrite dmax_left by (apply Hb; exact Ht). reflexivity.
  Qed.

  (** a force limited to [-hi, hi] with hi >= 0 everywhere: the tangents are right unless the trial is exactly at a limit *)
  Lemma dgrad_clamp x hi (lo : vec -> dual) : dlocal x -> dlocal hi -> dgrad m x X -> dgrad m hi X -> (forall V, 0 <= dv (hi V)) ->
    (forall V, lo V = dscal (-1) (hi V)) -> dv (x X) <> dv (hi X) -> dv (x X) <> - dv (hi X) ->
    dgrad m (fun V => dmax (dmin (x V) (hi V)) (lo V)) X.
  Proof.
    intros Lx Lh Hx Hh Hp Hlo N1 N2.
    assert (Llo : dlocal lo). { intros V W E. rewrite !Hlo. cbn. rewrite (Lh V W E). reflexivity. }
    assert (Glo : dgrad m lo X). { intros g v t0 Hg Hv. rewrite Hlo. eapply dlim_ext; [|exact (dgrad_scal (-1) hi Hh g v t0 Hg Hv)]. intros t. cbv beta. rewrite Hlo. reflexivity. }
    assert (Lm : dlocal (fun V => dmin (x V) (hi V))). { intros V W E. rewrite !dv_min, (Lx V W E), (Lh V W E). reflexivity. }
    assert (Gm : dgrad m (fun V => dmin (x V) (hi V)) X) by (apply dgrad_min; assumption).
    destruct (Req_dec (dv (dmin (x X) (hi X))) (dv (lo X))) as [E|E].
    2:{ apply (dgrad_max (fun V => dmin (x V) (hi V)) lo); assumption. }
    (* equal: the limit is zero and the trial is outside *)
    rewrite Hlo in E. cbn [dscal dv] in E. rewrite dv_min in E. pose proof (Hp X) as HpX.
    assert (Z : dv (hi X) = 0 /\ dv (hi X) < dv (x X)). { unfold Rmin in E. destruct (Rle_dec (dv (x X)) (dv (hi X))); [exfalso; lra|split; lra]. }
    destruct Z as [Z1 Z2]. intros g v t0 Hg Hv. pose proof (Hx g v t0 Hg Hv) as Dx. pose proof (Hh g v t0 Hg Hv) as Dh. cbv beta in Dx, Dh.
    assert (Ex : dv (x (g t0)) = dv (x X)) by (apply Lx; exact Hg). assert (Eh : dv (hi (g t0)) = dv (hi X)) by (apply Lh; exact Hg).
    assert (D0 : rsum m (fun j => dt (hi X) j * v j) = 0) by (apply (dlim_minimum _ _ _ Dh); [lra|intros t; apply Hp]).
    destruct (dlim_below _ _ _ _ _ Dh Dx ltac:(cbv beta; rewrite Ex, Eh; exact Z2)) as [d [Hd Hb]].
    eapply (dlim_same_near (fun t => dv (hi (g t)))); [exact Hd| |].
    - intros t Ht. cbv beta. rewrite dv_max, dv_min, Hlo. cbn [dscal dv]. specialize (Hb t Ht). pose proof (Hp (g t)). rewrite Rmin_right by lra. rewrite Rmax_left by lra. reflexivity.
    - eapply dlim_eq; [exact Dh|]. rewrite D0. symmetry. apply rsum_zero. intros j Hj. rewrite (dmin_right _ _ Z2). unfold dmax. rewrite Hlo. cbn [dscal dv dt]. rewrite Z1.
      replace (-1 * 0) with 0 by ring. rewrite (proj2 (Rltb_false 0 0)) by lra. cbn [dmean dt dscal]. field.
  Qed.
  Lemma dlocal_clamp x hi lo : dlocal x -> dlocal hi -> dlocal lo -> dlocal (fun V => dmax (dmin (x V) (hi V)) (lo V)).
  Proof. intros A B C V W E. rewrite !dv_max, !dv_min, (A V W E), (B V W E), (C V W E). reflexivity. Qed.
End Grad.

(** ---- loops over rows ---- *)
Section Rows.
  Variables (Nt : nat) (g : nat -> nat -> dual -> dual).
  Hypothesis HNt : (0 < Nt)%nat.

  (** row of step k when the row before step 0 is x0 *)
  Fixpoint rowsteps (x0 : nat -> dual) (k : nat) (c : nat) : dual :=
    match k with O => g O c (x0 c) | S j => g (S j mod Nt) c (rowsteps x0 j c) end.

  Variables (body : nat -> (nat -> nat -> dual) -> nat -> nat -> dual) (Inv : (nat -> nat -> dual) -> Prop).
  Hypothesis Hbody : forall i ft, (i < Nt)%nat -> Inv ft ->
    Inv (body i ft) /\ (forall c, body i ft i c = g i c (ft (prev_row Nt i) c)) /\ forall t c, t <> i -> body i ft t c = ft t c.

  Lemma prev_row_0 : prev_row Nt 0 = (Nt - 1)%nat.
  Proof. unfold prev_row. apply Nat.mod_small. lia. Qed.
  Lemma prev_row_S i : (S i < Nt)%nat -> prev_row Nt (S i) = i.
  Proof. intros H. unfold prev_row. replace (S i + Nt - 1)%nat with (i + 1 * Nt)%nat by lia. rewrite Nat.mod_add by lia. apply Nat.mod_small. lia. Qed.

  Lemma pass_rows_upto ft0 : Inv ft0 -> forall m, (m <= Nt)%nat ->
    let ft := fold_left (fun x i => body i x) (seq 0 m) ft0 in
    Inv ft /\ (forall k c, (k < m)%nat -> ft k c = rowsteps (ft0 (Nt - 1)%nat) k c) /\ forall k c, (m <= k)%nat -> ft k c = ft0 k c.
  Proof.
    intros HI. induction m as [|m IH]; intros Hm; cbv zeta.
    - cbn. split; [exact HI|]. split; [intros; lia|reflexivity].
    - rewrite seq_S, fold_left_app. cbn [fold_left]. destruct (IH ltac:(lia)) as (I1 & A & B). clear IH. set (ft := fold_left (fun x i => body i x) (seq 0 m) ft0) in *.
      destruct (Hbody m ft ltac:(lia) I1) as (I2 & C & D). cbn [Nat.add]. split; [exact I2|]. split.
      + intros k c Hk. destruct (Nat.eq_dec k m) as [->|Hne]; [|rewrite D by exact Hne; apply A; lia]. rewrite C. destruct m as [|m].
        * rewrite prev_row_0. cbn [rowsteps]. rewrite B by lia. reflexivity.
        * rewrite prev_row_S by lia. cbn [rowsteps]. rewrite Nat.mod_small by lia. rewrite A by lia. reflexivity.
      + intros k c Hk. rewrite D by lia. apply B. lia.
  Qed.

  Lemma rowsteps_ext x0 y0 : (forall c, x0 c = y0 c) -> forall k c, rowsteps x0 k c = rowsteps y0 k c.
  Proof. intros H. induction k as [|k IH]; intros c; cbn [rowsteps]; [rewrite H|rewrite IH]; reflexivity. Qed.

  Lemma rowsteps_next x0 n k c : (k < Nt)%nat -> rowsteps (rowsteps x0 (n * Nt + Nt - 1)) k c = rowsteps x0 (n * Nt + Nt + k) c.
  Proof.
    intros Hk. induction k as [|k IH].
    - replace (n * Nt + Nt + 0)%nat with (S (n * Nt + Nt - 1)) by lia. cbn [rowsteps]. replace (S (n * Nt + Nt - 1)) with (0 + (n + 1) * Nt)%nat by lia. rewrite Nat.mod_add by lia. rewrite Nat.mod_0_l by lia. reflexivity.
    - replace (n * Nt + Nt + S k)%nat with (S (n * Nt + Nt + k)) by lia. cbn [rowsteps]. rewrite IH by lia. replace (S (n * Nt + Nt + k)) with (S k + (n + 1) * Nt)%nat by lia. rewrite Nat.mod_add by lia. reflexivity.
  Qed.

  (** two passes *)
  Lemma two_passes ft0 : Inv ft0 -> forall k c, (k < Nt)%nat ->
    fold_left (fun ft _ => fori_loop 0 Nt body ft) (seq 0 2) ft0 k c = rowsteps (ft0 (Nt - 1)%nat) (Nt + k) c.
  Proof.
    intros HI k c Hk. cbn [seq fold_left]. unfold fori_loop. rewrite Nat.sub_0_r.
    destruct (pass_rows_upto ft0 HI Nt (le_n _)) as (I1 & A1 & _). set (ft1 := fold_left _ _ ft0) in *.
    destruct (pass_rows_upto ft1 I1 Nt (le_n _)) as (I2 & A2 & _). rewrite A2 by exact Hk.
    rewrite (rowsteps_ext _ (rowsteps (ft0 (Nt - 1)%nat) (0 * Nt + Nt - 1))) by (intros c'; apply A1; lia).
    rewrite rowsteps_next by exact Hk. f_equal.
  Qed.
End Rows.
