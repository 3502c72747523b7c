(** Numbers that are differentiated, in other units. *)
From Coq Require Import Reals List Arith Bool Lra Lia.
From Verif.Lib Require Import RSum Py.
From Verif.Model Require Import Harmonic LocalForces Aft JaxDual JaxFloat.
Import ListNotations.
Open Scope R_scope.

Definition osc (c : R) (x y : option R) : Prop := match x, y with Some a, Some b => b = c * a | None, None => True | _, _ => False end.
Definition tsc (c : R) (tau : vec) (x y : option vec) : Prop :=
  match x, y with Some s, Some t => forall i, t i = c * tau i * s i | None, None => True | _, _ => False end.
(** y is c times x; input i is 1 / tau i times the old input i *)
Definition fsc (tau : vec) (c : R) (x y : fdual) : Prop := osc c (fval x) (fval y) /\ tsc c tau (ftan x) (ftan y).
Definition dsc (tau : vec) (c : R) (x y : dual) : Prop := dv y = c * dv x /\ forall i, dt y i = c * tau i * dt x i.

Lemma Rltb_scale c a b : 0 < c -> Rltb (c * a) (c * b) = Rltb a b.
Proof. intros H. destruct (Rltb a b) eqn:E; [apply Rltb_true in E; apply Rltb_true; nra|apply Rltb_false in E; apply Rltb_false; nra]. Qed.
Lemma Rleb_scale c a b : 0 < c -> Rleb (c * a) (c * b) = Rleb a b.
Proof. intros H. destruct (Rleb a b) eqn:E; [apply Rleb_true in E; apply Rleb_true; nra|apply Rleb_false in E; apply Rleb_false; nra]. Qed.
Lemma Rltb_scale0 c a : 0 < c -> Rltb (c * a) 0 = Rltb a 0.
Proof. intros H. rewrite <- (Rltb_scale c a 0 H). f_equal. ring. Qed.
Lemma Rltb_0scale c a : 0 < c -> Rltb 0 (c * a) = Rltb 0 a.
Proof. intros H. rewrite <- (Rltb_scale c 0 a H). f_equal. ring. Qed.
Lemma Reqb_scale0 c a : c <> 0 -> Reqb (c * a) 0 = Reqb a 0.
Proof.
  intros H. unfold Reqb. destruct (Req_EM_T a 0) as [->|E], (Req_EM_T (c * _) 0) as [E'|E']; try reflexivity; exfalso.
  - apply E'. ring.
  - apply Rmult_integral in E'. tauto.
Qed.
Lemma Reqb_scale c a b : c <> 0 -> Reqb (c * a) (c * b) = Reqb a b.
Proof.
  intros H. unfold Reqb. destruct (Req_EM_T a b) as [->|E], (Req_EM_T (c * _) _) as [E'|E']; try reflexivity; exfalso.
  - apply E'. ring.
  - apply E, (Rmult_eq_reg_l c); assumption.
Qed.
Lemma Rsign_scale c a : 0 < c -> Rsign (c * a) = Rsign a.
Proof. intros H. unfold Rsign. destruct (Rlt_dec 0 (c * a)), (Rlt_dec 0 a), (Rlt_dec (c * a) 0), (Rlt_dec a 0); try reflexivity; nra. Qed.
Lemma Rmax_scale c a b : 0 < c -> Rmax (c * a) (c * b) = c * Rmax a b.
Proof. intros H. unfold Rmax. destruct (Rle_dec (c * a) (c * b)), (Rle_dec a b); try reflexivity; nra. Qed.
Lemma Rabs_scale c a : 0 < c -> Rabs (c * a) = c * Rabs a.
Proof. intros H. rewrite Rabs_mult, (Rabs_right c) by lra. reflexivity. Qed.

Section Float.
  Variable tau : vec.

  Lemma fsc_eq c d x y : fsc tau c x y -> c = d -> fsc tau d x y.
  Proof. intros H <-. exact H. Qed.

  Lemma fun1_sc c d g g' k k' x y : fsc tau c x y ->
    (forall a, osc d (g a) (k (c * a))) -> (forall a, match g' a, k' (c * a) with Some p, Some q => q * c = d * p | None, None => True | _, _ => False end) ->
    fsc tau d (fun1 g g' x) (fun1 k k' y).
  Proof.
    intros [V T] H H'. unfold fun1. destruct (fval x) as [a|], (fval y) as [b|]; cbn in V; try contradiction; [|split; exact I]. subst b.
    specialize (H a). specialize (H' a). destruct (g a) as [p|], (k (c * a)) as [q|]; cbn in H; try contradiction; [|split; exact I].
    split; [exact H|]. cbn [ftan]. destruct (g' a) as [p'|], (k' (c * a)) as [q'|]; try contradiction; [|exact I].
    destruct (ftan x) as [s|], (ftan y) as [t|]; cbn in T; try contradiction; [|exact I].
    intros i. rewrite T. replace (q' * (c * tau i * s i)) with (q' * c * tau i * s i) by ring. rewrite H'. ring.
  Qed.

  Lemma fun2_sc c1 c2 d g ga gb k ka kb x1 x2 y1 y2 : fsc tau c1 x1 y1 -> fsc tau c2 x2 y2 ->
    (forall a b, osc d (g a b) (k (c1 * a) (c2 * b))) ->
    (forall a b, match ga a b, ka (c1 * a) (c2 * b) with Some p, Some q => q * c1 = d * p | None, None => True | _, _ => False end) ->
    (forall a b, match gb a b, kb (c1 * a) (c2 * b) with Some p, Some q => q * c2 = d * p | None, None => True | _, _ => False end) ->
    fsc tau d (fun2 g ga gb x1 x2) (fun2 k ka kb y1 y2).
  Proof.
    intros [V1 T1] [V2 T2] H Ha Hb. unfold fun2.
    destruct (fval x1) as [a|], (fval y1) as [a'|]; cbn in V1; try contradiction; [|split; exact I]. subst a'.
    destruct (fval x2) as [b|], (fval y2) as [b'|]; cbn in V2; try contradiction; [|split; exact I]. subst b'.
    specialize (H a b). specialize (Ha a b). specialize (Hb a b).
    destruct (g a b) as [p|], (k (c1 * a) (c2 * b)) as [q|]; cbn in H; try contradiction; [|split; exact I].
    split; [exact H|]. cbn [ftan].
    destruct (ga a b) as [p1|], (ka (c1 * a) (c2 * b)) as [q1|]; try contradiction; [|exact I].
    destruct (gb a b) as [p2|], (kb (c1 * a) (c2 * b)) as [q2|]; try contradiction; [|exact I].
    destruct (ftan x1) as [s1|], (ftan y1) as [t1|]; cbn in T1; try contradiction; [|exact I].
    destruct (ftan x2) as [s2|], (ftan y2) as [t2|]; cbn in T2; try contradiction; [|exact I].
    intros i. rewrite T1, T2. replace (q1 * (c1 * tau i * s1 i)) with (q1 * c1 * tau i * s1 i) by ring. replace (q2 * (c2 * tau i * s2 i)) with (q2 * c2 * tau i * s2 i) by ring.
    rewrite Ha, Hb. ring.
  Qed.

  Lemma const_sc c a b : b = c * a -> fsc tau c (fconst a) (fconst b).
  Proof. intros ->. split; [reflexivity|]. intros i. ring. Qed.
  Lemma zero_sc c : fsc tau c (fconst 0) (fconst 0).
  Proof. apply const_sc. ring. Qed.
  Lemma nan_sc c : fsc tau c fnan fnan.
  Proof. split; exact I. Qed.
  Lemma stored_sc c o : fsc tau c (fstored o) (fstored (option_map (Rmult c) o)).
  Proof. destruct o; [apply const_sc; reflexivity|apply nan_sc]. Qed.
  Lemma of_sc c x y : dsc tau c x y -> fsc tau c (fdual_of x) (fdual_of y).
  Proof. intros [V T]. split; [exact V|exact T]. Qed.

  Lemma add_sc c x x' y y' : fsc tau c x x' -> fsc tau c y y' -> fsc tau c (fadd x y) (fadd x' y').
  Proof. intros H H'. apply (fun2_sc c c c); [exact H|exact H'|intros a b; cbn; ring|intros; ring|intros; ring]. Qed.
  Lemma sub_sc c x x' y y' : fsc tau c x x' -> fsc tau c y y' -> fsc tau c (fsub x y) (fsub x' y').
  Proof. intros H H'. apply (fun2_sc c c c); [exact H|exact H'|intros a b; cbn; ring|intros; ring|intros; ring]. Qed.
  Lemma mul_sc c d e x x' y y' : fsc tau c x x' -> fsc tau d y y' -> e = c * d -> fsc tau e (fmul x y) (fmul x' y').
  Proof. intros H H' ->. apply (fun2_sc c d (c * d)); [exact H|exact H'|intros a b; cbn; ring|intros; ring|intros; ring]. Qed.
  Lemma div_sc c d e x x' y y' : fsc tau c x x' -> fsc tau d y y' -> d <> 0 -> e = c / d -> fsc tau e (fdiv x y) (fdiv x' y').
  Proof.
    intros H H' Hd ->. apply (fun2_sc c d (c / d)); [exact H|exact H'| | |]; intros a b; rewrite (Reqb_scale0 d b Hd); destruct (Reqb b 0) eqn:E; try exact I;
      (assert (b <> 0) by (intros ->; unfold Reqb in E; destruct (Req_EM_T 0 0); [discriminate|tauto])); cbn; field; tauto.
  Qed.
  Lemma scal_sc m c d k l x y : fsc tau c x y -> l = m * k -> d = m * c -> fsc tau d (fscal k x) (fscal l y).
  Proof. intros H -> ->. apply (fun1_sc c (m * c)); [exact H|intros a; cbn; ring|intros; ring]. Qed.
  Lemma divc_sc m c d k l x y : fsc tau c x y -> m <> 0 -> l = m * k -> d = c / m -> fsc tau d (fdivc x k) (fdivc y l).
  Proof. intros H Hm -> ->. apply (fun1_sc c (c / m)); [exact H|intros a; cbn; unfold Rdiv; rewrite Rinv_mult; ring|intros a; unfold Rdiv; rewrite Rinv_mult; ring]. Qed.
  Lemma sqrt_sc c d x y : fsc tau c x y -> 0 < c -> d = sqrt c -> fsc tau d (fsqrt x) (fsqrt y).
  Proof.
    intros H Hc ->. apply (fun1_sc c (sqrt c)); [exact H| |]; intros a.
    - rewrite Rltb_scale0 by exact Hc. destruct (Rltb a 0); [exact I|]. cbn. apply sqrt_mult_alt. lra.
    - rewrite Rltb_0scale by exact Hc. destruct (Rltb 0 a) eqn:E; [|exact I]. apply Rltb_true in E. rewrite sqrt_mult_alt by lra.
      assert (0 < sqrt c) by (apply sqrt_lt_R0; exact Hc). assert (0 < sqrt a) by (apply sqrt_lt_R0; exact E).
      replace c with (sqrt c * sqrt c) at 2 by (apply sqrt_sqrt; lra). field. lra.
  Qed.
  Lemma pow_sc c d p x y : fsc tau c x y -> 0 < c -> d = Rpower c p -> fsc tau d (fpow x p) (fpow y p).
  Proof.
    intros H Hc ->. apply (fun1_sc c (Rpower c p)); [exact H| |]; intros a.
    - unfold powr. rewrite Rltb_scale0, Reqb_scale0 by lra. destruct (Rltb a 0) eqn:E; [exact I|]. destruct (Reqb a 0) eqn:E'; [cbn; ring|]. cbn.
      apply Rltb_false in E. assert (a <> 0) by (intros ->; unfold Reqb in E'; destruct (Req_EM_T 0 0); [discriminate|tauto]). symmetry; apply Rpower_mult_distr; lra.
    - rewrite Rltb_0scale by exact Hc. destruct (Rltb 0 a) eqn:E; [|destruct (Rltb 1 p); [ring|exact I]]. apply Rltb_true in E. rewrite <- Rpower_mult_distr by lra.
      replace (Rpower c p) with (Rpower c (p - 1) * c); [ring|]. rewrite <- (Rpower_1 c) at 2 by exact Hc. rewrite <- Rpower_plus. f_equal. ring.
  Qed.
  Lemma ipow_sc c d n x y : fsc tau c x y -> d = c ^ n -> fsc tau d (fipow x n) (fipow y n).
  Proof.
    intros H ->. apply (fun1_sc c (c ^ n)); [exact H|intros a; cbn; apply Rpow_mult_distr|intros a]. rewrite Rpow_mult_distr. destruct n; [cbn; ring|].
    cbn [Nat.sub]. rewrite Nat.sub_0_r. cbn [pow]. ring.
  Qed.
  Lemma cpow_sc k x y : fsc tau 1 x y -> fsc tau 1 (fcpow k x) (fcpow k y).
  Proof. intros H. apply (fun1_sc 1 1); [exact H| |]; intros a; rewrite Rmult_1_l; cbn; ring. Qed.
  Lemma exp_sc x y : fsc tau 1 x y -> fsc tau 1 (fexp x) (fexp y).
  Proof. intros H. apply (fun1_sc 1 1); [exact H| |]; intros a; rewrite Rmult_1_l; cbn; ring. Qed.
  Lemma cos_sc x y : fsc tau 1 x y -> fsc tau 1 (fcos x) (fcos y).
  Proof. intros H. apply (fun1_sc 1 1); [exact H| |]; intros a; rewrite Rmult_1_l; cbn; ring. Qed.

  Lemma le_sc c x x' y y' : 0 < c -> fsc tau c x x' -> fsc tau c y y' -> fle x' y' = fle x y.
  Proof.
    intros Hc [V _] [W _]. unfold fle. destruct (fval x), (fval x'); cbn in V; try contradiction; [|reflexivity]. destruct (fval y), (fval y'); cbn in W; try contradiction; [|reflexivity].
    subst. apply Rleb_scale, Hc.
  Qed.
  Lemma lt_sc c x x' y y' : 0 < c -> fsc tau c x x' -> fsc tau c y y' -> flt x' y' = flt x y.
  Proof.
    intros Hc [V _] [W _]. unfold flt. destruct (fval x), (fval x'); cbn in V; try contradiction; [|reflexivity]. destruct (fval y), (fval y'); cbn in W; try contradiction; [|reflexivity].
    subst. apply Rltb_scale, Hc.
  Qed.
  Lemma where_sc c b b' x x' y y' : b' = b -> fsc tau c x x' -> fsc tau c y y' -> fsc tau c (fwhere b x y) (fwhere b' x' y').
  Proof. intros -> H H'. destruct b; assumption. Qed.

  Lemma tmean_sc c x x' y y' : fsc tau c x x' -> fsc tau c y y' -> tsc c tau (tmean x y) (tmean x' y').
  Proof.
    intros [_ T] [_ S]. unfold tmean. destruct (ftan x), (ftan x'); cbn in T; try contradiction; [|exact I]. destruct (ftan y), (ftan y'); cbn in S; try contradiction; [|exact I].
    intros i. rewrite T, S. field.
  Qed.
  Lemma min_sc c x x' y y' : 0 < c -> fsc tau c x x' -> fsc tau c y y' -> fsc tau c (fmin x y) (fmin x' y').
  Proof.
    intros Hc Hx Hy. pose proof (tmean_sc c x x' y y' Hx Hy) as M. pose proof Hx as [V _]. pose proof Hy as [W _]. unfold fmin.
    destruct (fval x) as [a|] eqn:Ea, (fval x') as [a'|] eqn:Ea'; cbn in V; try contradiction; [|apply nan_sc]. destruct (fval y) as [b|] eqn:Eb, (fval y') as [b'|] eqn:Eb'; cbn in W; try contradiction; [|apply nan_sc].
    subst a' b'. rewrite !Rltb_scale by exact Hc. destruct (Rltb a b); [exact Hx|]. destruct (Rltb b a); [exact Hy|]. split; [reflexivity|exact M].
  Qed.
  Lemma max_sc c x x' y y' : 0 < c -> fsc tau c x x' -> fsc tau c y y' -> fsc tau c (fmax x y) (fmax x' y').
  Proof.
    intros Hc Hx Hy. pose proof (tmean_sc c x x' y y' Hx Hy) as M. pose proof Hx as [V _]. pose proof Hy as [W _]. unfold fmax.
    destruct (fval x) as [a|] eqn:Ea, (fval x') as [a'|] eqn:Ea'; cbn in V; try contradiction; [|apply nan_sc]. destruct (fval y) as [b|] eqn:Eb, (fval y') as [b'|] eqn:Eb'; cbn in W; try contradiction; [|apply nan_sc].
    subst a' b'. rewrite !Rltb_scale by exact Hc. destruct (Rltb b a); [exact Hx|]. destruct (Rltb a b); [exact Hy|]. split; [reflexivity|exact M].
  Qed.
  Lemma sum_sc c n x y : (forall i, fsc tau c (x i) (y i)) -> fsc tau c (fsum n x) (fsum n y).
  Proof. intros H. induction n; cbn [fsum]; [apply zero_sc|apply add_sc; [exact IHn|apply H]]. Qed.

  Lemma vmax_sc c n (v : vec) : 0 < c -> vmax n (fun t => c * v t) = c * vmax n v.
  Proof.
    intros Hc. unfold vmax. generalize (seq 1 (n - 1)) as l. intros l. generalize (v O) as a. induction l as [|t l IH]; intros a; cbn [fold_left]; [reflexivity|].
    rewrite Rmax_scale by exact Hc. apply IH.
  Qed.
  Lemma fold_sc (f g : nat -> R) a l : (forall t, g t = a * f t) -> fold_right Rplus 0 (map g l) = a * fold_right Rplus 0 (map f l).
  Proof. intros H. induction l; cbn; [ring|]. rewrite IHl, H. ring. Qed.
  Lemma maximum_sc c n x y : 0 < c -> (forall t, dsc tau c (x t) (y t)) -> fsc tau c (fmaximum n x) (fmaximum n y).
  Proof.
    intros Hc H. unfold fmaximum. cbv zeta.
    assert (E : vmax n (fun t => dv (y t)) = c * vmax n (fun t => dv (x t))).
    { rewrite <- (vmax_sc c n (fun t => dv (x t)) Hc). unfold vmax. rewrite (proj1 (H O)). generalize (c * dv (x O)) as a. generalize (seq 1 (n - 1)) as l.
      induction l as [|t l IH]; intros a; cbn [fold_left]; [reflexivity|]. rewrite (proj1 (H t)). apply IH. }
    rewrite E. assert (F : filter (fun t => Reqb (dv (y t)) (c * vmax n (fun t => dv (x t)))) (seq 0 n) = filter (fun t => Reqb (dv (x t)) (vmax n (fun t => dv (x t)))) (seq 0 n)).
    { apply filter_ext. intros t. rewrite (proj1 (H t)). apply Reqb_scale. lra. }
    rewrite F. split; [reflexivity|]. cbn [ftan tsc]. intros i. rewrite (fold_sc (fun t => dt (x t) i) (fun t => dt (y t) i) (c * tau i)) by (intros t; apply (proj2 (H t))).
    unfold Rdiv. ring.
  Qed.

  (** numbers without conditions on finiteness *)
  Lemma dconst_sc c a b : b = c * a -> dsc tau c (dconst a) (dconst b).
  Proof. intros ->. split; [reflexivity|intros i; cbn; ring]. Qed.
  Lemma dadd_sc c x x' y y' : dsc tau c x x' -> dsc tau c y y' -> dsc tau c (dadd x y) (dadd x' y').
  Proof. intros [V T] [W S]. split; [cbn; rewrite V, W; ring|intros i; cbn; rewrite T, S; ring]. Qed.
  Lemma dsub_sc c x x' y y' : dsc tau c x x' -> dsc tau c y y' -> dsc tau c (dsub x y) (dsub x' y').
  Proof. intros [V T] [W S]. split; [cbn; rewrite V, W; ring|intros i; cbn; rewrite T, S; ring]. Qed.
  Lemma dscal_sc m c d k l x y : dsc tau c x y -> l = m * k -> d = m * c -> dsc tau d (dscal k x) (dscal l y).
  Proof. intros [V T] -> ->. split; [cbn; rewrite V; ring|intros i; cbn; rewrite T; ring]. Qed.
  Lemma dmean_sc c v x x' y y' : dsc tau c x x' -> dsc tau c y y' -> dsc tau c (dmean v x y) (dmean (c * v) x' y').
  Proof. intros [V T] [W S]. split; [reflexivity|intros i; cbn; rewrite T, S; field]. Qed.
  Lemma dmin_sc c x x' y y' : 0 < c -> dsc tau c x x' -> dsc tau c y y' -> dsc tau c (dmin x y) (dmin x' y').
  Proof.
    intros Hc Hx Hy. unfold dmin. rewrite (proj1 Hx), (proj1 Hy), !Rltb_scale by exact Hc. destruct (Rltb (dv x) (dv y)); [exact Hx|]. destruct (Rltb (dv y) (dv x)); [exact Hy|].
    apply dmean_sc; assumption.
  Qed.
  Lemma dmax_sc c x x' y y' : 0 < c -> dsc tau c x x' -> dsc tau c y y' -> dsc tau c (dmax x y) (dmax x' y').
  Proof.
    intros Hc Hx Hy. unfold dmax. rewrite (proj1 Hx), (proj1 Hy), !Rltb_scale by exact Hc. destruct (Rltb (dv y) (dv x)); [exact Hx|]. destruct (Rltb (dv x) (dv y)); [exact Hy|].
    apply dmean_sc; assumption.
  Qed.
  Lemma dseed_sc c x y i : y i = c * x i -> c * tau i = 1 -> dsc tau c (dseed x i) (dseed y i).
  Proof.
    intros E H. split; [exact E|]. intros j. cbn. destruct (Nat.eqb_spec j i) as [->|_]; [rewrite H|]; ring.
  Qed.
  Lemma get_sc c x y : fsc tau c x y -> dsc tau c (fdual_get x) (fdual_get y).
  Proof.
    intros [V T]. unfold fdual_get. split; cbn [dv dt].
    - destruct (fval x), (fval y); cbn in *; try contradiction; [exact V|ring].
    - intros i. destruct (ftan x), (ftan y); cbn in *; try contradiction; [apply T|ring].
  Qed.
  Lemma values_sc c n (x y : nat -> fdual) : (forall t, fsc tau c (x t) (y t)) -> all_values n y = all_values n x.
  Proof.
    intros H. unfold all_values. generalize (seq 0 n) as l. induction l as [|t l IH]; [reflexivity|]. cbn [forallb]. rewrite IH. f_equal. destruct (H t) as [V _].
    destruct (fval (x t)), (fval (y t)); cbn in *; tauto.
  Qed.
  Lemma tangents_sc c n (x y : nat -> fdual) : (forall t, fsc tau c (x t) (y t)) -> all_tangents n y = all_tangents n x.
  Proof.
    intros H. unfold all_tangents. generalize (seq 0 n) as l. induction l as [|t l IH]; [reflexivity|]. cbn [forallb]. rewrite IH. f_equal. destruct (H t) as [_ T].
    destruct (ftan (x t)), (ftan (y t)); cbn in *; tauto.
  Qed.
End Float.
