(** Traced numbers along a curve: the value is differentiable and the tangents give its derivative. *)
From Coq Require Import Reals Lra Lia Arith List Bool FunctionalExtensionality.
From Verif.Lib Require Import RSum Calc Py.
From Verif.Spec Require Import Calculus.
From Verif.Model Require Import JaxDual JaxFloat.
From Verif.Proofs Require Import JaxDualP JaxFloatP.
Import ListNotations.
Open Scope R_scope.

Definition near (t0 : R) (P : R -> Prop) : Prop := exists d, 0 < d /\ forall t, Rabs (t - t0) < d -> P t.

Lemma near_and t0 (P Q : R -> Prop) : near t0 P -> near t0 Q -> near t0 (fun t => P t /\ Q t).
Proof. intros (a & Ha & HP) (b & Hb & HQ). exists (Rmin a b). split; [apply Rmin_glb_lt; assumption|]. intros t Ht. pose proof (Rmin_l a b). pose proof (Rmin_r a b). split; [apply HP|apply HQ]; lra. Qed.
Lemma near_impl t0 (P Q : R -> Prop) : (forall t, P t -> Q t) -> near t0 P -> near t0 Q.
Proof. intros H (a & Ha & HP). exists a. split; [exact Ha|]. intros t Ht. apply H, HP, Ht. Qed.
Lemma near_here t0 (P : R -> Prop) : near t0 P -> P t0.
Proof. intros (a & Ha & HP). apply HP. replace (t0 - t0) with 0 by ring. rewrite Rabs_R0. exact Ha. Qed.
Lemma near_all t0 (P : R -> Prop) : (forall t, P t) -> near t0 P.
Proof. intros H. exists 1. split; [lra|]. intros t _. apply H. Qed.

Section Curve.
  Variables (m : nat) (v : vec) (t0 : R).
  Notation near := (near t0).

  (** x has the value f near t0 and the tangents T at t0 *)
  Definition tr (x : R -> fdual) (f : R -> R) (T : vec) : Prop :=
    near (fun t => fv (x t) (f t)) /\ ftan (x t0) = Some T /\ derivable_pt_lim f t0 (rsum m (fun j => T j * v j)).
  (** x is traced correctly and has the value a at t0 *)
  Definition tv (x : R -> fdual) (a : R) : Prop := exists f T, tr x f T /\ f t0 = a.

  Lemma tv_fv x a : tv x a -> fv (x t0) a.
  Proof. intros (f & T & (N & _) & E). rewrite <- E. exact (near_here t0 _ N). Qed.
  Lemma tv_eq x a b : tv x a -> a = b -> tv x b.
  Proof. intros H <-. exact H. Qed.
  Lemma tv_near x y a : near (fun t => x t = y t) -> tv x a -> tv y a.
  Proof.
    intros H (f & T & (N & Ht & D) & E). exists f, T. split; [|exact E]. split; [|split; [|exact D]].
    - eapply near_impl; [|exact (near_and t0 _ _ H N)]. intros t [<- Hv]. exact Hv.
    - rewrite <- (near_here t0 _ H). exact Ht.
  Qed.
  Lemma tv_value x a (h : R -> R) : tv x a -> (forall t, fv (x t) (h t)) -> exists T, ftan (x t0) = Some T /\ derivable_pt_lim h t0 (rsum m (fun j => T j * v j)).
  Proof.
    intros (f & T & (N & Ht & D) & E) H. exists T. split; [exact Ht|]. destruct N as (d & Hd & N). eapply (dlim_same_near f h t0 _ d Hd); [|exact D].
    intros t Hd'. exact (fv_unique (x t) _ _ (N t Hd') (H t)).
  Qed.

  Lemma tv_const c : tv (fun _ => fconst c) c.
  Proof.
    exists (fun _ => c), (fun _ => 0). split; [|reflexivity]. split; [apply near_all; intros; apply fv_const|]. split; [reflexivity|].
    eapply dlim_eq; [apply dlim_const|]. symmetry. apply rsum_zero. intros; ring.
  Qed.

  Lemma tr_fun1 g g' G x f T d : tr x f T -> near (fun t => g (f t) = Some (G (f t))) -> g' (f t0) = Some d -> derivable_pt_lim G (f t0) d ->
    tr (fun t => fun1 g g' (x t)) (fun t => G (f t)) (fun i => d * T i).
  Proof.
    intros (N & Ht & D) Hg Hg' DG. split; [|split].
    - eapply near_impl; [|exact (near_and t0 _ _ N Hg)]. intros t [A B]. exact (fv_fun1 g g' (x t) (f t) _ A B).
    - unfold fun1. rewrite (near_here t0 _ N). cbv beta. rewrite (near_here t0 _ Hg). cbn [ftan]. rewrite Hg', Ht. reflexivity.
    - eapply dlim_eq; [exact (derivable_pt_lim_comp f G t0 _ _ D DG)|]. rewrite <- rsum_scal_l. apply rsum_ext. intros; ring.
  Qed.
  Lemma tv_fun1 g g' G x a d : tv x a -> (forall f l, f t0 = a -> derivable_pt_lim f t0 l -> near (fun t => g (f t) = Some (G (f t)))) -> g' a = Some d -> derivable_pt_lim G a d ->
    tv (fun t => fun1 g g' (x t)) (G a).
  Proof.
    intros (f & T & H & E) Hg Hg' DG. exists (fun t => G (f t)), (fun i => d * T i). split; [|rewrite E; reflexivity].
    apply tr_fun1; [exact H|exact (Hg f _ E (proj2 (proj2 H)))|rewrite E; exact Hg'|rewrite E; exact DG].
  Qed.
  Lemma tv_fun2 g ga gb G x y a b da db : tv x a -> tv y b -> (forall h l, h t0 = b -> derivable_pt_lim h t0 l -> near (fun t => forall u, g u (h t) = Some (G u (h t)))) ->
    ga a b = Some da -> gb a b = Some db -> exact_partials G a b da db -> tv (fun t => fun2 g ga gb (x t) (y t)) (G a b).
  Proof.
    intros (f & T & (N & Ht & D) & E) (h & S & (M & Hs & D') & E') Hg Ha Hb P. exists (fun t => G (f t) (h t)), (fun i => da * T i + db * S i). split; [|rewrite E, E'; reflexivity].
    pose proof (Hg h _ E' D') as Hg'. split; [|split].
    - eapply near_impl; [|exact (near_and t0 _ _ (near_and t0 _ _ N M) Hg')]. intros t [[A B] C]. exact (fv_fun2 g ga gb (x t) (y t) (f t) (h t) _ A B (C _)).
    - unfold fun2. rewrite (near_here t0 _ N), (near_here t0 _ M). rewrite (near_here t0 _ Hg'). cbn [ftan]. rewrite E, E', Ha, Hb, Ht, Hs. reflexivity.
    - eapply dlim_eq; [exact (P f h t0 _ _ E E' D D')|]. rewrite <- !rsum_scal_l, <- rsum_plus. apply rsum_ext. intros; ring.
  Qed.

  Lemma tv_add x y a b : tv x a -> tv y b -> tv (fun t => fadd (x t) (y t)) (a + b).
  Proof.
    intros Hx Hy. apply (tv_fun2 _ _ _ (fun a b => a + b) x y a b 1 1 Hx Hy); [intros; apply near_all; intros; reflexivity|reflexivity|reflexivity|].
    intros p q t dp dq _ _ Dp Dq. eapply dlim_eq; [exact (dlim_plus _ _ _ _ _ Dp Dq)|ring].
  Qed.
  Lemma tv_sub x y a b : tv x a -> tv y b -> tv (fun t => fsub (x t) (y t)) (a - b).
  Proof.
    intros Hx Hy. apply (tv_fun2 _ _ _ (fun a b => a - b) x y a b 1 (-1) Hx Hy); [intros; apply near_all; intros; reflexivity|reflexivity|reflexivity|].
    intros p q t dp dq _ _ Dp Dq. eapply dlim_eq; [exact (dlim_minus _ _ _ _ _ Dp Dq)|ring].
  Qed.
  Lemma tv_mul x y a b : tv x a -> tv y b -> tv (fun t => fmul (x t) (y t)) (a * b).
  Proof.
    intros Hx Hy. apply (tv_fun2 _ _ _ (fun a b => a * b) x y a b b a Hx Hy); [intros; apply near_all; intros; reflexivity|reflexivity|reflexivity|].
    intros p q t dp dq Ep Eq Dp Dq. eapply dlim_eq; [exact (derivable_pt_lim_mult _ _ _ _ _ Dp Dq)|]. rewrite Ep, Eq. ring.
  Qed.
  Lemma dlim_nonzero (h : R -> R) l : derivable_pt_lim h t0 l -> h t0 <> 0 -> near (fun t => h t <> 0).
  Proof.
    intros D H. destruct (Rlt_or_le (h t0) 0) as [L|L].
    - destruct (dlim_below h (fun _ => 0) t0 _ _ D (dlim_const 0 t0) L) as (d & Hd & B). exists d. split; [exact Hd|]. intros t Ht. specialize (B t Ht). lra.
    - destruct (dlim_below (fun _ => 0) h t0 _ _ (dlim_const 0 t0) D ltac:(lra)) as (d & Hd & B). exists d. split; [exact Hd|]. intros t Ht. specialize (B t Ht). lra.
  Qed.
  Lemma dlim_positive (h : R -> R) l : derivable_pt_lim h t0 l -> 0 < h t0 -> near (fun t => 0 < h t).
  Proof. intros D H. destruct (dlim_below (fun _ => 0) h t0 _ _ (dlim_const 0 t0) D H) as (d & Hd & B). exists d. split; [exact Hd|exact B]. Qed.
  Lemma tv_div x y a b : tv x a -> tv y b -> b <> 0 -> tv (fun t => fdiv (x t) (y t)) (a / b).
  Proof.
    intros Hx Hy Hb. apply (tv_fun2 _ _ _ (fun a b => a / b) x y a b (/ b) (- a / (b * b)) Hx Hy).
    - intros h l Eh Dh. eapply near_impl; [|apply (dlim_nonzero h l Dh); rewrite Eh; exact Hb]. intros t Ht u. cbv beta. rewrite (proj2 (Reqb_false_iff (h t) 0)) by exact Ht. reflexivity.
    - cbv beta. rewrite (proj2 (Reqb_false_iff b 0)) by exact Hb. reflexivity.
    - cbv beta. rewrite (proj2 (Reqb_false_iff b 0)) by exact Hb. reflexivity.
    - intros p q t dp dq Ep Eq Dp Dq. eapply dlim_eq; [apply (derivable_pt_lim_div p q t dp dq Dp Dq); rewrite Eq; exact Hb|]. rewrite Ep, Eq. unfold Rsqr. field. exact Hb.
  Qed.
  Lemma tv_scal c x a : tv x a -> tv (fun t => fscal c (x t)) (c * a).
  Proof.
    intros Hx. apply (tv_fun1 _ _ (fun a => c * a) x a c Hx); [intros; apply near_all; intros; reflexivity|reflexivity|].
    eapply dlim_eq; [apply derivable_pt_lim_scal; apply derivable_pt_lim_id|ring].
  Qed.
  Lemma tv_divc c x a : tv x a -> tv (fun t => fdivc (x t) c) (a / c).
  Proof.
    intros Hx. apply (tv_fun1 _ _ (fun a => a / c) x a (/ c) Hx); [intros; apply near_all; intros; reflexivity|reflexivity|].
    eapply dlim_ext; [|eapply dlim_eq; [apply (derivable_pt_lim_scal id (/ c)); apply derivable_pt_lim_id|ring]]. intros t. unfold mult_real_fct, id. unfold Rdiv. ring.
  Qed.
  Lemma tv_sqrt x a : tv x a -> 0 < a -> tv (fun t => fsqrt (x t)) (sqrt a).
  Proof.
    intros Hx Ha. apply (tv_fun1 _ _ sqrt x a (/ (2 * sqrt a)) Hx).
    - intros f l Ef Df. eapply near_impl; [|apply (dlim_positive f l Df); rewrite Ef; exact Ha]. intros t Ht. cbv beta. rewrite (proj2 (Rltb_false (f t) 0)) by lra. reflexivity.
    - cbv beta. rewrite (proj2 (Rltb_true 0 a)) by exact Ha. reflexivity.
    - apply derivable_pt_lim_sqrt. exact Ha.
  Qed.
  Lemma tv_pow x a p : tv x a -> 0 < a -> tv (fun t => fpow (x t) p) (Rpower a p).
  Proof.
    intros Hx Ha. apply (tv_fun1 _ _ (fun a => Rpower a p) x a (p * Rpower a (p - 1)) Hx).
    - intros f l Ef Df. eapply near_impl; [|apply (dlim_positive f l Df); rewrite Ef; exact Ha]. intros t Ht. cbv beta. unfold powr. rewrite (proj2 (Rltb_false (f t) 0)) by lra. rewrite (proj2 (Reqb_false_iff (f t) 0)) by lra. reflexivity.
    - cbv beta. rewrite (proj2 (Rltb_true 0 a)) by exact Ha. reflexivity.
    - apply derivable_pt_lim_power. exact Ha.
  Qed.
  Lemma tv_ipow x a n : tv x a -> tv (fun t => fipow (x t) n) (a ^ n).
  Proof.
    intros Hx. apply (tv_fun1 _ _ (fun a => a ^ n) x a (INR n * a ^ (n - 1)) Hx); [intros; apply near_all; intros; reflexivity|reflexivity|].
    eapply dlim_eq; [apply derivable_pt_lim_pow|]. rewrite Nat.sub_1_r. reflexivity.
  Qed.
  Lemma tv_exp x a : tv x a -> tv (fun t => fexp (x t)) (exp a).
  Proof. intros Hx. apply (tv_fun1 _ _ exp x a (exp a) Hx); [intros; apply near_all; intros; reflexivity|reflexivity|]. apply derivable_pt_lim_exp. Qed.
  Lemma tv_cos x a : tv x a -> tv (fun t => fcos (x t)) (cos a).
  Proof. intros Hx. apply (tv_fun1 _ _ cos x a (- sin a) Hx); [intros; apply near_all; intros; reflexivity|reflexivity|]. apply derivable_pt_lim_cos. Qed.
  Lemma tv_cpow c x a : tv x a -> tv (fun t => fcpow c (x t)) (Rpower c a).
  Proof.
    intros Hx. apply (tv_fun1 _ _ (fun a => Rpower c a) x a (ln c * Rpower c a) Hx); [intros; apply near_all; intros; reflexivity|reflexivity|].
    assert (D : derivable_pt_lim (fun a => a * ln c) a (ln c)).
    { eapply dlim_ext; [|eapply dlim_eq; [apply (derivable_pt_lim_scal id (ln c)); apply derivable_pt_lim_id|ring]]. intros t. unfold mult_real_fct, id. ring. }
    unfold Rpower. eapply dlim_eq; [exact (derivable_pt_lim_comp _ exp a _ _ D (derivable_pt_lim_exp _))|ring].
  Qed.

  Lemma tv_sum n x a : (forall i, (i < n)%nat -> tv (x i) (a i)) -> tv (fun t => JaxFloat.fsum n (fun i => x i t)) (rsum n a).
  Proof. induction n as [|n IH]; intros H; [apply tv_const|]. cbn [JaxFloat.fsum rsum]. apply (tv_add (fun t => JaxFloat.fsum n (fun i => x i t)) (x n)); [apply IH; intros; apply H; lia|apply H; lia]. Qed.

  (** comparisons *)
  Lemma tv_below x y a b : tv x a -> tv y b -> a < b -> near (fun t => exists p q, fv (x t) p /\ fv (y t) q /\ p < q).
  Proof.
    intros (f & T & (N & _ & D) & E) (h & S & (M & _ & D') & E') H. destruct (dlim_below f h t0 _ _ D D' ltac:(lra)) as (d & Hd & B).
    assert (B' : near (fun t => f t < h t)) by (exists d; split; assumption).
    eapply near_impl; [|exact (near_and t0 _ _ (near_and t0 _ _ N M) B')]. intros t [[A1 A2] A3]. exists (f t), (h t). repeat split; assumption.
  Qed.
  Lemma tv_lt x y a b : tv x a -> tv y b -> a < b -> near (fun t => flt (x t) (y t) = true).
  Proof. intros Hx Hy H. eapply near_impl; [|exact (tv_below x y a b Hx Hy H)]. intros t (p & q & A & B & C). rewrite (flt_v _ _ p q A B). apply Rltb_true. exact C. Qed.
  Lemma tv_not_lt x y a b : tv x a -> tv y b -> b < a -> near (fun t => flt (x t) (y t) = false).
  Proof. intros Hx Hy H. eapply near_impl; [|exact (tv_below y x b a Hy Hx H)]. intros t (p & q & A & B & C). rewrite (flt_v _ _ q p B A). apply Rltb_false. lra. Qed.
  Lemma tv_le x y a b : tv x a -> tv y b -> a < b -> near (fun t => fle (x t) (y t) = true).
  Proof. intros Hx Hy H. eapply near_impl; [|exact (tv_below x y a b Hx Hy H)]. intros t (p & q & A & B & C). rewrite (fle_v _ _ p q A B). unfold Rleb. destruct (Rle_dec p q); [reflexivity|lra]. Qed.
  Lemma tv_not_le x y a b : tv x a -> tv y b -> b < a -> near (fun t => fle (x t) (y t) = false).
  Proof. intros Hx Hy H. eapply near_impl; [|exact (tv_below y x b a Hy Hx H)]. intros t (p & q & A & B & C). rewrite (fle_v _ _ q p B A). unfold Rleb. destruct (Rle_dec q p); [lra|reflexivity]. Qed.

  Lemma tv_pos_part x a : tv x a -> 0 < a -> tv (fun t => fwhere (fle (fconst 0) (x t)) (x t) (fconst 0)) a.
  Proof. intros H Ha. eapply tv_near; [|exact H]. eapply near_impl; [|exact (tv_le _ x 0 a (tv_const 0) H Ha)]. intros t ->. reflexivity. Qed.
  Lemma neg_part x a : tv x a -> a < 0 -> near (fun t => fwhere (fle (fconst 0) (x t)) (x t) (fconst 0) = fconst 0).
  Proof. intros H Ha. eapply near_impl; [|exact (tv_not_le _ x 0 a (tv_const 0) H Ha)]. intros t ->. reflexivity. Qed.

  Lemma tv_min_l x y a b : tv x a -> tv y b -> a < b -> tv (fun t => fmin (x t) (y t)) a.
  Proof. intros Hx Hy H. eapply tv_near; [|exact Hx]. eapply near_impl; [|exact (tv_below x y a b Hx Hy H)]. intros t (p & q & A & B & C). unfold fmin. rewrite A, B. rewrite (proj2 (Rltb_true p q)) by exact C. reflexivity. Qed.
  Lemma tv_min_r x y a b : tv x a -> tv y b -> b < a -> tv (fun t => fmin (x t) (y t)) b.
  Proof.
    intros Hx Hy H. eapply tv_near; [|exact Hy]. eapply near_impl; [|exact (tv_below y x b a Hy Hx H)]. intros t (p & q & A & B & C). unfold fmin. rewrite A, B. rewrite (proj2 (Rltb_false q p)) by lra.
    rewrite (proj2 (Rltb_true p q)) by exact C. reflexivity.
  Qed.
  Lemma tv_max_l x y a b : tv x a -> tv y b -> b < a -> tv (fun t => fmax (x t) (y t)) a.
  Proof. intros Hx Hy H. eapply tv_near; [|exact Hx]. eapply near_impl; [|exact (tv_below y x b a Hy Hx H)]. intros t (p & q & A & B & C). unfold fmax. rewrite A, B. rewrite (proj2 (Rltb_true p q)) by exact C. reflexivity. Qed.
  Lemma tv_max_r x y a b : tv x a -> tv y b -> a < b -> tv (fun t => fmax (x t) (y t)) b.
  Proof.
    intros Hx Hy H. eapply tv_near; [|exact Hy]. eapply near_impl; [|exact (tv_below x y a b Hx Hy H)]. intros t (p & q & A & B & C). unfold fmax. rewrite A, B. rewrite (proj2 (Rltb_false q p)) by lra.
    rewrite (proj2 (Rltb_true p q)) by exact C. reflexivity.
  Qed.

  (** zero tangents and a value that is constant near t0 *)
  Definition still (x : R -> fdual) (a : R) : Prop := near (fun t => fv (x t) a) /\ exists T, ftan (x t0) = Some T /\ forall i, T i = 0.
  Lemma still_tv x a : still x a -> tv x a.
  Proof.
    intros [N (T & Ht & Z)]. exists (fun _ => a), T. split; [|reflexivity]. split; [exact N|]. split; [exact Ht|]. eapply dlim_eq; [apply dlim_const|]. symmetry. apply rsum_zero. intros j _. rewrite Z. ring.
  Qed.
  Lemma still_const c : still (fun _ => fconst c) c.
  Proof. split; [apply near_all; intros; apply fv_const|]. eexists. split; [reflexivity|]. reflexivity. Qed.
  Lemma still_near x y a : near (fun t => x t = y t) -> still x a -> still y a.
  Proof.
    intros H [N (T & Ht & Z)]. split.
    - eapply near_impl; [|exact (near_and t0 _ _ H N)]. intros t [<- Hv]. exact Hv.
    - exists T. rewrite <- (near_here t0 _ H). split; assumption.
  Qed.

  (** a trial value limited to [-hi, hi]: the tangents are right unless the trial is at a limit *)
  Lemma tv_clamp (x hi : R -> fdual) a b : tv x a -> tv hi b -> near (fun t => exists c, fv (hi t) c /\ 0 <= c) -> a <> b -> a <> - b ->
    tv (fun t => fmax (fmin (x t) (hi t)) (fscal (-1) (hi t))) (Rmax (Rmin a b) (- b)).
  Proof.
    intros Hx Hh Hp Na Nb. pose proof (tv_scal (-1) hi b Hh) as Hl. replace (-1 * b) with (- b) in Hl by ring.
    assert (B0 : 0 <= b). { destruct (near_here t0 _ Hp) as (c & Hc & C0). rewrite (fv_unique _ _ _ (tv_fv hi b Hh) Hc). exact C0. }
    destruct (Rlt_or_le a b) as [L|L].
    - pose proof (tv_min_l x hi a b Hx Hh L) as Hm. rewrite (Rmin_left a b) by lra. destruct (Rlt_or_le a (- b)) as [L'|L'].
      + rewrite Rmax_right by lra. exact (tv_max_r _ _ a (- b) Hm Hl L').
      + rewrite Rmax_left by lra. apply (tv_max_l _ _ a (- b) Hm Hl). lra.
    - assert (L' : b < a) by lra. pose proof (tv_min_r x hi a b Hx Hh L') as Hm. rewrite (Rmin_right a b) by lra. destruct (Rle_lt_or_eq_dec 0 b B0) as [Bp|Bz].
      + rewrite Rmax_left by lra. apply (tv_max_l _ _ b (- b) Hm Hl). lra.
      + subst b. rewrite Ropp_0, Rmax_left by lra. destruct Hh as (h & S & (N & Ht & D) & E0).
        assert (P : near (fun t => 0 <= h t)). { eapply near_impl; [|exact (near_and t0 _ _ N Hp)]. intros t [A (c & Hc & C0)]. rewrite (fv_unique _ _ _ A Hc). exact C0. }
        assert (D0 : rsum m (fun j => S j * v j) = 0).
        { destruct P as (d & Hd & P). apply (dlim_minimum (fun t => Rmax 0 (h t)) t0); [|rewrite E0; apply Rmax_left; lra|intros t; apply Rmax_l].
          eapply (dlim_same_near h _ t0 _ d Hd); [|exact D]. intros t Ht'. rewrite Rmax_right; [reflexivity|apply P; exact Ht']. }
        exists h. exists (fun i => (S i + -1 * S i) / 2). split; [|exact E0]. split; [|split].
        * assert (Hh' : tv hi 0) by (exists h, S; split; [split; [exact N|split; assumption]|exact E0]).
          eapply near_impl; [|exact (near_and t0 _ _ (near_and t0 _ _ (tv_below hi x 0 a Hh' Hx L') N) P)].
          intros t [[(p & q & A & B & C) A'] P']. pose proof (fv_unique _ _ _ A A') as Ep. subst p.
          eapply fv_eq; [apply fv_max; [apply fv_min; [exact B|exact A]|apply fv_scal; exact A]|]. rewrite Rmin_right by lra. rewrite Rmax_left; [reflexivity|]. lra.
        * pose proof (tv_fv x a Hx) as Vx. pose proof (near_here t0 _ N) as Vh. cbv beta in Vh. rewrite E0 in Vh.
          assert (Em : fmin (x t0) (hi t0) = hi t0) by (unfold fmin; rewrite Vx, Vh; rewrite (proj2 (Rltb_false a 0)) by lra; rewrite (proj2 (Rltb_true 0 a)) by lra; reflexivity). rewrite Em.
          assert (Vl : fv (fscal (-1) (hi t0)) 0) by (eapply fv_eq; [apply fv_scal; exact Vh|ring]). unfold fmax. rewrite Vh. rewrite Vl. rewrite (proj2 (Rltb_false 0 0)) by lra. cbn [ftan]. unfold tmean. rewrite Ht.
          unfold fscal, fun1. rewrite Vh. cbn [ftan]. rewrite Ht. reflexivity.
        * eapply dlim_eq; [exact D|]. rewrite D0. symmetry. apply rsum_zero. intros; field.
  Qed.

  (** nothing moves *)
  Lemma still_clamp (x hi : R -> fdual) a : still x a -> still hi 0 -> still (fun t => fmax (fmin (x t) (hi t)) (fscal (-1) (hi t))) 0.
  Proof.
    intros [Nx (T & Ht & Z)] [Nh (S & Hs & Z')]. split.
    - eapply near_impl; [|exact (near_and t0 _ _ Nx Nh)]. intros t [A B]. eapply fv_eq; [apply fv_max; [apply fv_min; [exact A|exact B]|apply fv_scal; exact B]|].
      destruct (Rle_lt_dec a 0); [rewrite Rmin_left by lra; rewrite Rmax_right by lra; ring|rewrite Rmin_right by lra; rewrite Rmax_left by lra; reflexivity].
    - pose proof (near_here t0 _ Nx) as Vx. pose proof (near_here t0 _ Nh) as Vh. cbv beta in Vx, Vh.
      assert (Vl : fv (fscal (-1) (hi t0)) 0) by (eapply fv_eq; [apply fv_scal; exact Vh|ring]).
      assert (Tl : ftan (fscal (-1) (hi t0)) = Some (fun i => -1 * S i)) by (unfold fscal, fun1; rewrite Vh; cbn [ftan]; rewrite Hs; reflexivity).
      assert (M : exists b U, fv (fmin (x t0) (hi t0)) b /\ ftan (fmin (x t0) (hi t0)) = Some U /\ forall i, U i = 0).
      { exists (Rmin a 0). assert (V := fv_min _ _ _ _ Vx Vh). unfold fmin in *. rewrite Vx, Vh in *. destruct (Rltb a 0); [exists T; repeat split; assumption|]. destruct (Rltb 0 a); [exists S; repeat split; assumption|].
        exists (fun i => (T i + S i) / 2). split; [exact V|]. cbn [ftan]. unfold tmean. rewrite Ht, Hs. split; [reflexivity|]. intros i. rewrite Z, Z'. field. }
      destruct M as (b & U & Vm & Tm & Zm). set (mm := fmin (x t0) (hi t0)) in *. clearbody mm. set (ll := fscal (-1) (hi t0)) in *. clearbody ll. unfold fmax. rewrite Vm, Vl.
      destruct (Rltb 0 b); [exists U; split; assumption|]. destruct (Rltb b 0); [exists (fun i => -1 * S i); split; [exact Tl|intros i; rewrite Z'; ring]|].
      exists (fun i => (U i + -1 * S i) / 2). cbn [ftan]. unfold tmean. rewrite Tm, Tl. split; [reflexivity|]. intros i. rewrite Zm, Z'. field.
  Qed.

  Lemma still_scal c x a : still x a -> still (fun t => fscal c (x t)) (c * a).
  Proof.
    intros [N (T & Ht & Z)]. split; [eapply near_impl; [|exact N]; intros t A; apply fv_scal; exact A|].
    exists (fun i => c * T i). split; [|intros i; rewrite Z; ring]. unfold fscal, fun1. rewrite (near_here t0 _ N). cbn [ftan]. rewrite Ht. reflexivity.
  Qed.
  Lemma still_scal0 x a : tv x a -> still (fun t => fscal 0 (x t)) 0.
  Proof.
    intros (f & T & (N & Ht & _) & _). split; [eapply near_impl; [|exact N]; intros t A; eapply fv_eq; [apply fv_scal; exact A|ring]|].
    exists (fun i => 0 * T i). split; [|intros i; ring]. unfold fscal, fun1. rewrite (near_here t0 _ N). cbn [ftan]. rewrite Ht. reflexivity.
  Qed.
  Lemma still_mul0 x y b : still x 0 -> tv y b -> still (fun t => fmul (x t) (y t)) 0.
  Proof.
    intros [N (T & Ht & Z)] (f & S & (M & Hs & _) & _). split.
    - eapply near_impl; [|exact (near_and t0 _ _ N M)]. intros t [A B]. eapply fv_eq; [apply fv_mul; [exact A|exact B]|ring].
    - unfold fmul, fun2. rewrite (near_here t0 _ N), (near_here t0 _ M). cbn [ftan]. rewrite Ht, Hs. eexists. split; [reflexivity|]. intros i. cbv beta. rewrite Z. ring.
  Qed.
  Lemma still_add x y a b : still x a -> still y b -> still (fun t => fadd (x t) (y t)) (a + b).
  Proof.
    intros [N (T & Ht & Z)] [M (S & Hs & Z')]. split.
    - eapply near_impl; [|exact (near_and t0 _ _ N M)]. intros t [A B]. apply fv_add; assumption.
    - unfold fadd, fun2. rewrite (near_here t0 _ N), (near_here t0 _ M). cbn [ftan]. rewrite Ht, Hs. eexists. split; [reflexivity|]. intros i. cbv beta. rewrite Z, Z'. ring.
  Qed.
  (** a trial value that is limited to zero *)
  Lemma stopped_clamp (x hi : R -> fdual) a : tv x a -> a <> 0 -> still hi 0 -> still (fun t => fmax (fmin (x t) (hi t)) (fscal (-1) (hi t))) 0.
  Proof.
    intros Hx Ha [Nh (S & Hs & Z')]. destruct Hx as (f & T & (Nx & Ht & D) & Ef). split.
    - eapply near_impl; [|exact (near_and t0 _ _ Nx Nh)]. intros t [A B]. eapply fv_eq; [apply fv_max; [apply fv_min; [exact A|exact B]|apply fv_scal; exact B]|].
      destruct (Rle_lt_dec (f t) 0); [rewrite Rmin_left by lra; rewrite Rmax_right by lra; ring|rewrite Rmin_right by lra; rewrite Rmax_left by lra; reflexivity].
    - pose proof (near_here t0 _ Nx) as Vx. pose proof (near_here t0 _ Nh) as Vh. cbv beta in Vx, Vh. rewrite Ef in Vx.
      assert (Vl : fv (fscal (-1) (hi t0)) 0) by (eapply fv_eq; [apply fv_scal; exact Vh|ring]).
      assert (Tl : ftan (fscal (-1) (hi t0)) = Some (fun i => -1 * S i)) by (unfold fscal, fun1; rewrite Vh; cbn [ftan]; rewrite Hs; reflexivity).
      destruct (Rlt_or_le a 0) as [L|L].
      + assert (Em : fmin (x t0) (hi t0) = x t0) by (unfold fmin; rewrite Vx, Vh; rewrite (proj2 (Rltb_true a 0)) by exact L; reflexivity). rewrite Em. set (l := fscal (-1) (hi t0)) in *. clearbody l.
        unfold fmax. rewrite Vx, Vl. rewrite (proj2 (Rltb_false 0 a)) by lra. rewrite (proj2 (Rltb_true a 0)) by exact L. exists (fun i => -1 * S i). split; [exact Tl|]. intros i. rewrite Z'. ring.
      + assert (Em : fmin (x t0) (hi t0) = hi t0) by (unfold fmin; rewrite Vx, Vh; rewrite (proj2 (Rltb_false a 0)) by lra; rewrite (proj2 (Rltb_true 0 a)) by lra; reflexivity). rewrite Em. set (l := fscal (-1) (hi t0)) in *. clearbody l.
        unfold fmax. rewrite Vh, Vl. rewrite (proj2 (Rltb_false 0 0)) by lra. cbn [ftan]. unfold tmean. rewrite Hs, Tl. eexists. split; [reflexivity|]. intros i. cbv beta. rewrite Z'. field.
  Qed.
End Curve.
