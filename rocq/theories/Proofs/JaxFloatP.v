(** Values of the numbers of JaxFloat.v. *)
From Coq Require Import Reals Lra Lia Arith List Bool FunctionalExtensionality.
From Verif.Lib Require Import RSum Calc Py.
From Verif.Spec Require Import Calculus.
From Verif.Model Require Import JaxDual JaxFloat.
From Verif.Proofs Require Import JaxDualP.
Import ListNotations.
Open Scope R_scope.

(** the value of x is a *)
Definition fv (x : fdual) (a : R) : Prop := fval x = Some a.

Lemma Reqb_false_iff x y : Reqb x y = false <-> x <> y.
Proof. unfold Reqb. destruct (Req_EM_T x y); split; intros; congruence. Qed.
Lemma Reqb_true_iff x y : Reqb x y = true <-> x = y.
Proof. unfold Reqb. destruct (Req_EM_T x y); split; intros; congruence. Qed.

Lemma fv_eq x a b : fv x a -> a = b -> fv x b.
Proof. intros H <-. exact H. Qed.
Lemma fv_const c : fv (fconst c) c. Proof. reflexivity. Qed.
Lemma fv_of x : fv (fdual_of x) (dv x). Proof. reflexivity. Qed.
Lemma fv_fun1 g g' x a y : fv x a -> g a = Some y -> fv (fun1 g g' x) y.
Proof. unfold fv, fun1. intros -> ->. reflexivity. Qed.
Lemma fv_fun2 g ga gb x y a b z : fv x a -> fv y b -> g a b = Some z -> fv (fun2 g ga gb x y) z.
Proof. unfold fv, fun2. intros -> -> ->. reflexivity. Qed.
Lemma fv_add x y a b : fv x a -> fv y b -> fv (fadd x y) (a + b).
Proof. intros. eapply fv_fun2; eauto. Qed.
Lemma fv_sub x y a b : fv x a -> fv y b -> fv (fsub x y) (a - b).
Proof. intros. eapply fv_fun2; eauto. Qed.
Lemma fv_mul x y a b : fv x a -> fv y b -> fv (fmul x y) (a * b).
Proof. intros. eapply fv_fun2; eauto. Qed.
Lemma fv_div x y a b : fv x a -> fv y b -> b <> 0 -> fv (fdiv x y) (a / b).
Proof. intros. eapply fv_fun2; eauto. cbv beta. rewrite (proj2 (Reqb_false_iff b 0)) by assumption. reflexivity. Qed.
Lemma fdiv_zero x y : fv y 0 -> fdiv x y = fnan.
Proof. unfold fv, fdiv, fun2. intros ->. rewrite (proj2 (Reqb_true_iff 0 0) eq_refl). destruct (fval x); reflexivity. Qed.
Lemma fv_scal c x a : fv x a -> fv (fscal c x) (c * a).
Proof. intros. eapply fv_fun1; eauto. Qed.
Lemma fv_divc c x a : fv x a -> fv (fdivc x c) (a / c).
Proof. intros. eapply fv_fun1; eauto. Qed.
Lemma fv_sqrt x a : fv x a -> 0 <= a -> fv (fsqrt x) (sqrt a).
Proof. intros. eapply fv_fun1; eauto. cbv beta. rewrite (proj2 (Rltb_false a 0)) by assumption. reflexivity. Qed.
Lemma fv_pow x a p : fv x a -> 0 < a -> fv (fpow x p) (Rpower a p).
Proof. intros. eapply fv_fun1; eauto. cbv beta. unfold powr. rewrite (proj2 (Rltb_false a 0)) by lra. rewrite (proj2 (Reqb_false_iff a 0)) by lra. reflexivity. Qed.
Lemma fv_pow0 x p : fv x 0 -> fv (fpow x p) 0.
Proof. intros. eapply fv_fun1; eauto. cbv beta. unfold powr. rewrite (proj2 (Rltb_false 0 0)) by lra. rewrite (proj2 (Reqb_true_iff 0 0)) by reflexivity. reflexivity. Qed.
Lemma fpow_neg x a p : fv x a -> a < 0 -> fpow x p = fnan.
Proof. unfold fv, fpow, fun1, powr. intros -> H. rewrite (proj2 (Rltb_true a 0)) by exact H. reflexivity. Qed.
Lemma fv_ipow x a n : fv x a -> fv (fipow x n) (a ^ n).
Proof. intros. eapply fv_fun1; eauto. Qed.
Lemma fv_cpow c x a : fv x a -> fv (fcpow c x) (Rpower c a).
Proof. intros. eapply fv_fun1; eauto. Qed.
Lemma fv_exp x a : fv x a -> fv (fexp x) (exp a).
Proof. intros. eapply fv_fun1; eauto. Qed.
Lemma fv_cos x a : fv x a -> fv (fcos x) (cos a).
Proof. intros. eapply fv_fun1; eauto. Qed.

Lemma fle_v x y a b : fv x a -> fv y b -> fle x y = Rleb a b.
Proof. unfold fv, fle. intros -> ->. reflexivity. Qed.
Lemma flt_v x y a b : fv x a -> fv y b -> flt x y = Rltb a b.
Proof. unfold fv, flt. intros -> ->. reflexivity. Qed.
Lemma fle_nan x : fle x fnan = false. Proof. unfold fle. destruct (fval x); reflexivity. Qed.

Lemma fv_min x y a b : fv x a -> fv y b -> fv (fmin x y) (Rmin a b).
Proof.
  unfold fv, fmin. intros Hx Hy. rewrite Hx, Hy. destruct (Rltb a b) eqn:A; [apply Rltb_true in A; rewrite Hx, Rmin_left by lra; reflexivity|]. apply Rltb_false in A.
  destruct (Rltb b a) eqn:B; [rewrite Hy, Rmin_right by lra; reflexivity|]. apply Rltb_false in B. cbn. rewrite Rmin_left by lra. reflexivity.
Qed.
Lemma fv_max x y a b : fv x a -> fv y b -> fv (fmax x y) (Rmax a b).
Proof.
  unfold fv, fmax. intros Hx Hy. rewrite Hx, Hy. destruct (Rltb b a) eqn:A; [apply Rltb_true in A; rewrite Hx, Rmax_left by lra; reflexivity|]. apply Rltb_false in A.
  destruct (Rltb a b) eqn:B; [rewrite Hy, Rmax_right by lra; reflexivity|]. apply Rltb_false in B. cbn. rewrite Rmax_left by lra. reflexivity.
Qed.
Lemma fv_sum n x a : (forall i, (i < n)%nat -> fv (x i) (a i)) -> fv (fsum n x) (rsum n a).
Proof. induction n as [|n IH]; intros H; [reflexivity|]. cbn [fsum rsum]. apply fv_add; [apply IH; intros; apply H; lia|apply H; lia]. Qed.
Lemma fv_unique x a b : fv x a -> fv x b -> a = b.
Proof. unfold fv. intros H1 H2. congruence. Qed.

(** ---- powers ---- *)
Lemma Rpower_pos a p : 0 < Rpower a p.
Proof. apply exp_pos. Qed.
Lemma Rpower_32 a : 0 < a -> Rpower a (3/2) = a * sqrt a.
Proof. intros H. replace (3/2) with (1 + /2) by lra. rewrite Rpower_plus, Rpower_1, Rpower_sqrt by exact H. reflexivity. Qed.

(** ---- largest entry ---- *)
Lemma vmax_fold v l : forall a, let mx := fold_left (fun a t => Rmax a (v t)) l a in a <= mx /\ (forall t : nat, In t l -> v t <= mx) /\ (mx = a \/ exists t, In t l /\ mx = v t).
Proof.
  induction l as [|t l IH]; intros a; cbv zeta; cbn [fold_left].
  - split; [lra|]. split; [intros t []|left; reflexivity].
  - destruct (IH (Rmax a (v t))) as (A & B & C). cbv zeta in *. pose proof (Rmax_l a (v t)). pose proof (Rmax_r a (v t)). split; [lra|]. split.
    + intros t' [<-|Hin]; [lra|apply B; exact Hin].
    + destruct C as [C|(t' & Hin & C)].
      * rewrite C. destruct (Rle_lt_dec a (v t)) as [r|r]; [right; exists t; split; [left; reflexivity|apply Rmax_right; exact r]|left; apply Rmax_left; lra].
      * right. exists t'. split; [right; exact Hin|exact C].
Qed.
Lemma vmax_spec n v : (0 < n)%nat -> (forall t, (t < n)%nat -> v t <= vmax n v) /\ exists t, (t < n)%nat /\ vmax n v = v t.
Proof.
  intros Hn. unfold vmax. destruct (vmax_fold v (seq 1 (n - 1)) (v O)) as (A & B & C). cbv zeta in *. split.
  - intros t Ht. destruct t as [|t]; [exact A|]. apply B. apply in_seq. lia.
  - destruct C as [C|(t & Hin & C)]; [exists O; split; [exact Hn|exact C]|]. apply in_seq in Hin. exists t. split; [lia|exact C].
Qed.
