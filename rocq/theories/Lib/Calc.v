(** Helper lemmas on derivatives along curves. No modelling here. *)
From Coq Require Import Reals Lra Lia Arith FunctionalExtensionality.
From Verif.Lib Require Import RSum.
From Verif.Spec Require Import Calculus.
Open Scope R_scope.

Notation dlim := derivable_pt_lim.

(** [derivable_pt_lim] only depends on the function pointwise *)
Lemma dlim_ext f g x l : (forall t, f t = g t) -> dlim f x l -> dlim g x l.
Proof. intros H Hf. replace g with f by (apply functional_extensionality; exact H). exact Hf. Qed.

Lemma dlim_eq f x l l' : dlim f x l -> l = l' -> dlim f x l'.
Proof. intros H <-. exact H. Qed.

(** local version: agreement near x *)
Lemma dlim_ext_loc f g x l :
  (exists d, 0 < d /\ forall t, Rabs (t - x) < d -> f t = g t) -> dlim f x l -> dlim g x l.
Proof.
  intros [d [Hd Heq]] Hf eps Heps.
  destruct (Hf eps Heps) as [dl Hdl].
  assert (Hm : 0 < Rmin d dl) by (apply Rmin_pos; [exact Hd | apply cond_pos]).
  exists (mkposreal _ Hm). intros h Hh Hlt. simpl in Hlt.
  rewrite <- !Heq.
  - apply Hdl; [exact Hh|]. eapply Rlt_le_trans; [exact Hlt|apply Rmin_r].
  - replace (x - x) with 0 by ring. rewrite Rabs_R0. exact Hd.
  - replace (x + h - x) with h by ring. eapply Rlt_le_trans; [exact Hlt|apply Rmin_l].
Qed.

Lemma dlim_const c x : dlim (fun _ => c) x 0.
Proof. apply (derivable_pt_lim_const c x). Qed.
Lemma dlim_id x : dlim (fun t => t) x 1.
Proof. apply (derivable_pt_lim_id x). Qed.
Lemma dlim_plus f g x a b : dlim f x a -> dlim g x b -> dlim (fun t => f t + g t) x (a + b).
Proof. intros. apply (derivable_pt_lim_plus f g x a b); assumption. Qed.
Lemma dlim_minus f g x a b : dlim f x a -> dlim g x b -> dlim (fun t => f t - g t) x (a - b).
Proof. intros. apply (derivable_pt_lim_minus f g x a b); assumption. Qed.
Lemma dlim_opp f x a : dlim f x a -> dlim (fun t => - f t) x (- a).
Proof. intros. apply (derivable_pt_lim_opp f x a); assumption. Qed.
Lemma dlim_mult f g x a b : dlim f x a -> dlim g x b -> dlim (fun t => f t * g t) x (a * g x + f x * b).
Proof. intros. apply (derivable_pt_lim_mult f g x a b); assumption. Qed.
Lemma dlim_scal c f x a : dlim f x a -> dlim (fun t => c * f t) x (c * a).
Proof. intros. apply (derivable_pt_lim_scal f c x a); assumption. Qed.
Lemma dlim_scal_r c f x a : dlim f x a -> dlim (fun t => f t * c) x (a * c).
Proof.
  intros H. apply dlim_ext with (fun t => c * f t); [intros; ring|].
  eapply dlim_eq; [apply dlim_scal; exact H|ring].
Qed.
Lemma dlim_comp f g x a b : dlim f x a -> dlim g (f x) b -> dlim (fun t => g (f t)) x (b * a).
Proof. intros. apply (derivable_pt_lim_comp f g x a b); assumption. Qed.
Lemma dlim_div f g x a b : g x <> 0 -> dlim f x a -> dlim g x b ->
  dlim (fun t => f t / g t) x ((a * g x - b * f x) / Rsqr (g x)).
Proof. intros. apply (derivable_pt_lim_div f g x a b); assumption. Qed.

Lemma dlim_pow f x a n : dlim f x a -> dlim (fun t => f t ^ n) x (INR n * f x ^ (n - 1) * a).
Proof.
  intros H. pose proof (derivable_pt_lim_pow (f x) n) as P.
  eapply dlim_eq; [apply (dlim_comp f (fun y => y ^ n) x a _ H P)|].
  destruct n; simpl; [ring|]. rewrite Nat.sub_0_r. reflexivity.
Qed.

Lemma dlim_sqrt f x a : dlim f x a -> 0 < f x -> dlim (fun t => sqrt (f t)) x (a / (2 * sqrt (f x))).
Proof.
  intros H Hp. eapply dlim_eq; [apply (dlim_comp f sqrt x a _ H (derivable_pt_lim_sqrt (f x) Hp))|].
  unfold Rdiv. ring.
Qed.

Lemma dlim_rsum n (f : nat -> R -> R) x (l : nat -> R) :
  (forall j, (j < n)%nat -> dlim (f j) x (l j)) ->
  dlim (fun t => rsum n (fun j => f j t)) x (rsum n l).
Proof.
  induction n as [|n IH]; intros H.
  - apply (dlim_const 0).
  - simpl. apply (dlim_plus (fun t => rsum n (fun j => f j t)) (fun t => f n t)).
    + apply IH. intros; apply H; lia.
    + apply H; lia.
Qed.

Lemma dlim_dot n (f g : R -> vec) x (a b : vec) :
  (forall j, (j < n)%nat -> dlim (fun t => f t j) x (a j)) ->
  (forall j, (j < n)%nat -> dlim (fun t => g t j) x (b j)) ->
  dlim (fun t => dot n (f t) (g t)) x (dot n a (g x) + dot n (f x) b).
Proof.
  intros Hf Hg. unfold dot. rewrite <- rsum_plus.
  apply (dlim_rsum n (fun j t => f t j * g t j) x (fun j => a j * g x j + f x j * b j)).
  intros j Hj. apply dlim_mult; auto.
Qed.

Lemma dlim_matvec n A (f : R -> vec) x (a : vec) i :
  (forall j, (j < n)%nat -> dlim (fun t => f t j) x (a j)) ->
  dlim (fun t => matvec n A (f t) i) x (matvec n A a i).
Proof.
  intros H. unfold matvec.
  apply (dlim_rsum n (fun j t => A i j * f t j) x (fun j => A i j * a j)).
  intros j Hj. apply dlim_scal. auto.
Qed.

(** curves may be re-based: jacobian statements give partials and directional derivatives *)
Lemma is_jacobian_directional n m F X J : is_jacobian n m F X J -> directional n m F X J.
Proof.
  intros H v i Hi.
  apply (H (fun t k => X k + t * v k) v 0); [intros; ring| |exact Hi].
  intros j Hj. eapply dlim_eq; [apply dlim_plus; [apply dlim_const|apply dlim_scal_r; apply dlim_id]|ring].
Qed.

Lemma is_jacobian_partials n m F X J : is_jacobian n m F X J -> partials n m F X J.
Proof.
  intros H i j Hi Hj.
  pose proof (H (fun t => upd X j t) (fun k => if Nat.eqb k j then 1 else 0) (X j)) as P.
  eapply dlim_eq; [apply P; [| |exact Hi]|].
  - intros k _. unfold upd. destruct (Nat.eqb_spec k j); [subst; reflexivity|reflexivity].
  - intros k _. unfold upd. destruct (Nat.eqb k j); [apply dlim_id|apply dlim_const].
  - rewrite (rsum_single n j); [rewrite Nat.eqb_refl; ring|exact Hj|].
    intros k _ Hne. destruct (Nat.eqb_spec k j); [congruence|ring].
Qed.
