(** Linear systems: more unknowns than equations, and one-sided inverses of square matrices. *)
From Coq Require Import Reals Lra Lia Arith Classical.
From Verif.Lib Require Import RSum.
Open Scope R_scope.

(** skip index p *)
Definition skip (p j : nat) : nat := if Nat.ltb j p then j else S j.

Lemma rsum_skip n p (f : vec) : (p <= n)%nat -> rsum (S n) f = rsum n (fun j => f (skip p j)) + f p.
Proof.
  intros Hp. replace (S n) with (p + S (n - p))%nat by lia. rewrite rsum_split, rsum_S_l.
  replace n with (p + (n - p))%nat at 2 by lia. rewrite rsum_split.
  rewrite (rsum_ext p (fun j => f (skip p j)) f).
  2:{ intros i Hi. unfold skip. rewrite (proj2 (Nat.ltb_lt _ _) Hi). reflexivity. }
  rewrite (rsum_ext (n - p) (fun i => f (skip p (p + i))) (fun i => f (p + S i)%nat)).
  2:{ intros i Hi. unfold skip. rewrite (proj2 (Nat.ltb_ge _ _)) by lia. f_equal. lia. }
  rewrite Nat.add_0_r. ring.
Qed.

Lemma kernel m : forall n (A : mat), (m < n)%nat ->
  exists x : vec, (exists j, (j < n)%nat /\ x j <> 0) /\ forall i, (i < m)%nat -> matvec n A x i = 0.
Proof.
  induction m as [|m IH]; intros n A Hn.
  - exists (fun _ => 1). split; [exists O; split; [lia|lra]|intros; lia].
  - destruct (classic (exists p, (p < n)%nat /\ A m p <> 0)) as [[p [Hp Hnz]]|No].
    + destruct n as [|n]; [lia|].
      destruct (IH n (fun i j => A i (skip p j) - A i p * (A m (skip p j) / A m p)) ltac:(lia)) as (y & (k & Hk & Yk) & Z).
      set (c := - (rsum n (fun j => A m (skip p j) * y j) / A m p)).
      set (unskip := fun j => if Nat.ltb j p then j else (j - 1)%nat).
      set (x := fun j => if Nat.eqb j p then c else y (unskip j)).
      assert (XS : forall j, x (skip p j) = y j).
      { intros j. unfold x, skip, unskip. destruct (Nat.ltb_spec j p).
        - rewrite (proj2 (Nat.eqb_neq _ _)) by lia. rewrite (proj2 (Nat.ltb_lt _ _)) by lia. reflexivity.
        - rewrite (proj2 (Nat.eqb_neq _ _)) by lia. rewrite (proj2 (Nat.ltb_ge _ _)) by lia. f_equal. lia. }
      assert (XP : x p = c) by (unfold x; rewrite Nat.eqb_refl; reflexivity).
      exists x. split.
      * exists (skip p k). split; [unfold skip; destruct (Nat.ltb k p); lia|]. rewrite XS. exact Yk.
      * intros i Hi. unfold matvec. rewrite (rsum_skip n p) by lia. rewrite XP.
        rewrite (rsum_ext n _ (fun j => A i (skip p j) * y j)) by (intros; rewrite XS; reflexivity).
        destruct (Nat.eq_dec i m) as [->|Ne].
        -- unfold c. field. exact Hnz.
        -- specialize (Z i ltac:(lia)). unfold matvec in Z.
           rewrite (rsum_ext n _ (fun j => A i (skip p j) * y j - (A i p / A m p) * (A m (skip p j) * y j))) in Z by (intros; field; exact Hnz).
           rewrite rsum_minus, rsum_scal_l in Z. unfold c.
           replace (A i p * - (rsum n (fun j => A m (skip p j) * y j) / A m p)) with (- (A i p / A m p * rsum n (fun j => A m (skip p j) * y j))) by (field; exact Hnz).
           lra.
    + destruct (IH n A ltac:(lia)) as (x & Hx & Z). exists x. split; [exact Hx|]. intros i Hi.
      destruct (Nat.eq_dec i m) as [->|Ne]; [|apply Z; lia].
      unfold matvec. apply rsum_zero. intros j Hj. destruct (Req_dec (A m j) 0) as [->|E]; [ring|]. exfalso. apply No. eauto.
Qed.

(** a square matrix with trivial kernel reaches every vector *)
Lemma injective_surjective n (B : mat) (y : vec) :
  (forall x, (forall i, (i < n)%nat -> matvec n B x i = 0) -> forall j, (j < n)%nat -> x j = 0) ->
  exists c, forall i, (i < n)%nat -> matvec n B c i = y i.
Proof.
  intros Inj. destruct (kernel n (S n) (fun i j => if Nat.eqb j n then y i else B i j) ltac:(lia)) as (x & (k & Hk & Xk) & Z).
  assert (Z' : forall i, (i < n)%nat -> matvec n B x i + y i * x n = 0).
  { intros i Hi. specialize (Z i Hi). unfold matvec in Z. rewrite rsum_S, Nat.eqb_refl in Z.
    rewrite (rsum_ext n _ (fun j => B i j * x j)) in Z by (intros j Hj; rewrite (proj2 (Nat.eqb_neq _ _)) by lia; reflexivity). exact Z. }
  assert (Xn : x n <> 0).
  { intros E. apply Xk. destruct (Nat.eq_dec k n) as [->|Ne]; [exact E|]. apply Inj; [|lia]. intros i Hi. specialize (Z' i Hi). rewrite E in Z'. lra. }
  exists (fun j => - / x n * x j). intros i Hi. rewrite matvec_scal. specialize (Z' i Hi).
  replace (matvec n B x i) with (- (y i * x n)) by lra. field. exact Xn.
Qed.

Definition is_inverse (n : nat) (A B : mat) : Prop := forall i j, (i < n)%nat -> (j < n)%nat -> matmul n A B i j = mid i j.

Lemma matvec_inverse n A B x i : is_inverse n A B -> (i < n)%nat -> matvec n A (matvec n B x) i = x i.
Proof.
  intros H Hi. rewrite <- matvec_matmul. transitivity (matvec n mid x i); [|apply matvec_mid; exact Hi].
  unfold matvec. apply rsum_ext. intros j Hj. rewrite H by assumption. reflexivity.
Qed.

Lemma inverse_comm n A B : is_inverse n A B -> is_inverse n B A.
Proof.
  intros H.
  assert (Inj : forall x, (forall i, (i < n)%nat -> matvec n B x i = 0) -> forall j, (j < n)%nat -> x j = 0).
  { intros x Z j Hj. rewrite <- (matvec_inverse n A B x j H Hj). unfold matvec at 1. apply rsum_zero. intros k Hk. rewrite Z by exact Hk. ring. }
  intros i j Hi Hj. destruct (injective_surjective n B (fun k => mid k j) Inj) as (c & Hc).
  assert (Ec : forall k, (k < n)%nat -> c k = A k j).
  { intros k Hk. rewrite <- (matvec_inverse n A B c k H Hk). rewrite (matvec_ext n A _ (fun k => mid k j)) by exact Hc.
    unfold matvec. rewrite (rsum_single n j) by (try exact Hj; intros l Hl Ne; unfold mid; rewrite (proj2 (Nat.eqb_neq _ _)) by exact Ne; ring).
    unfold mid. rewrite Nat.eqb_refl. ring. }
  rewrite <- (Hc i Hi). unfold matvec, matmul. apply rsum_ext. intros k Hk. rewrite Ec by exact Hk. reflexivity.
Qed.
