(** Finite sums, vectors and matrices over R. No modelling here. *)
From Coq Require Import Reals Lra Lia List Arith.
Open Scope R_scope.

(** Vectors and matrices are index functions; dimensions are carried separately. *)
Definition vec := nat -> R.
Definition mat := nat -> nat -> R.

(** sum of f 0 ... f (n-1) *)
Fixpoint rsum (n : nat) (f : nat -> R) : R :=
  match n with
  | O => 0
  | S k => rsum k f + f k
  end.

Definition dot (n : nat) (u v : vec) : R := rsum n (fun i => u i * v i).
Definition matvec (n : nat) (A : mat) (x : vec) : vec := fun i => rsum n (fun j => A i j * x j).
Definition matmul (n : nat) (A B : mat) : mat := fun i j => rsum n (fun k => A i k * B k j).
Definition vecmat (n : nat) (x : vec) (A : mat) : vec := fun j => rsum n (fun i => x i * A i j).
Definition vadd (u v : vec) : vec := fun i => u i + v i.
Definition vsub (u v : vec) : vec := fun i => u i - v i.
Definition vscal (a : R) (u : vec) : vec := fun i => a * u i.
Definition vzero : vec := fun _ => 0.
Definition madd (A B : mat) : mat := fun i j => A i j + B i j.
Definition mzero : mat := fun _ _ => 0.
Definition mid : mat := fun i j => if Nat.eqb i j then 1 else 0.
Definition transpose (A : mat) : mat := fun i j => A j i.

Lemma rsum_ext n f g : (forall i, (i < n)%nat -> f i = g i) -> rsum n f = rsum n g.
Proof.
  induction n as [|n IH]; intros H; simpl; [reflexivity|].
  rewrite IH by (intros; apply H; lia). rewrite H by lia. reflexivity.
Qed.

Lemma rsum_plus n f g : rsum n (fun i => f i + g i) = rsum n f + rsum n g.
Proof. induction n as [|n IH]; simpl; [lra|]. rewrite IH. lra. Qed.

Lemma rsum_minus n f g : rsum n (fun i => f i - g i) = rsum n f - rsum n g.
Proof. induction n as [|n IH]; simpl; [lra|]. rewrite IH. lra. Qed.

Lemma rsum_opp n f : rsum n (fun i => - f i) = - rsum n f.
Proof. induction n as [|n IH]; simpl; [lra|]. rewrite IH. lra. Qed.

Lemma rsum_scal_l n a f : rsum n (fun i => a * f i) = a * rsum n f.
Proof. induction n as [|n IH]; simpl; [lra|]. rewrite IH. lra. Qed.

Lemma rsum_scal_r n a f : rsum n (fun i => f i * a) = rsum n f * a.
Proof. induction n as [|n IH]; simpl; [lra|]. rewrite IH. lra. Qed.

Lemma rsum_zero n f : (forall i, (i < n)%nat -> f i = 0) -> rsum n f = 0.
Proof.
  induction n as [|n IH]; intros H; simpl; [reflexivity|].
  rewrite IH by (intros; apply H; lia). rewrite H by lia. lra.
Qed.

Lemma rsum_const n a : rsum n (fun _ => a) = INR n * a.
Proof. induction n as [|n IH]; [simpl; lra|]. rewrite S_INR. simpl. rewrite IH. lra. Qed.

Lemma rsum_swap n m f :
  rsum n (fun i => rsum m (fun j => f i j)) = rsum m (fun j => rsum n (fun i => f i j)).
Proof.
  induction n as [|n IH]; simpl.
  - rewrite rsum_zero; auto.
  - rewrite IH, <- rsum_plus. reflexivity.
Qed.

Lemma rsum_split n m f : rsum (n + m) f = rsum n f + rsum m (fun i => f (n + i)%nat).
Proof.
  induction m as [|m IH].
  - rewrite Nat.add_0_r. simpl. lra.
  - rewrite Nat.add_succ_r. simpl. rewrite IH. lra.
Qed.

Lemma rsum_S n f : rsum (S n) f = rsum n f + f n.
Proof. reflexivity. Qed.

Lemma rsum_S_l n f : rsum (S n) f = f O + rsum n (fun i => f (S i)).
Proof.
  change (S n) with (1 + n)%nat. rewrite rsum_split. simpl. lra.
Qed.

(** a sum with a single non-zero term *)
Lemma rsum_single n k f :
  (k < n)%nat -> (forall i, (i < n)%nat -> i <> k -> f i = 0) -> rsum n f = f k.
Proof.
  induction n as [|n IH]; intros Hk H; [lia|].
  simpl. destruct (Nat.eq_dec k n) as [->|Hne].
  - rewrite rsum_zero; [lra|]. intros i Hi. apply H; lia.
  - rewrite IH; [|lia|intros; apply H; lia]. rewrite (H n) by lia. lra.
Qed.

(** regrouping a sum over n*m indices by blocks *)
Lemma rsum_blocks n m f :
  rsum (n * m) f = rsum n (fun b => rsum m (fun i => f (b * m + i)%nat)).
Proof.
  induction n as [|n IH]; [reflexivity|].
  replace (S n * m)%nat with (n * m + m)%nat by lia.
  rewrite rsum_split, IH. simpl. reflexivity.
Qed.

Lemma rsum_rev n f : rsum n f = rsum n (fun i => f (n - 1 - i)%nat).
Proof.
  induction n as [|n IH]; [reflexivity|].
  rewrite rsum_S, rsum_S_l, IH.
  replace (S n - 1 - 0)%nat with n by lia.
  rewrite Rplus_comm. f_equal. apply rsum_ext. intros i Hi. f_equal. lia.
Qed.

Lemma rsum_nonneg n f : (forall i, (i < n)%nat -> 0 <= f i) -> 0 <= rsum n f.
Proof.
  induction n as [|n IH]; intros H; simpl; [lra|].
  pose proof (H n ltac:(lia)). assert (0 <= rsum n f) by (apply IH; intros; apply H; lia). lra.
Qed.

Lemma rsum_le n f g : (forall i, (i < n)%nat -> f i <= g i) -> rsum n f <= rsum n g.
Proof.
  induction n as [|n IH]; intros H; simpl; [lra|].
  pose proof (H n ltac:(lia)). assert (rsum n f <= rsum n g) by (apply IH; intros; apply H; lia). lra.
Qed.

Lemma rsum_abs n f : Rabs (rsum n f) <= rsum n (fun i => Rabs (f i)).
Proof.
  induction n as [|n IH]; simpl; [rewrite Rabs_R0; lra|].
  eapply Rle_trans; [apply Rabs_triang|]. lra.
Qed.

Lemma rsum_eq_zero_nonneg n f :
  (forall i, (i < n)%nat -> 0 <= f i) -> rsum n f = 0 -> forall i, (i < n)%nat -> f i = 0.
Proof.
  induction n as [|n IH]; intros H H0 i Hi; [lia|].
  simpl in H0.
  assert (0 <= rsum n f) by (apply rsum_nonneg; intros; apply H; lia).
  pose proof (H n ltac:(lia)).
  destruct (Nat.eq_dec i n) as [->|Hne]; [lra|].
  apply IH; [intros; apply H; lia|lra|lia].
Qed.

Lemma rsum_mul n m f g :
  rsum n f * rsum m g = rsum n (fun i => rsum m (fun j => f i * g j)).
Proof.
  rewrite <- rsum_scal_r. apply rsum_ext. intros i _. rewrite rsum_scal_l. reflexivity.
Qed.

(** ---- algebra of dot / matvec ---- *)
Lemma dot_ext n u v u' v' :
  (forall i, (i < n)%nat -> u i = u' i) -> (forall i, (i < n)%nat -> v i = v' i) ->
  dot n u v = dot n u' v'.
Proof. intros Hu Hv. apply rsum_ext. intros i Hi. rewrite Hu, Hv by assumption. reflexivity. Qed.

Lemma dot_comm n u v : dot n u v = dot n v u.
Proof. apply rsum_ext. intros; ring. Qed.

Lemma dot_self_nonneg n u : 0 <= dot n u u.
Proof. apply rsum_nonneg. intros. nra. Qed.

Lemma dot_self_zero n u : dot n u u = 0 -> forall i, (i < n)%nat -> u i = 0.
Proof.
  intros H i Hi. pose proof (rsum_eq_zero_nonneg n (fun i => u i * u i)) as P.
  specialize (P ltac:(intros; simpl; nra) H i Hi). simpl in P. nra.
Qed.

Lemma dot_plus_l n u v w : dot n (fun i => u i + v i) w = dot n u w + dot n v w.
Proof. unfold dot. rewrite <- rsum_plus. apply rsum_ext. intros; ring. Qed.
Lemma dot_plus_r n u v w : dot n w (fun i => u i + v i) = dot n w u + dot n w v.
Proof. unfold dot. rewrite <- rsum_plus. apply rsum_ext. intros; ring. Qed.
Lemma dot_minus_l n u v w : dot n (fun i => u i - v i) w = dot n u w - dot n v w.
Proof. unfold dot. rewrite <- rsum_minus. apply rsum_ext. intros; ring. Qed.
Lemma dot_minus_r n u v w : dot n w (fun i => u i - v i) = dot n w u - dot n w v.
Proof. unfold dot. rewrite <- rsum_minus. apply rsum_ext. intros; ring. Qed.
Lemma dot_scal_l n a u v : dot n (fun i => a * u i) v = a * dot n u v.
Proof. unfold dot. rewrite <- rsum_scal_l. apply rsum_ext. intros; ring. Qed.
Lemma dot_scal_r n a u v : dot n u (fun i => a * v i) = a * dot n u v.
Proof. unfold dot. rewrite <- rsum_scal_l. apply rsum_ext. intros; ring. Qed.
Lemma dot_zero_r n u : dot n u (fun _ => 0) = 0.
Proof. apply rsum_zero. intros; ring. Qed.
Lemma dot_zero_l n u : dot n (fun _ => 0) u = 0.
Proof. apply rsum_zero. intros; ring. Qed.

(** Cauchy-Schwarz *)
Lemma cauchy_schwarz n u v : dot n u v * dot n u v <= dot n u u * dot n v v.
Proof.
  destruct (Req_dec (dot n v v) 0) as [H0|Hne].
  - assert (dot n u v = 0) as ->.
    { apply rsum_zero. intros i Hi. rewrite (dot_self_zero n v H0 i Hi). ring. }
    rewrite H0. lra.
  - assert (Hpos : 0 < dot n v v) by (pose proof (dot_self_nonneg n v); lra).
    set (l := dot n u v / dot n v v).
    pose proof (dot_self_nonneg n (fun i => u i - l * v i)) as P.
    rewrite dot_minus_l, !dot_minus_r, !dot_scal_l, !dot_scal_r in P.
    rewrite (dot_comm n v u) in P.
    assert (E : dot n u u - l * dot n u v - (l * dot n u v - l * (l * dot n v v))
                = dot n u u - dot n u v * dot n u v / dot n v v).
    { unfold l. field. lra. }
    rewrite E in P.
    assert (dot n u v * dot n u v / dot n v v * dot n v v <= dot n u u * dot n v v) by nra.
    replace (dot n u v * dot n u v / dot n v v * dot n v v) with (dot n u v * dot n u v) in H
      by (field; lra).
    exact H.
Qed.

Lemma matvec_ext n A x y i : (forall j, (j < n)%nat -> x j = y j) -> matvec n A x i = matvec n A y i.
Proof. intros H. apply rsum_ext. intros j Hj. rewrite H by assumption. reflexivity. Qed.

Lemma matvec_plus n A x y i :
  matvec n A (fun j => x j + y j) i = matvec n A x i + matvec n A y i.
Proof. unfold matvec. rewrite <- rsum_plus. apply rsum_ext. intros; ring. Qed.

Lemma matvec_minus n A x y i :
  matvec n A (fun j => x j - y j) i = matvec n A x i - matvec n A y i.
Proof. unfold matvec. rewrite <- rsum_minus. apply rsum_ext. intros; ring. Qed.

Lemma matvec_scal n A a x i : matvec n A (fun j => a * x j) i = a * matvec n A x i.
Proof. unfold matvec. rewrite <- rsum_scal_l. apply rsum_ext. intros; ring. Qed.

Lemma matvec_matmul n m A B x i :
  matvec m (matmul n A B) x i = matvec n A (matvec m B x) i.
Proof.
  unfold matvec, matmul.
  transitivity (rsum m (fun j => rsum n (fun k => A i k * B k j * x j))).
  { apply rsum_ext. intros j _. rewrite <- rsum_scal_r. reflexivity. }
  rewrite rsum_swap. apply rsum_ext. intros k _.
  rewrite <- rsum_scal_l. apply rsum_ext. intros; ring.
Qed.

Lemma dot_matvec n m u A x :
  dot n u (matvec m A x) = dot m (vecmat n u A) x.
Proof.
  unfold dot, matvec, vecmat.
  transitivity (rsum n (fun i => rsum m (fun j => u i * A i j * x j))).
  { apply rsum_ext. intros i _. rewrite <- rsum_scal_l. apply rsum_ext. intros; ring. }
  rewrite rsum_swap. apply rsum_ext. intros j _. rewrite <- rsum_scal_r. reflexivity.
Qed.

Lemma matvec_mid n x i : (i < n)%nat -> matvec n mid x i = x i.
Proof.
  intros Hi. unfold matvec. rewrite (rsum_single n i).
  - unfold mid. rewrite Nat.eqb_refl. ring.
  - assumption.
  - intros j _ Hne. unfold mid. destruct (Nat.eqb_spec i j); [congruence|ring].
Qed.
