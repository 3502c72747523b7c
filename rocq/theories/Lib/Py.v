(** Python-level vocabulary shared by the model files: exceptions as values, numpy scalar
    functions on reals. *)
From Coq Require Import Reals List Arith.
Import ListNotations.
Open Scope R_scope.

(** Python exceptions that the modelled code can raise. *)
Inductive exn := AssertionError | AttributeError | NameError | IndexError | TypeError | ValueError | ZeroDivisionError
               | NoReturn  (* a loop that has not ended within the given fuel *)
               | UserError (n : nat).  (* raised by user supplied code *)

Inductive result (A : Type) : Type :=
| Ok (a : A)
| Err (e : exn).
Arguments Ok {A} a.
Arguments Err {A} e.

Definition bind {A B} (r : result A) (f : A -> result B) : result B :=
  match r with Ok a => f a | Err e => Err e end.

Notation "'do' x <- r ; k" := (bind r (fun x => k)) (at level 200, x pattern, right associativity).

(** boolean comparisons on reals, as used in Python conditions *)
Definition Rltb (x y : R) : bool := if Rlt_dec x y then true else false.
Definition Rleb (x y : R) : bool := if Rle_dec x y then true else false.
Definition Reqb (x y : R) : bool := if Req_EM_T x y then true else false.

(** np.sign *)
Definition Rsign (x : R) : R := if Rlt_dec 0 x then 1 else if Rlt_dec x 0 then -1 else 0.

Lemma Rltb_true x y : Rltb x y = true <-> x < y.
Proof. unfold Rltb; destruct (Rlt_dec x y); split; intros; auto; discriminate || contradiction. Qed.
Lemma Rltb_false x y : Rltb x y = false <-> y <= x.
Proof.
  unfold Rltb; destruct (Rlt_dec x y); split; intros; auto; try discriminate.
  - exfalso. apply (Rlt_irrefl x). eapply Rlt_le_trans; eauto.
  - apply Rnot_lt_le; assumption.
Qed.
Lemma Rleb_true x y : Rleb x y = true <-> x <= y.
Proof. unfold Rleb; destruct (Rle_dec x y); split; intros; auto; discriminate || contradiction. Qed.
Lemma Rleb_false x y : Rleb x y = false <-> y < x.
Proof.
  unfold Rleb; destruct (Rle_dec x y); split; intros; auto; try discriminate.
  - exfalso. apply (Rlt_irrefl y). eapply Rlt_le_trans; eauto.
  - apply Rnot_le_lt; assumption.
Qed.
Lemma Reqb_true x y : Reqb x y = true <-> x = y.
Proof. unfold Reqb; destruct (Req_EM_T x y); split; intros; auto; discriminate || contradiction. Qed.
Lemma Reqb_false x y : Reqb x y = false <-> x <> y.
Proof. unfold Reqb; destruct (Req_EM_T x y); split; intros; auto; discriminate || contradiction. Qed.
