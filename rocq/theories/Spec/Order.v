(** Vocabulary: the same system with its nonlinear elements added in another order. *)
From Coq Require Import Reals List Permutation.
From Verif.Lib Require Import Py.
From Verif.Model Require Import VibSys.

(** same matrices, same elements, another order *)
Definition reordered (s s' : vibsys) : Prop :=
  vs_N s' = vs_N s /\ vs_M s' = vs_M s /\ vs_K s' = vs_K s /\ vs_C s' = vs_C s /\ vs_ab s' = vs_ab s /\
  Permutation (vs_forces s) (vs_forces s').

(** both calls return the same value, or both raise *)
Definition same_outcome {A} (r r' : result A) : Prop :=
  match r, r' with
  | Ok x, Ok x' => x = x'
  | Err _, Err _ => True
  | _, _ => False
  end.
