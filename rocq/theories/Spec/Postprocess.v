(** Vocabulary of the interpolation and saving properties. *)
From Coq Require Import Reals List Arith.
From Verif.Lib Require Import RSum.
Import ListNotations.
Open Scope R_scope.

Definition increasing (l : list R) : Prop := forall i j, (i < j < length l)%nat -> nth i l 0 < nth j l 0.

(** r lies at x on the straight line through (x0, r0) and (x1, r1), entry by entry *)
Definition on_line (x0 x1 : R) (r0 r1 : vec) (x : R) (r : vec) : Prop :=
  forall c, (x1 - x0) * r c = (x1 - x) * r0 c + (x - x0) * r1 c.

(** p is a polynomial of degree at most 3 with derivative p' *)
Definition cubic (p p' : R -> R) : Prop :=
  exists a b c d, (forall x, p x = a * x ^ 3 + b * x ^ 2 + c * x + d) /\ (forall x, p' x = 3 * a * x ^ 2 + 2 * b * x + c).
