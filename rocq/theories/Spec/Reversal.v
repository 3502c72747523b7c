(** Time reversal of harmonic motions. *)
From Coq Require Import Reals List Arith.
From Verif.Lib Require Import RSum.
From Verif.Spec Require Import Harmonic.
Open Scope R_scope.

(** row r holds the coefficients of a sine *)
Definition sine_row (N : nat) (h : list nat) (r : nat) : Prop := exists k, nth (r / N) (components h) (Cos O) = Sin k.

(** the coefficients with the opposite sign of the sines *)
Definition reversed (N : nat) (h : list nat) (U : vec) : vec :=
  fun r => match nth (r / N) (components h) (Cos O) with Sin _ => - U r | Cos _ => U r end.
