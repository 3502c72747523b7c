(** Vocabulary of the summary files. *)
From Coq Require Import Reals List Arith.
From Verif.Lib Require Import RSum Py.
From Verif.Spec Require Import Harmonic System.
From Verif.Model Require Import Harmonic VibSys SummaryFiles.
Import ListNotations.
Open Scope R_scope.

(** the first m entries of X *)
Definition entries (m : nat) (X : vec) : list R := map X (seq 0 m).

(** v is the amplitude of harmonic k of the derivative number [order] of recov . u, u being the motion with coefficients U and frequency w *)
Definition output_amplitude (N : nat) (h : list nat) (U : vec) (w : R) (order : nat) (recov : vec) (k : nat) (v : R) : Prop :=
  0 <= v /\ exists y phi, nth_derivative order (fun t => rsum N (fun j => recov j * harmonic_part k N h U w j t)) y /\
    forall t, y t = v * cos (INR k * w * t + phi).

(** one number under each heading of the first header line *)
Definition same_columns (header : list line) (row : list R) : Prop :=
  match header with first :: _ => length first = length row | [] => False end.

(** the file after the rows of all calls: the header comes first if the file is new *)
Definition expected_file (f : text_file) (header : list line) (rows : list (list R)) : text_file :=
  match f, rows with
  | None, [] => None
  | None, _ => Some (header ++ map (map Value) rows)
  | Some l, _ => Some (l ++ map (map Value) rows)
  end.
