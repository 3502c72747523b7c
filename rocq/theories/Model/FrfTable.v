(** The tables of linear_frf and linear_frf_base: several frequencies, several base degrees of freedom.  A row holds the cosine and the
    sine response and the frequency. *)
From Coq Require Import Reals List Arith Bool.
From Verif.Lib Require Import RSum Py.
From Verif.Model Require Import VibSys.
Import ListNotations.
Open Scope R_scope.

Definition frf_row := (vec * vec * R)%type.

(** linear_frf, vibration_system.py 567-647: the frequencies w are the columns of qcos and qsin (638-643), transposed at the end (645).
    The eigenvectors are calculated once; [eigs] is a function here. *)
Fixpoint linear_frf_table (s : vibsys) (ws : list R) (Fl : vec) (eigs : mat -> mat -> nat -> vec * mat) (neigs : nat)
         (Flsin : option vec) : result (list frf_row) :=
  match ws with
  | [] => match vs_ab s with None => Err AssertionError | Some _ => Ok [] end
  | w :: ws' =>
    do (xc, xs) <- linear_frf s w Fl eigs neigs Flsin;
    do rows <- linear_frf_table s ws' Fl eigs neigs Flsin;
    Ok ((xc, xs, w) :: rows)
  end.

(** linear_frf_base, vibration_system.py 1000-1039.  The base forces (1000-1005) are tables with one column per base degree of freedom, times
    the vector of frequencies: one base column is used for all frequencies, equal numbers of base columns and frequencies are paired, one
    frequency is used for all base columns but then np.vstack (1039) finds rows of different lengths, and all else cannot be broadcast. *)
Fixpoint frf_base_rows (s : vibsys) (col : nat -> nat) (j : nat) (ws : list R) (Ub : vec) (base_flag : nat -> bool)
         (eigs : mat -> mat -> nat -> vec * mat) (neigs : nat) : result (list frf_row) :=
  match ws with
  | [] => match vs_ab s with None => Err TypeError | Some _ => Ok [] end
  | w :: ws' =>
    do (xc, xs) <- frf_base_column s w Ub base_flag eigs neigs (col j);
    do rows <- frf_base_rows s col (S j) ws' Ub base_flag eigs neigs;
    Ok ((xc, xs, w) :: rows)
  end.
Definition linear_frf_base_table (s : vibsys) (ws : list R) (Ub : vec) (base_flag : nat -> bool)
           (eigs : mat -> mat -> nat -> vec * mat) (neigs : nat) : result (list frf_row) :=
  let nb := mask_rank base_flag (vs_N s) in
  if Nat.eqb nb 1 then frf_base_rows s (fun _ => O) 0 ws Ub base_flag eigs neigs
  else if Nat.eqb nb (length ws) then frf_base_rows s (fun j => j) 0 ws Ub base_flag eigs neigs
  else if Nat.eqb (length ws) 1 then match vs_ab s with None => Err TypeError | Some _ => Err ValueError end
  else Err ValueError.
