(** Vocabulary for statements about call histories of a rough contact object. *)
From Coq Require Import Reals List Arith Bool.
From Verif.Lib Require Import RSum Py.
From Verif.Model Require Import RoughContact.
Import ListNotations.
Open Scope R_scope.

(** the friction coefficient in force: 0 between set_prestress_mu and reset_real_mu *)
Definition rough_mu_after (mu : R) (cs : list rough_call) : R :=
  fold_left (fun m c => match c with RSetPrestressMu => 0 | RResetRealMu => mu | _ => m end) cs mu.

(** moves (friction coefficient in force and local displacements) of the updating evaluations since the last init_history, oldest first *)
Definition rough_moves (mu : R) (N : nat) (Q : mat) (cs : list rough_call) : list (R * vec) :=
  snd (fold_left (fun st c => match c with
                              | RInitHistory => (fst st, [])
                              | RSetPrestressMu => (0, snd st)
                              | RResetRealMu => (mu, snd st)
                              | RForce X true => (fst st, snd st ++ [(fst st, fun d => rsum N (fun j => Q d j * X j))])
                              | _ => st end) cs (mu, [])).

(** the initial displacement that u0 stands for: one number for both tangential directions, one per tangential direction, or one per direction *)
Definition start_of (u : u0_arg) (d : nat) : R :=
  match u, d with
  | U0Scalar x, (O | 1%nat) => x
  | U0Array 1 v, (O | 1%nat) => v O
  | U0Array 2 v, (O | 1%nat) => v d
  | U0Array 3 v, _ => v d
  | _, _ => 0
  end.
Definition start_allowed (u : u0_arg) : Prop := match u with U0Scalar _ => True | U0Array len _ => (1 <= len <= 3)%nat end.

(** start of the harmonic evaluation: the argument u0 or the displacement of the last call of set_aft_initialize *)
Definition aft_start_after (N : nat) (Q : mat) (u : u0_arg) (cs : list rough_call) : vec :=
  fold_left (fun p c => match c with RSetAftInitialize X => fun d => rsum N (fun j => Q d j * X j) | _ => p end) cs (start_of u).
