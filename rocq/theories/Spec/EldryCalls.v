(** Vocabulary for statements about call histories of an elastic dry friction object. *)
From Coq Require Import Reals List Arith Bool.
From Verif.Lib Require Import RSum Py.
From Verif.Model Require Import JaxFriction.
Import ListNotations.
Open Scope R_scope.

(** displacements stored by the updating evaluations since the last init_history, oldest first *)
Definition ed_recorded (cs : list ed_call) : list vec :=
  fold_left (fun l c => match c with EDInitHistory => [] | EDForce X true => l ++ [X] | _ => l end) cs [].

(** the friction coefficient in force: 0 between set_prestress_mu and reset_real_mu *)
Definition ed_mu_after (mu : R) (cs : list ed_call) : R :=
  fold_left (fun m c => match c with EDSetPrestressMu => 0 | EDResetRealMu => mu | _ => m end) cs mu.
