(** Vocabulary for statements about call histories of a JenkinsForce object. *)
From Coq Require Import Reals List Arith Bool.
From Verif.Lib Require Import RSum Py.
From Verif.Model Require Import Jenkins JenkinsOps.
Import ListNotations.
Open Scope R_scope.

(** the forces contained in a return value *)
Definition forces_of (r : jreturn) : list R :=
  match r with RForces l => map fst l | _ => [] end.

(** calls that only look: evaluations with update_hist=False or update_prev=False *)
Definition non_updating (c : jcall) : Prop :=
  match c with
  | CForce _ false | CInstantForce _ false => True
  | _ => False
  end.

(** friction switching calls *)
Definition is_switch (c : jcall) : bool :=
  match c with CSetPrestressMu | CResetRealMu => true | _ => false end.

(** calls of the static interface (no harmonic evaluation) *)
Definition static_call (c : jcall) : bool :=
  match c with
  | CInitHistory | CForce _ _ | CInstantForce _ _ | CSetPrestressMu | CResetRealMu => true
  | _ => false
  end.

(** displacements stored by the updating calls since the last init_history *)
Definition recorded (cs : list jcall) : list R :=
  fold_left (fun us c => match c with
                         | CInitHistory => []
                         | CForce u true | CInstantForce u true => us ++ [u]
                         | _ => us
                         end) cs [].

(** the rows (unlt[ti], cst[ti]), ti = 0 .. N-1, handed to local_force_history *)
Definition rows (N : nat) (u : nat -> R) (cst : nat -> vec) : list (R * vec) :=
  map (fun i => (u i, cst i)) (seq 0 N).

(** force and derivative rows of a successful local_force_history call *)
Definition forces_at (r : result (jenkins * list (R * vec))) (k : nat) : R :=
  match r with Ok (_, os) => nth k (map fst os) 0 | Err _ => 0 end.
Definition derivs_at (r : result (jenkins * list (R * vec))) (k : nat) : vec :=
  match r with Ok (_, os) => nth k (map snd os) (fun _ => 0) | Err _ => fun _ => 0 end.
