(** Vocabulary for statements about call histories of an Iwan4Force object, and about its slider distribution. *)
From Coq Require Import Reals List Arith Bool.
From Verif.Lib Require Import RSum Py.
From Verif.Model Require Import Iwan IwanOps.
Import ListNotations.
Open Scope R_scope.

(** the forces contained in a return value *)
Definition iforces_of (r : ireturn) : list R := match r with IRForces l => map fst l | _ => [] end.

(** calls of the static interface (no harmonic evaluation) *)
Definition istatic_call (c : icall) : bool :=
  match c with IInitHistory | IForce _ _ | IInstantForce _ _ => true | _ => false end.
(** calls that only look *)
Definition inon_updating (c : icall) : Prop := match c with IForce _ false | IInstantForce _ false => True | _ => False end.

(** displacements stored by the updating calls since the last init_history *)
Definition irecorded (cs : list icall) : list R :=
  fold_left (fun us c => match c with
                         | IInitHistory => []
                         | IForce u true | IInstantForce u true => us ++ [u]
                         | _ => us
                         end) cs [].

(** The four-parameter Iwan distribution of Segalman (2005): slider strengths phi in (0, phimax) with density rho phi^chi plus a
    single slider of strength phimax and weight s. Its stiffness and its strength are the integrals of density and phi * density. *)
Definition iwan_stiffness (rho s chi phimax : R) : R := rho * (Rpower phimax (chi + 1) / (chi + 1)) + s.
Definition iwan_strength (rho s chi phimax : R) : R := rho * (Rpower phimax (chi + 2) / (chi + 2)) + s * phimax.

(** force and derivative rows of a successful local_force_history call *)
Definition iforces_at (r : result (iwan * list (R * vec))) (k : nat) : R := match r with Ok (_, os) => nth k (map fst os) 0 | Err _ => 0 end.
Definition iderivs_at (r : result (iwan * list (R * vec))) (k : nat) : vec := match r with Ok (_, os) => nth k (map snd os) (fun _ => 0) | Err _ => fun _ => 0 end.

