(** Arbitrary call sequences on one Iwan4Force or VectorIwan4 object (iwan4_element.py, vector_iwan4.py, nonlinear_force.py).
    Used to state properties over every history of calls. *)
From Coq Require Import Reals List Arith Bool.
From Verif.Lib Require Import RSum Py.
From Verif.Model Require Import Jenkins VectorJenkins Iwan.
Import ListNotations.
Open Scope R_scope.

(** the public calls of the object, at the level of the local displacement *)
Inductive icall :=
| IInitHistory                                                      (* init_history *)
| IInitHistoryHarmonic (unlth0 : R)                                 (* init_history_harmonic *)
| IForce (unl : R) (update_hist : bool)                             (* force *)
| IInstantForce (unl : R) (update_prev : bool)                      (* instant_force *)
| IInstantForceHarmonic (unl : R) (cst : vec) (update_prev : bool)  (* instant_force_harmonic *)
| ILocalForceHistory (rows : list (R * vec)) (unlth0 : R) (max_repeats : nat) (atol rtol : R) (* Iwan4Force.local_force_history *)
| IVectorForceHistory (Nt : nat) (u : nat -> R) (cst : nat -> vec) (unlth0 : R).              (* VectorIwan4.local_force_history *)

(** what a call returns: forces with the derivatives that are returned next to them, or an exception *)
Inductive ireturn := IRNone | IRForces (l : list (R * vec)) | IRRaise (e : exn).

(** one call: new object state and return value.  instant_force_harmonic has already run instant_force when it raises because
    dupduh does not exist (iwan4_element.py 338-345); the histories raise (on no samples) after init_history_harmonic. *)
Definition icall_exec (s : iwan) (c : icall) : iwan * ireturn :=
  match c with
  | IInitHistory => (iw_init_history s, IRNone)
  | IInitHistoryHarmonic u0 => (iw_init_history_harmonic s u0, IRNone)
  | IForce u b => let '(s', (f, df)) := iw_force s u b in (s', IRForces [(f, fun _ => df)])
  | IInstantForce u b => let '(s', (f, df, _)) := iw_instant_force s u b in (s', IRForces [(f, fun _ => df)])
  | IInstantForceHarmonic u cst b =>
      match iw_instant_force_harmonic s u cst b with
      | Ok (s', o) => (s', IRForces [o])
      | Err e => (fst (iw_instant_force s u b), IRRaise e)
      end
  | ILocalForceHistory rows u0 m atol rtol =>
      match iwan_local_force_history s rows u0 m atol rtol with
      | Ok (s', os) => (s', IRForces os)
      | Err e => (iw_init_history_harmonic s u0, IRRaise e)
      end
  | IVectorForceHistory Nt u cst u0 =>
      match vector_iwan_local_force_history s Nt u cst u0 with
      | Ok (s', ft, dfduh) => (s', IRForces (map (fun k => (ft k, dfduh k)) (seq 0 Nt)))
      | Err e => (iw_init_history_harmonic s u0, IRRaise e)
      end
  end.

Fixpoint icalls_exec (s : iwan) (cs : list icall) : iwan * list ireturn :=
  match cs with
  | [] => (s, [])
  | c :: cs' => let '(s1, r) := icall_exec s c in
                let '(s2, rs) := icalls_exec s1 cs' in (s2, r :: rs)
  end.
