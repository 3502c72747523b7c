(** Arbitrary call sequences on one JenkinsForce object (jenkins_element.py, nonlinear_force.py).
    Used to state properties over every history of calls. *)
From Coq Require Import Reals List Arith Bool.
From Verif.Lib Require Import RSum Py.
From Verif.Model Require Import Jenkins.
Import ListNotations.
Open Scope R_scope.

(** the public calls of the object, at the level of the local displacement *)
Inductive jcall :=
| CInitHistory                                             (* init_history *)
| CInitHistoryHarmonic (unlth0 : R)                        (* init_history_harmonic *)
| CForce (unl : R) (update_hist : bool)                    (* force *)
| CInstantForce (unl : R) (update_prev : bool)             (* instant_force *)
| CInstantForceHarmonic (unl : R) (cst : vec) (update_prev : bool) (* instant_force_harmonic *)
| CLocalForceHistory (rows : list (R * vec)) (unlth0 : R) (max_repeats : nat) (atol rtol : R)
                                                           (* local_force_history, as used by aft *)
| CSetPrestressMu
| CResetRealMu.

(** what a call returns: forces with the derivatives that are returned next to them, or an exception *)
Inductive jreturn :=
| RNone
| RForces (l : list (R * vec))
| RRaise (e : exn).

(** one call: new object state and return value. When instant_force_harmonic raises because
    dupduh does not exist, instant_force has already run (jenkins_element.py 287-294), so its state
    change is kept. *)
Definition jcall_exec (s : jenkins) (c : jcall) : jenkins * jreturn :=
  match c with
  | CInitHistory => (j_init_history s, RNone)
  | CInitHistoryHarmonic u0 => (j_init_history_harmonic s u0, RNone)
  | CForce u b => match j_force s u b with
                  | Ok (s', f, df) => (s', RForces [(f, fun _ => df)])
                  | Err e => (s, RRaise e)
                  end
  | CInstantForce u b => match j_instant_force s u b with
                         | Ok (s', (f, df, _, _)) => (s', RForces [(f, fun _ => df)])
                         | Err e => (s, RRaise e)
                         end
  | CInstantForceHarmonic u cst b =>
      match j_instant_force_harmonic s u cst b with
      | Ok (s', (f, d)) => (s', RForces [(f, d)])
      | Err e => (match j_instant_force s u b with Ok (s', _) => s' | Err _ => s end, RRaise e)
      end
  | CLocalForceHistory rows u0 m atol rtol =>
      match jenkins_local_force_history s rows u0 m atol rtol with
      | Ok (s', os) => (s', RForces os)
      | Err e => (j_init_history_harmonic s u0, RRaise e)
      end
  | CSetPrestressMu => (j_set_prestress_mu s, RNone)
  | CResetRealMu => (j_reset_real_mu s, RNone)
  end.

Fixpoint jcalls_exec (s : jenkins) (cs : list jcall) : jenkins * list jreturn :=
  match cs with
  | [] => (s, [])
  | c :: cs' => let '(s1, r) := jcall_exec s c in
                let '(s2, rs) := jcalls_exec s1 cs' in (s2, r :: rs)
  end.
