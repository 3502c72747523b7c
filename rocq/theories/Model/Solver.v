(** tmdsimpy/solvers.py: the conditioning wrapper and the eigenvalue call. *)
From Coq Require Import Reals List Arith Bool.
From Verif.Lib Require Import RSum Py.
Import ListNotations.
Open Scope R_scope.

(** a numpy argument that is a number or a vector *)
Inductive scale := Num (r : R) | Vec (v : vec).
Definition sc (s : scale) (i : nat) : R := match s with Num r => r | Vec v => v i end.

(** _conditioned_fun, solvers.py 251-298.  [fn X calc_grad] returns the residual and the Jacobian (None without gradient).
    RPtoC*dRdXp*CtoP broadcasts a vector RPtoC along the columns. *)
Definition conditioned_fun (CtoP : vec) (RPtoC : scale) (fn : vec -> bool -> result (vec * option mat)) (Xc : vec) (calc_grad : bool)
  : result (vec * option mat) :=
  let Xp : vec := fun i => Xc i * CtoP i in
  if calc_grad then
    do (Rr, G) <- fn Xp true;
    match G with
    | Some dRdXp => Ok (fun i => sc RPtoC i * Rr i, Some (fun i j => sc RPtoC j * dRdXp i j * CtoP j))
    | None => Err ValueError
    end
  else
    do (Rr, _) <- fn Xp false; Ok (fun i => sc RPtoC i * Rr i, None).

(** conditioning_wrapper, solvers.py 215-249 *)
Definition conditioning_wrapper (fn : vec -> bool -> result (vec * option mat)) (CtoP : vec) (RPtoC : scale) :=
  conditioned_fun CtoP RPtoC fn.

(** eigs, solvers.py 172-213.  The default value of subset_by_index is one list object shared by all calls, and line 208
    writes to it; [dflt] is the current content of that object.  An explicit argument is a list of the caller, also written to.
    [eigh K M lo hi] stands for scipy.linalg.eigh with subset_by_index=[lo, hi].  Result: the returned value, the default
    list after the call and the caller's list after the call. *)
Section Eigs.
  Context {A : Type}.
  Definition eigs_call (eigh : mat -> mat -> nat -> nat -> A) (dflt : nat * nat) (N : nat) (K M : mat) (subset : option (nat * nat))
    : A * (nat * nat) * option (nat * nat) :=
    match subset with
    | None => let s := (fst dflt, Nat.min (snd dflt) (N - 1)) in (eigh K M (fst s) (snd s), s, None)
    | Some p => let s := (fst p, Nat.min (snd p) (N - 1)) in (eigh K M (fst s) (snd s), dflt, Some s)
    end.
  (** a sequence of calls in one process: each call gives N, K, M and the argument; the returned values in order *)
  Fixpoint eigs_calls (eigh : mat -> mat -> nat -> nat -> A) (dflt : nat * nat) (calls : list (nat * mat * mat * option (nat * nat))) : list A :=
    match calls with
    | [] => []
    | (N, K, M, sub) :: rest => let '(r, d, _) := eigs_call eigh dflt N K M sub in r :: eigs_calls eigh d rest
    end.
  (** solvers.py 172: the default list when the module is loaded *)
  Definition eigs_default : nat * nat := (0, 2)%nat.
End Eigs.
