(** The modelled elements as members of VibrationSystem.nonlinear_forces: their methods
    nl_force_type, force and aft (cited in LocalForces.v and Aft.v; nl_force_type is
    nonlinear_force.py 144-160 and 335-350).  The instantaneous elements accept calc_grad and ignore it;
    HystereticForce.aft has no such argument (TypeError). *)
From Coq Require Import Reals List Arith.
From Verif.Lib Require Import RSum Py.
From Verif.Model Require Import Jenkins LocalForces Aft VibSys.
Open Scope R_scope.

(** an element given by its force and its local law, with InstantaneousForce.aft *)
Definition instantaneous_nl (N nnl : nat) (Q T : mat) (force : vec -> vec * mat) (law : local_law) : nlforce :=
  mkForce 0 (fun X => Ok (force X))
    (fun U w h Nt => aft_instantaneous N nnl Q T law U w h Nt)
    (fun U w h Nt => do (FdU, _) <- aft_instantaneous N nnl Q T law U w h Nt; Ok (fst FdU)).

Definition cubic_nl (N nnl : nat) (Q T : mat) (k : vec) : nlforce :=
  instantaneous_nl N nnl Q T (cubic_force N nnl Q T k) (cubic_history k).
Definition quintic_nl (N nnl : nat) (Q T : mat) (k : vec) : nlforce :=
  instantaneous_nl N nnl Q T (quintic_force N nnl Q T k) (quintic_history k).
Definition damping_nl (N nnl : nat) (Q T : mat) (c : vec) : nlforce :=
  instantaneous_nl N nnl Q T (damping_force N nnl Q T c) (damping_history c).
Definition unilateral_nl (N nnl : nat) (Q T : mat) (k Np delta : vec) : nlforce :=
  instantaneous_nl N nnl Q T (unilateral_force N nnl Q T k Np delta) (unilateral_history k Np delta).
Definition iwan_nl (N nnl : nat) (Q T : mat) (kt Fs chi beta : R) : nlforce :=
  instantaneous_nl N nnl Q T (iwan_force N nnl Q T kt Fs chi beta) (iwan_history kt Fs chi beta).
Definition poly_nl (N nnl cnl : nat) (Q T E : mat) (qq : nat -> nat -> nat) : nlforce :=
  mkForce 0 (fun X => Ok (poly_force N nnl cnl Q T E qq X))
    (fun U w h Nt => aft_coupled N nnl Q T (poly_history nnl cnl E qq) U w h Nt)
    (fun U w h Nt => do (FdU, _) <- aft_coupled N nnl Q T (poly_history nnl cnl E qq) U w h Nt; Ok (fst FdU)).

(** JenkinsForce in state s; force is jenkins_element.py 139-181 *)
Definition jenkins_nl (s : jenkins) (N : nat) (Q T : mat) : nlforce :=
  mkForce 1
    (fun X => do (sf, k) <- j_force s (matvec N Q X O) false;
              Ok (fun i => T i O * snd sf, fun i j => T i O * k * Q O j))
    (fun U _ h Nt => do (_, out) <- jenkins_aft s N Q T U h Nt; Ok out)
    (fun _ _ _ _ => Err TypeError).
