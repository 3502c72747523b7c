(** Vocabulary for statements about the energy balance of harmonic motions. *)
From Coq Require Import Reals List Arith.
From Verif.Lib Require Import RSum Py.
From Verif.Spec Require Import Harmonic System Galerkin.
Import ListNotations.
Open Scope R_scope.

(** P is the mean over one period of the power of the forces f at the velocities v *)
Definition mean_power (N : nat) (f v : nat -> R -> R) (P : R) : Prop :=
  period_integral (fun tau => rsum N (fun i => f i tau * v i tau)) (2 * PI * P).

(** forces on N degrees of freedom with the harmonic coefficients F *)
Definition harmonic_force (N : nat) (h : list nat) (F : vec) (i : nat) (tau : R) : R := series h (dof_coefs N F i) tau.

(** forces of a matrix on velocities *)
Definition viscous (N : nat) (C : mat) (v : nat -> R -> R) (i : nat) (tau : R) : R := rsum N (fun j => C i j * v j tau).

Definition symmetric_matrix (N : nat) (A : mat) : Prop := forall i j, (i < N)%nat -> (j < N)%nat -> A i j = A j i.

(** x' A x is never negative *)
Definition positive_semidefinite (N : nat) (A : mat) : Prop := forall x : vec, 0 <= rsum N (fun i => x i * rsum N (fun j => A i j * x j)).

(** forces act where displacements are measured: T is the transposed of Q *)
Definition acts_on_its_displacements (N nnl : nat) (Q T : mat) : Prop := forall i d, (i < N)%nat -> (d < nnl)%nat -> T i d = Q d i.

(** the forces f of the nnl displacements q have a potential *)
Definition has_potential (nnl : nat) (f : vec -> vec) : Prop :=
  exists W : vec -> R, (forall q q' : vec, (forall d, (d < nnl)%nat -> q d = q' d) -> W q = W q') /\
    forall (q dq : nat -> R -> R) t, (forall d, (d < nnl)%nat -> derivable_pt_lim (q d) t (dq d t)) ->
      derivable_pt_lim (fun t => W (fun d => q d t)) t (rsum nnl (fun d => f (fun e => q e t) d * dq d t)).

(** the harmonic k is the only one besides the constant *)
Definition one_harmonic (h : list nat) (k : nat) : Prop := (0 < k)%nat /\ In k h /\ forall m, In m h -> m = O \/ m = k.
