(** Vocabulary for the principle of minimum potential energy. *)
From Coq Require Import Reals List Arith.
From Verif.Lib Require Import RSum.
From Verif.Spec Require Import Calculus Elements Potential.
From Verif.Model Require Import VibSys SysElements.
Import ListNotations.
Open Scope R_scope.

(** the point at the fraction s of the way from x to y *)
Definition between (s : R) (x y : vec) : vec := fun i => (1 - s) * x i + s * y i.

(** the energy along a straight path stays below the straight line between its ends *)
Definition convex (V : vec -> R) : Prop := forall x y s, 0 <= s <= 1 -> V (between s x y) <= (1 - s) * V x + s * V y.

(** the springs store convex energies *)
Definition convex_springs (N : nat) (fs : list nlforce) (ps : list (mat * (vec -> R))) : Prop :=
  springs N fs ps /\ Forall (fun p => convex (snd p)) ps.

(** no displacements have a lower energy than U *)
Definition minimises (E : vec -> R) (U : vec) : Prop := forall V, E U <= E V.

(** springs that do not soften below zero stiffness: cubic and quintic springs with stiffness >= 0, walls, Iwan backbones *)
Definition hardening (N : nat) (f : nlforce) : Prop :=
  exists nnl Q T, (forall i d, (i < N)%nat -> (d < nnl)%nat -> T i d = Q d i) /\
   ((exists k, (forall d, (d < nnl)%nat -> 0 <= k d) /\ f = cubic_nl N nnl Q T k) \/
    (exists k, (forall d, (d < nnl)%nat -> 0 <= k d) /\ f = quintic_nl N nnl Q T k) \/
    (exists k Np delta, (forall d, (d < nnl)%nat -> 0 <= k d) /\ f = unilateral_nl N nnl Q T k Np delta) \/
    (exists kt Fs chi beta, 0 < kt /\ 0 < Fs /\ -1 < chi /\ 0 <= beta /\ f = iwan_nl N nnl Q T kt Fs chi beta)).
