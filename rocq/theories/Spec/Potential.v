(** Vocabulary for statements about conservative systems. *)
From Coq Require Import Reals List Arith.
From Verif.Lib Require Import RSum Py.
From Verif.Spec Require Import Harmonic Elements System Galerkin Energy StaticHistory.
From Verif.Model Require Import VibSys SysElements.
Import ListNotations.
Open Scope R_scope.

(** V is a potential of the forces f of nnl displacements *)
Definition potential_of (nnl : nat) (f : vec -> vec) (V : vec -> R) : Prop :=
  (forall q q' : vec, (forall d, (d < nnl)%nat -> q d = q' d) -> V q = V q') /\
  forall (q dq : nat -> R -> R) t, (forall d, (d < nnl)%nat -> derivable_pt_lim (q d) t (dq d t)) ->
    derivable_pt_lim (fun t => V (fun d => q d t)) t (rsum nnl (fun d => f (fun e => q e t) d * dq d t)).

(** f is a spring between the displacements Q u that stores the energy V(Q u): every displacement has its own spring *)
Definition separate_spring (N : nat) (f : nlforce) (Q : mat) (V : vec -> R) : Prop :=
  exists nnl T, acts_on_its_displacements N nnl Q T /\
   ((exists k, f = cubic_nl N nnl Q T k /\ forall q, V q = rsum nnl (fun d => k d / 4 * q d ^ 4)) \/
    (exists k, f = quintic_nl N nnl Q T k /\ forall q, V q = rsum nnl (fun d => k d / 6 * q d ^ 6)) \/
    (exists k Np delta, (forall d, (d < nnl)%nat -> 0 <= k d) /\ f = unilateral_nl N nnl Q T k Np delta /\
       forall q, V q = rsum nnl (fun d => k d / 2 * Rmax (q d - delta d) 0 ^ 2 - Np d * q d)) \/
    (exists kt Fs chi beta W, 0 < kt /\ 0 < Fs /\ -1 < chi /\ 0 <= beta /\ f = iwan_nl N nnl Q T kt Fs chi beta /\
       (forall u, derivable_pt_lim W u (iwan_backbone kt Fs chi beta u)) /\ forall q, V q = rsum nnl (fun d => W (q d)))).

(** the same, or a polynomial element whose forces have a potential *)
Definition spring (N : nat) (f : nlforce) (Q : mat) (V : vec -> R) : Prop :=
  separate_spring N f Q V \/
  exists nnl T cnl E qq, acts_on_its_displacements N nnl Q T /\ f = poly_nl N nnl cnl Q T E qq /\
    potential_of nnl (fun q d => rsum cnl (fun p => E d p * monomial nnl (qq p) q)) V.

(** the elements fs are springs; ps lists their displacements and energies *)
Definition springs (N : nat) (fs : list nlforce) (ps : list (mat * (vec -> R))) : Prop := Forall2 (fun f p => spring N f (fst p) (snd p)) fs ps.

(** x' A x *)
Definition quadratic (N : nat) (A : mat) (x : vec) : R := rsum N (fun i => x i * rsum N (fun j => A i j * x j)).

(** energy of the displacements u in the stiffness matrix and the springs, and in the field of the forces F *)
Definition potential_energy (N : nat) (K : mat) (ps : list (mat * (vec -> R))) (F u : vec) : R :=
  quadratic N K u / 2 + lsum (fun p => snd p (local_at N (fst p) u)) ps - rsum N (fun i => F i * u i).

(** displacements at one phase *)
Definition at_phase (N : nat) (h : list nat) (U : vec) (tau : R) : vec := fun j => series h (dof_coefs N U j) tau.

(** mean over the samples of the potential energy minus the kinetic energy of the motion U at frequency w; v U are its phase velocities *)
Definition mean_action (N : nat) (h : list nat) (Nt : nat) (M K : mat) (ps : list (mat * (vec -> R))) (Fl : vec) (w : R) (v : vec -> nat -> R -> R) (U : vec) : R :=
  rsum Nt (fun n => potential_energy N K ps (at_phase N h Fl (sample_phase Nt n)) (at_phase N h U (sample_phase Nt n))
                    - w ^ 2 * quadratic N M (fun j => v U j (sample_phase Nt n)) / 2) / INR Nt.

(** mean square of the component that row r belongs to: 1 for the constant, 1/2 for cosines and sines *)
Definition share (N : nat) (h : list nat) (r : nat) : R := match nth (r / N) (components h) (Cos O) with Cos O => 1 | _ => / 2 end.

(** as springs, without polynomial elements *)
Definition separate_springs (N : nat) (fs : list nlforce) : Prop := Forall (fun f => exists Q V, separate_spring N f Q V) fs.

(** a spring with polynomial forces, sampled often enough for its degree *)
Definition sampled_spring (N : nat) (h : list nat) (Nt : nat) (f : nlforce) : Prop :=
  exists nnl Q T, acts_on_its_displacements N nnl Q T /\
   ((exists k, f = cubic_nl N nnl Q T k /\ (4 * list_max h < Nt)%nat) \/
    (exists k, f = quintic_nl N nnl Q T k /\ (6 * list_max h < Nt)%nat) \/
    (exists cnl E qq p, f = poly_nl N nnl cnl Q T E qq /\ ((p + 1) * list_max h < Nt)%nat /\
       (forall m, (m < cnl)%nat -> (fold_right Nat.add O (map (qq m) (seq 0 nnl)) <= p)%nat) /\
       has_potential nnl (fun q d => rsum cnl (fun m => E d m * monomial nnl (qq m) q)))).
