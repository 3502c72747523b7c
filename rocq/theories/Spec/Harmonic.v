(** Specification of harmonic (Fourier) representations, independent of the model. *)
From Coq Require Import Reals List Arith.
From Verif.Lib Require Import RSum.
Import ListNotations.
Open Scope R_scope.

(** the basis functions: cos(k tau) and sin(k tau) *)
Inductive comp := Cos (k : nat) | Sin (k : nat).

Definition comp_fun (c : comp) (tau : R) : R :=
  match c with Cos k => cos (INR k * tau) | Sin k => sin (INR k * tau) end.

(** the harmonic components of a harmonic list, in the order of the coefficient vectors:
    a constant for harmonic 0, a cosine and a sine for every other harmonic *)
Definition components (h : list nat) : list comp :=
  flat_map (fun k => match k with O => [Cos O] | _ => [Cos k; Sin k] end) h.

(** the c-th basis function of h *)
Definition basis (h : list nat) (c : nat) (tau : R) : R :=
  comp_fun (nth c (components h) (Cos O)) tau.

(** the trigonometric polynomial with coefficients X *)
Definition series (h : list nat) (X : vec) (tau : R) : R :=
  rsum (length (components h)) (fun c => X c * basis h c tau).

(** g is the m-th derivative of f *)
Fixpoint nth_derivative (m : nat) (f g : R -> R) : Prop :=
  match m with
  | O => forall t, f t = g t
  | S m' => exists f', (forall t, derivable_pt_lim f t (f' t)) /\ nth_derivative m' f' g
  end.

(** phase of sample n out of Nt equally spaced samples of one period *)
Definition sample_phase (Nt n : nat) : R := 2 * PI * INR n / INR Nt.

(** admissible harmonic lists: not empty, no repetition, harmonic 0 (if present) is first *)
Definition admissible (h : list nat) : Prop := h <> [] /\ NoDup h /\ ~ In O (tl h).

(** the discrete Fourier coefficient of Nt samples x on one component: projection on the component
    (mean value for the constant, twice the mean of the product otherwise) *)
Definition fourier_coef (Nt : nat) (x : vec) (c : comp) : R :=
  (match c with Cos O => 1 | _ => 2 end) / INR Nt * rsum Nt (fun n => x n * comp_fun c (sample_phase Nt n)).

(** coefficient vectors of systems with nd degrees of freedom hold the nd entries of component 0,
    then those of component 1, and so on: the coefficients of degree of freedom d *)
Definition dof_coefs (nd : nat) (U : vec) (d : nat) : vec := fun c => U (c * nd + d)%nat.

(** displacement of degree of freedom d at time t for fundamental frequency w *)
Definition motion (nd : nat) (h : list nat) (U : vec) (w : R) (d : nat) (t : R) : R :=
  series h (dof_coefs nd U d) (w * t).

(** mean absolute value of the entries a, ..., b-1 *)
Definition mean_abs (X : vec) (a b : nat) : R := rsum (b - a) (fun i => Rabs (X (a + i)%nat)) / INR (b - a).

(** first entry and end of the entries of the p-th harmonic of h in a vector with nd degrees of freedom *)
Definition harmonic_start (h : list nat) (nd p : nat) : nat := (nd * length (components (firstn p h)))%nat.
Definition harmonic_end (h : list nat) (nd p : nat) : nat := harmonic_start h nd (S p).

(** local displacement d (row d of Q) at phase tau for the global coefficients U of N degrees of freedom *)
Definition local_motion (N : nat) (Q : mat) (h : list nat) (U : vec) (d : nat) (tau : R) : R :=
  rsum N (fun j => Q d j * series h (dof_coefs N U j) tau).
