(** Vocabulary for periodic motions of systems with instantaneous forces. *)
From Coq Require Import Reals List Arith.
From Verif.Lib Require Import RSum Py.
From Verif.Spec Require Import Harmonic Elements System Galerkin.
From Verif.Model Require Import VibSys.
Import ListNotations.
Open Scope R_scope.

(** force on degree of freedom i at the displacements u and velocities v *)
Definition force_law := vec -> vec -> nat -> R.

(** the forces T f(Q u, Q v) of local laws f *)
Definition local_forces (N nnl : nat) (Q T : mat) (f : nat -> R -> R -> R) : force_law :=
  fun u v i => rsum nnl (fun d => T i d * f d (rsum N (fun j => Q d j * u j)) (rsum N (fun j => Q d j * v j))).

(** During the times [when] the displacements u move with the velocities v and solve M u'' + C u' + K u + f(u, u') = g(t) for the sum f of the laws. *)
Definition solves_motion (N : nat) (M C K : mat) (laws : list force_law) (g : nat -> R -> R) (when : R -> Prop) (u v : nat -> R -> R) : Prop :=
  exists a : nat -> R -> R,
    (forall j t, (j < N)%nat -> when t -> derivable_pt_lim (u j) t (v j t)) /\
    (forall j t, (j < N)%nat -> when t -> derivable_pt_lim (v j) t (a j t)) /\
    forall t, when t -> newton N M C K (fun j => u j t) (fun j => v j t) (fun j => a j t)
      (fun i => lsum (fun law => law (fun j => u j t) (fun j => v j t) i) laws) (fun i => g i t).
Definition always : R -> Prop := fun _ => True.

(** The law depends only on the N displacements and velocities. *)
Definition law_of (N : nat) (law : force_law) : Prop :=
  forall u u' v v', (forall j, (j < N)%nat -> u j = u' j) -> (forall j, (j < N)%nat -> v j = v' j) -> forall i, (i < N)%nat -> law u v i = law u' v' i.

(** The harmonic forces of the element are the discrete Fourier coefficients of its law at the Nt samples of the motion. *)
Definition harmonic_law (N : nat) (h : list nat) (Nt : nat) (f : nlforce) (law : force_law) : Prop :=
  law_of N law /\ forall U w v, phase_velocity N h U v -> exists F dU dw, nl_aft f U w h Nt = Ok (F, dU, dw) /\
    forall c i, (c < length (components h))%nat -> (i < N)%nat ->
      F (c * N + i)%nat = fourier_coef Nt (fun n => law (fun j => series h (dof_coefs N U j) (sample_phase Nt n)) (fun j => w * v j (sample_phase Nt n)) i)
        (nth c (components h) (Cos O)).

(** The element is instantaneous, and its method force returns its law at the displacements, whatever the velocities are. *)
Definition displacement_law (N : nat) (f : nlforce) (law : force_law) : Prop :=
  nl_type f = O /\ forall u, exists F dF, nl_force f u = Ok (F, dF) /\ forall v i, (i < N)%nat -> F i = law u v i.

(** The law has no jumps or vertical tangents: it is Lipschitz continuous on every bounded set of displacements. *)
Definition lipschitz_law (N : nat) (law : force_law) : Prop :=
  forall B, exists L, forall u u' v v', (forall j, (j < N)%nat -> Rabs (u j) <= B) -> (forall j, (j < N)%nat -> Rabs (u' j) <= B) ->
    forall i, (i < N)%nat -> Rabs (law u v i - law u' v' i) <= L * rsum N (fun j => Rabs (u j - u' j)).

(** solve_ivp integrates the first D equations exactly from y0 to time T: it returns the end of a trajectory. *)
Definition integrates (D : nat) (ivp : (R -> vec -> result vec) -> R -> vec -> result vec) (rate : R -> vec -> result vec) (T : R) (y0 : vec) : Prop :=
  exists (traj : R -> vec) (y : vec), ivp rate T y0 = Ok y /\
    (forall i, (i < D)%nat -> traj 0 i = y0 i) /\ (forall i, (i < D)%nat -> y i = traj T i) /\
    forall t, 0 <= t <= T -> exists dy, rate t (traj t) = Ok dy /\ forall i, (i < D)%nat -> derivable_pt_lim (fun t => traj t i) t (dy i).

(** forces on the first harmonic: cosine entries first, then sine entries *)
Definition first_harmonic_forcing (N : nat) (Fl : vec) (w : R) (i : nat) (t : R) : R := Fl i * cos (w * t) + Fl (N + i)%nat * sin (w * t).

(** state of shooting: displacements, velocities, frequency *)
Definition shooting_state (N : nat) (u v : vec) (w : R) : vec := fun i => if Nat.ltb i N then u i else if Nat.ltb i (2 * N) then v (i - N)%nat else w.

(** forces of the polynomial element *)
Definition poly_forces (N nnl cnl : nat) (Q T E : mat) (qq : nat -> nat -> nat) : force_law :=
  fun u _ i => rsum nnl (fun d => T i d * rsum cnl (fun p => E d p * monomial nnl (qq p) (fun e => rsum N (fun j => Q e j * u j)))).

(** The element has the law, in harmonic balance and in shooting, and the law is smooth enough for unique motions. *)
Definition spring_law (N : nat) (h : list nat) (Nt : nat) (f : nlforce) (law : force_law) : Prop :=
  harmonic_law N h Nt f law /\ displacement_law N f law /\ lipschitz_law N law.
