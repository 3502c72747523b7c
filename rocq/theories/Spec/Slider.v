(** Specification of frictional sliders, independent of the model.

    A slider with stiffness [kt] transmits a force that follows the imposed displacement
    elastically but is always limited to an admissible interval [lo k, hi k] at time step k. *)
From Coq Require Import Reals Arith List.
From Verif.Lib Require Import RSum.
Open Scope R_scope.

(** nearest point of [lo, hi] *)
Definition clamp (lo hi x : R) : R := Rmax lo (Rmin hi x).

(** Force at time step k when the displacement at step j is [u j], the slider starts force-free at
    position [u0], and the force limits at step j are [lo j] and [hi j]. *)
Fixpoint slider (kt : R) (lo hi u : nat -> R) (u0 : R) (k : nat) : R :=
  match k with
  | O => clamp (lo O) (hi O) (kt * (u O - u0))
  | S j => clamp (lo (S j)) (hi (S j)) (slider kt lo hi u u0 j + kt * (u (S j) - u j))
  end.

(** a sequence repeats with period N *)
Definition periodic (N : nat) (f : nat -> R) : Prop := forall k, f (N + k)%nat = f k.

(** [g 0 .. g (N-1)] is the periodic steady state of the force history [f]:
    from some pass on, every pass over the period gives exactly [g]. *)
Definition steady_state (N : nat) (f g : nat -> R) : Prop :=
  exists n0, forall n k, (n0 <= n)%nat -> (k < N)%nat -> f (n * N + k)%nat = g k.

(** repeat the N samples [us] for ever *)
Definition repeat_samples (N : nat) (us : nat -> R) : nat -> R := fun k => us (k mod N).

(** A Jenkins element has constant limits -Fs, Fs. *)
Definition jenkins_law (kt Fs : R) : (nat -> R) -> R -> nat -> R :=
  slider kt (fun _ => - Fs) (fun _ => Fs).

(** The motion reverses (or starts or stops resting) at sample i of the period of N samples. *)
Definition same_direction (a b : R) : Prop := (0 < a /\ 0 < b) \/ (a < 0 /\ b < 0) \/ (a = 0 /\ b = 0).
Definition reverses (N : nat) (u : nat -> R) (i : nat) : Prop :=
  ~ same_direction (u i - u ((i + N - 1) mod N)%nat) (u ((i + 1) mod N)%nat - u i).

(** At most b samples after the first one are reversals. *)
Definition reversals_at_most (N : nat) (u : nat -> R) (b : nat) : Prop :=
  forall ks, NoDup ks -> (forall k, In k ks -> (1 <= k < N)%nat /\ reverses N u k) -> (length ks <= b)%nat.

(** Index c of the last reversal of the period, with the first sample counted as one. *)
Definition last_reversal (N : nat) (u : nat -> R) (c : nat) : Prop :=
  (c < N)%nat /\ (c = O \/ reverses N u c) /\ forall i, (c < i < N)%nat -> ~ reverses N u i.

(** Elastic trial force of step k: the force without the slip limit at this step. *)
Definition trial (kt Fs : R) (u : nat -> R) (u0 : R) (k : nat) : R :=
  match k with
  | O => kt * (u O - u0)
  | S j => jenkins_law kt Fs u u0 j + kt * (u (S j) - u j)
  end.

(** Force of a Jenkins element after the recorded displacements [us], starting from rest at 0. *)
Definition force_after (kt Fs : R) (us : list R) : R :=
  match us with
  | nil => 0
  | _ => jenkins_law kt Fs (fun k => nth k us 0) 0 (length us - 1)
  end.

(** Parallel sliders of unit stiffness with limits phi i and weights w i, i < n: force at time step k. *)
Definition bank_law (n : nat) (w phi : nat -> R) (u : nat -> R) (u0 : R) (k : nat) : R :=
  rsum n (fun i => w i * jenkins_law 1 (phi i) u u0 k).
(** the largest force the bank can carry *)
Definition bank_limit (n : nat) (w phi : nat -> R) : R := rsum n (fun i => w i * phi i).
(** Force of the bank after the recorded displacements [us], starting from rest at 0. *)
Definition bank_after (n : nat) (w phi : nat -> R) (us : list R) : R := rsum n (fun i => w i * force_after 1 (phi i) us).

(** Elastic trial force of step k of a slider with time-varying limits: the force without the limits of this step. *)
Definition slider_trial (kt : R) (lo hi u : nat -> R) (u0 : R) (k : nat) : R :=
  match k with
  | O => kt * (u O - u0)
  | S j => slider kt lo hi u u0 j + kt * (u (S j) - u j)
  end.

(** Unilateral elastic contact: the normal force is proportional to the penetration beyond the gap and zero without contact. *)
Definition contact_force (kn gap un : R) : R := if Rlt_dec gap un then kn * (un - gap) else 0.

(** Elastic dry friction: tangential force history with the Coulomb limits of the current normal force fn. *)
Definition friction_law (kt mu : R) (fn : nat -> R) : (nat -> R) -> R -> nat -> R :=
  slider kt (fun k => - (mu * fn k)) (fun k => mu * fn k).
Definition friction_trial (kt mu : R) (fn : nat -> R) : (nat -> R) -> R -> nat -> R :=
  slider_trial kt (fun k => - (mu * fn k)) (fun k => mu * fn k).

(** Elements with p local degrees of freedom each, the last one normal to the contact and the others tangential; u and start by local
    degree of freedom: force on local degree of freedom d at step k. *)
Definition normal_dof (p d : nat) : nat := (d / p * p + (p - 1))%nat.
Definition contact_history (p : nat) (kt kn mu gap : R) (u : nat -> nat -> R) (start : nat -> R) (d k : nat) : R :=
  let fn := fun k => contact_force kn gap (u (normal_dof p d) k) in
  if Nat.eqb d (normal_dof p d) then fn k else friction_law kt mu fn (u d) (start d) k.
