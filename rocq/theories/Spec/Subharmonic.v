(** Vocabulary for statements about periodic motions that are written on a period k times as long. *)
From Coq Require Import Reals List Arith.
From Verif.Lib Require Import RSum Py.
From Verif.Spec Require Import Harmonic Galerkin Rotation.
From Verif.Model Require Import VibSys Jenkins Iwan JaxFriction SysHistory SysHarmonic.
Import ListNotations.
Open Scope R_scope.

(** Y on the harmonics h2 holds k periods of the functions of X on the harmonics h1, in one period *)
Definition repeats (N k : nat) (h1 : list nat) (X : vec) (h2 : list nat) (Y : vec) : Prop :=
  forall d tau, (d < N)%nat -> series h2 (dof_coefs N Y d) tau = series h1 (dof_coefs N X d) (INR k * tau).

(** h2 has k times the harmonics of h1 and perhaps others, but no other multiples of k *)
Definition subharmonic_list (k : nat) (h1 h2 : list nat) : Prop :=
  (forall n, In n h1 -> In (k * n)%nat h2) /\ forall n, In (k * n)%nat h2 -> In n h1.

(** elements with sampled forces without memory, and the friction elements *)
Definition sampled_element (N : nat) (e : element) : Prop :=
  match e with
  | ElInstant f => exists psi, local_in_time N psi /\
      forall h Nt, admissible h -> (2 * list_max h + 1 < Nt)%nat -> Nat.even Nt = true -> sampled_harmonics N h Nt f psi
  | ElJenkins _ _ _ | ElIwan _ _ _ | ElEldry _ _ _ _ _ | ElJaxJenkins _ _ _ _ _ _ _ => True
  | _ => False
  end.

(** the harmonic forces of e at Y, for the frequency w / k and k Nt samples, hold k periods of those at X for the frequency w and Nt samples *)
Definition forces_repeat (N k Nt : nat) (w : R) (h1 : list nat) (X : vec) (h2 : list nat) (Y : vec) (e : element) : Prop :=
  exists e1 F e2 G, element_aft N e X w h1 Nt = Ok (e1, Some F) /\ element_aft N e Y (w / INR k) h2 (k * Nt) = Ok (e2, Some G) /\ repeats N k h1 F h2 G.
