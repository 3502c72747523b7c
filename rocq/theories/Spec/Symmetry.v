(** Vocabulary for statements about symmetric systems and lists of odd harmonics. *)
From Coq Require Import Reals List Arith.
From Verif.Lib Require Import RSum Py.
From Verif.Spec Require Import Harmonic Galerkin Rotation.
From Verif.Model Require Import VibSys Jenkins Iwan JaxFriction SysHistory SysHarmonic.
Import ListNotations.
Open Scope R_scope.

(** the coefficients X on the harmonics h1 and Y on the harmonics h2 describe the same functions of N degrees of freedom *)
Definition same_motion (N : nat) (h1 : list nat) (X : vec) (h2 : list nat) (Y : vec) : Prop :=
  forall d tau, (d < N)%nat -> series h1 (dof_coefs N X d) tau = series h2 (dof_coefs N Y d) tau.

(** h1 holds odd harmonics; h2 has all of them and perhaps even ones *)
Definition odd_part (h1 h2 : list nat) : Prop :=
  (forall k, In k h1 -> Nat.odd k = true) /\ (forall k, In k h2 -> Nat.odd k = true -> In k h1) /\ forall k, In k h1 -> In k h2.

(** opposite motions give opposite forces *)
Definition opposite_forces (psi : vec -> vec -> nat -> R) : Prop :=
  forall u v i, psi (fun j => - u j) (fun j => - v j) i = - psi u v i.

(** elements without a preferred direction: sampled forces with opposite forces for opposite motions, Jenkins and
    Iwan elements, and JAX Jenkins elements that start at the mean displacement or at zero *)
Definition symmetric_element (N Nt : nat) (e : element) : Prop :=
  match e with
  | ElInstant f => exists psi, local_in_time N psi /\ opposite_forces psi /\
      forall h, admissible h -> (2 * list_max h + 1 < Nt)%nat -> Nat.even Nt = true -> sampled_harmonics N h Nt f psi
  | ElJenkins _ _ _ | ElIwan _ _ _ => True
  | ElJaxJenkins _ _ _ u0 _ _ _ => u0 = None \/ u0 = Some 0
  | _ => False
  end.

(** the harmonic forces of e at X on h1 and at Y on h2 describe the same functions *)
Definition same_forces (N Nt : nat) (w : R) (h1 : list nat) (X : vec) (h2 : list nat) (Y : vec) (e : element) : Prop :=
  exists e1 F e2 G, element_aft N e X w h1 Nt = Ok (e1, Some F) /\ element_aft N e Y w h2 Nt = Ok (e2, Some G) /\ same_motion N h1 F h2 G.
