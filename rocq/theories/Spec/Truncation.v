(** Vocabulary for statements about lists of harmonics that are extended by further harmonics. *)
From Coq Require Import Reals List Arith.
From Verif.Lib Require Import RSum Py.
From Verif.Spec Require Import Harmonic Galerkin Rotation Subharmonic.
From Verif.Model Require Import VibSys Jenkins Iwan JaxFriction SysHistory SysHarmonic.
Import ListNotations.
Open Scope R_scope.

(** a cosine or sine that is on both lists has the same coefficients in F and in G *)
Definition agrees_on (N : nat) (h1 : list nat) (F : vec) (h2 : list nat) (G : vec) : Prop :=
  forall c1 c2 i, (c1 < length (components h1))%nat -> (c2 < length (components h2))%nat -> (i < N)%nat ->
  nth c1 (components h1) (Cos O) = nth c2 (components h2) (Cos O) -> F (c1 * N + i)%nat = G (c2 * N + i)%nat.

(** the coefficients of Y that belong to harmonics outside h1 are zero *)
Definition zero_beyond (N : nat) (h1 h2 : list nat) (Y : vec) : Prop :=
  forall c i, (c < length (components h2))%nat -> (i < N)%nat -> ~ In (nth c (components h2) (Cos O)) (components h1) -> Y (c * N + i)%nat = 0.

(** the harmonic forces of e for X on h1 are those for Y on h2, without the other harmonics *)
Definition forces_agree (N Nt : nat) (w : R) (h1 : list nat) (X : vec) (h2 : list nat) (Y : vec) (e : element) : Prop :=
  exists e1 F e2 G, element_aft N e X w h1 Nt = Ok (e1, Some F) /\ element_aft N e Y w h2 Nt = Ok (e2, Some G) /\ agrees_on N h1 F h2 G.

(** parameters of the elements whose forces are compared: slip limits and the friction coefficient are not negative, the contact stiffness
    is positive, and the JAX elements have more than one harmonic component *)
Definition proper_parameters (h : list nat) (e : element) : Prop :=
  match e with
  | ElInstant _ => True
  | ElJenkins _ _ s => 0 <= j_Fs s
  | ElIwan _ _ s => forall i, (i < iw_n s)%nat -> 0 <= iw_phi s i
  | ElEldry p ne _ _ s => (0 < p)%nat /\ (0 < ne)%nat /\ 0 < ep_kn (ed_pars s) /\ 0 <= ep_mu (ed_pars s) /\ (1 < length (components h))%nat
  | ElJaxJenkins _ _ _ _ Fs _ _ => 0 <= Fs /\ (1 < length (components h))%nat
  | ElRough _ _ _ _ => False
  end.

(** With harmonic 0 on the shorter list the sliders start at the same displacement for both lists.  Otherwise the friction elements must
    not stop after the first pass. *)
Definition same_start (N Nt : nat) (h1 : list nat) (X : vec) (h2 : list nat) (Y : vec) (e : element) : Prop :=
  proper_parameters h1 e /\ (In O h1 \/ (steady_evaluation N h1 Nt e X /\ steady_evaluation N h2 Nt e Y)).
