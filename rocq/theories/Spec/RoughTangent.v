(** Vocabulary for the derivatives of the rough contact element: where its forces are smooth. *)
From Coq Require Import Reals List Arith.
From Verif.Lib Require Import RSum.
From Verif.Spec Require Import Slider Rough.
Open Scope R_scope.

(** An asperity with largest interference dm and largest force Fm is not at the interference x where contact begins or ends, and not where
    yielding begins. *)
Definition smooth_normal (s : solid) (dm Fm x : R) : Prop :=
  (Rmax dm x < yield_limit s /\ x <> 0) \/ Rmax dm (yield_limit s) < x \/
  (yield_limit s <= dm /\ x < dm /\ x <> permanent (effective_modulus s) (s_R s) dm Fm).
(** Its contact is open, or the tangential force reached without slip after the step du is not exactly at the friction limit. *)
Definition smooth_friction (s : solid) (mu dm Fm x du f : R) : Prop :=
  asperity_radius s dm Fm x = 0 \/
  let trial := f + 8 * mindlin_modulus s * asperity_radius s dm Fm x * du in
  trial <> mu * asperity_force s dm Fm x /\ trial <> - (mu * asperity_force s dm Fm x).

(** The same in a cycle with the largest interference peak: the asperity does not just touch at the peak and is not just yielding there; and
    at the interference x it is not just leaving contact, at zero interference or at its permanent deformation after yielding. *)
Definition smooth_peak (s : solid) (peak : R) : Prop := peak <> 0 /\ peak <> yield_limit s.
Definition smooth_cycle (s : solid) (peak x : R) : Prop :=
  0 < peak -> x <> if Rlt_dec peak (yield_limit s) then 0 else permanent (effective_modulus s) (s_R s) peak (plastic_law s peak).
(** At step k the force reached without slip is not exactly at the friction limit.  If the contact is open, it was open before, or there
    was a tangential force (or friction is switched off, or it is the first step). *)
Definition smooth_slip (s : solid) (mu peak : R) (x u : nat -> R) (u0 : R) (k : nat) : Prop :=
  let a := cycle_radius s peak (x k) in
  let f := match k with O => 0 | S j => cycle_friction s mu peak x u u0 j end in
  let trial := f + 8 * mindlin_modulus s * a * (u k - match k with O => u0 | S j => u j end) in
  (a = 0 /\ (k = O \/ mu = 0 \/ f <> 0 \/ cycle_radius s peak (x (k - 1)%nat) = 0)) \/
  (a <> 0 /\ trial <> mu * cycle_force s peak (x k) /\ trial <> - (mu * cycle_force s peak (x k))).
(** the first n entries of v have a single largest one *)
Definition single_largest (n : nat) (v : nat -> R) : Prop :=
  exists m, (m < n)%nat /\ forall t, (t < n)%nat -> t <> m -> v t < v m.
