(** Vocabulary for the ring model of tangential contact ('MIF'): the contact disc of radius a is divided by n radii, every ring carries a
    tangential traction, and rings slip one after the other. *)
From Coq Require Import Reals Arith List.
From Verif.Lib Require Import RSum.
From Verif.Spec Require Import Slider Rough.
Import ListNotations.
Open Scope R_scope.

(** relative radius of ring j of n: evenly spaced from 0 to 1 *)
Definition ring (n j : nat) : R := INR j / INR (n - 1).

(** piecewise linear function of the radius x with the values t j at the rings of a disc of radius a; 0 outside the disc *)
Definition hat (z : R) : R := Rmax 0 (1 - Rabs z).
Definition carried (n : nat) (a : R) (t : nat -> R) (x : R) : R :=
  if Rlt_dec 0 a then (if Rle_dec x a then rsum n (fun j => t j * hat (x / a * INR (n - 1) - INR j)) else 0) else 0.

(** tangential stiffness per area, relative to the mean stiffness of the disc: a fit of Mindlin's solution, without the infinite value at
    the edge *)
Definition mif_shape (r : R) : R :=
  if Rlt_dec r 1 then 8709/10000 + 1291/10000 / sqrt (1 - r ^ 2) + 629/10000 * r - 8915/10000 * r ^ 2 + 6998/10000 * r ^ 3 else 0.
(** pressure of Hertz contact: normal force fn on a disc of radius a *)
Definition hertz_pressure (fn a r : R) : R := 3 * fn / (2 * PI * a ^ 2) * sqrt (1 - r ^ 2).

(** Traction of ring j, in one direction, after a tangential step du: the traction that was at this radius in the previous disc (radius a0,
    tractions t), plus stiffness times step, limited to mu times the pressure.  A disc without normal force has no traction. *)
Definition ring_traction (s : solid) (mu : R) (n : nat) (fn a a0 : R) (t : nat -> R) (du : R) (j : nat) : R :=
  if Rlt_dec 0 fn then
    let q := mu * hertz_pressure fn a (ring n j) in
    clamp (- q) q (carried n a0 t (ring n j * a) + 8 * mindlin_modulus s * a / (PI * a ^ 2) * mif_shape (ring n j) * du)
  else 0.
(** force of the disc: trapezoidal rule for the integral of 2 pi r t(r) over the radius *)
Definition disc_force (n : nat) (a : R) (t : nat -> R) : R :=
  2 * PI * a ^ 2 * rsum (n - 1) (fun j => (ring n (S j) - ring n j) * (ring n j * t j + ring n (S j) * t (S j)) / 2).

(** What the rings of an asperity remember besides its memory: radius of the disc and tractions of ring j in direction d. *)
Record rings := mkRings { rg_a : R; rg_t : nat -> nat -> R }.
Definition remember_rings (s : solid) (g : R) (n : nat) (st : memory * rings) (mv : R * (nat -> R)) : memory * rings :=
  let M := fst st in
  let x := snd mv 2%nat - g in
  let a := asperity_radius s (mem_d M) (mem_F M) x in
  (remember s g M mv,
   mkRings a (fun j d => ring_traction s (fst mv) n (asperity_force s (mem_d M) (mem_F M) x) a (rg_a (snd st)) (fun j => rg_t (snd st) j d) (snd mv d - mem_u M d) j)).
(** after the given moves, oldest first *)
Definition rings_after (s : solid) (g : R) (n : nat) (mvs : list (R * (nat -> R))) : rings :=
  snd (fold_left (remember_rings s g n) mvs (memory_after s g [], mkRings 0 (fun _ _ => 0))).

(** jnp.interp cannot tell points apart that are closer than 2^-104: discs are empty or their rings are further apart *)
Definition resolved (n : nat) (a : R) : Prop := 0 < a -> / 2 ^ 104 < a / INR (n - 1).

(** tractions at step k of an asperity with the interferences x k in a cycle with the largest interference peak, and tangential
    displacements u k, starting free of traction at u0 *)
Fixpoint cycle_rings (s : solid) (mu : R) (n : nat) (peak : R) (x u : nat -> R) (u0 : R) (k : nat) : nat -> R :=
  let fn := fun k => cycle_force s peak (x k) in
  let a := fun k => cycle_radius s peak (x k) in
  match k with
  | O => ring_traction s mu n (fn O) (a O) 0 (fun _ => 0) (u O - u0)
  | S l => ring_traction s mu n (fn (S l)) (a (S l)) (a l) (cycle_rings s mu n peak x u u0 l) (u (S l) - u l)
  end.
