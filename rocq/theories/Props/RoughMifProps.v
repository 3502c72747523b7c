(** Property C80: the ring model ('MIF') of tangential contact. *)
From Coq Require Import Reals Lra Lia Arith List.
From Verif.Lib Require Import RSum Py.
From Verif.Spec Require Import Calculus Harmonic Slider Rough RoughCalls RoughMif.
From Verif.Model Require Import Harmonic LocalForces Aft JaxFloat RoughContact.
From Verif.Proofs Require Import RoughNormalP RoughSteadyP RoughMifP RoughSlipP RoughMifCaseP.
Import ListNotations.
Open Scope R_scope.

(** C80: after any sequence of calls, the traction of every ring of every contact disc is the traction stored at this radius plus stiffness
    times tangential step, limited by the friction coefficient in force times the Hertz pressure; the tangential force of the element is the
    weighted sum of the disc forces. *)
Theorem C80_static_law s r N Q (T : mat) u0 st cs X upd n
  (material_ok : physical s) (material : r_mat r = new_material (s_E s) (s_nu s) (s_R s) (s_Et s) (s_Sy s))
  (gaps : forall i, (i < r_n r)%nat -> 0 <= r_meso r + r_gaps r i) (friction : 0 <= r_mu r) (model : r_model r = MIF n) (points : (1 < n)%nat)
  (new : rough_new r u0 = Ok st) :
  let g := fun i => r_meso r + r_gaps r i in
  let moves := rough_moves (r_mu r) N Q cs in
  forall (rings_apart : forall i before after, (i < r_n r)%nat -> moves = before ++ after -> resolved n (rg_a (rings_after s (g i) n before))),
  let res := snd (rough_force r N Q (rough_run r N Q st cs) X upd) in
  let mu := rough_mu_after (r_mu r) cs in
  let u := fun d => rsum N (fun j => Q d j * X j) in
  let M := fun i => memory_after s (g i) moves in
  let G := fun i => rings_after s (g i) n moves in
  let fn := fun i => asperity_force s (mem_d (M i)) (mem_F (M i)) (u 2%nat - g i) in
  let a := fun i => asperity_radius s (mem_d (M i)) (mem_F (M i)) (u 2%nat - g i) in
  let t := fun i d => ring_traction s mu n (fn i) (a i) (rg_a (G i)) (fun j => rg_t (G i) j d) (u d - mem_u (M i) d) in
  (forall i j d, (i < r_n r)%nat -> (j < n)%nat -> fval (st_fxy res i j d) = Some (t i d j)) /\
  exists f : nat -> R, force_values T res = Some (fun p => rsum 3 (fun d => T p d * f d)) /\
    f 2%nat = rsum (r_n r) (fun i => r_weights r i * fn i) /\
    forall d, (d < 2)%nat -> f d = rsum (r_n r) (fun i => r_weights r i * disc_force n (a i) (t i d)).
Proof. exact (static_rings s r N Q T u0 st cs X upd n material_ok material gaps friction model points new). Qed.
Print Assumptions C80_static_law.

(** C80: the harmonic forces are the Fourier coefficients of the last of S p passes over the period, in which every ring follows the same
    law, starting free of traction at the initial positions. *)
Theorem C80_aft_law s r N Q (T : mat) st h Nt U w p n
  (material_ok : physical s) (material : r_mat r = new_material (s_E s) (s_nu s) (s_R s) (s_Et s) (s_Sy s))
  (gaps : forall i, (i < r_n r)%nat -> 0 <= r_meso r + r_gaps r i) (friction : 0 <= rs_mu st) (model : r_model r = MIF n) (points : (1 < n)%nat)
  (harmonics : admissible h) (samples : (2 * list_max h + 1 < Nt)%nat) (even_samples : Nat.even Nt = true) (several : (1 < length (components h))%nat) :
  let u := fun d t => local_motion N Q h U d (sample_phase Nt t) in
  let g := fun i => r_meso r + r_gaps r i in
  forall um (maximum : largest Nt (u 2%nat) um)
    (rings_apart : forall i t, (i < r_n r)%nat -> (t < Nt)%nat -> resolved n (cycle_radius s (um - g i) (u 2%nat t - g i))),
  exists F J, rough_aft r N Q T st U w h Nt (S p) = Ok (Some F, J) /\
  exists f : nat -> nat -> R,
    (forall c i, (c < length (components h))%nat -> (i < N)%nat ->
       F (c * N + i)%nat = rsum 3 (fun d => T i d * fourier_coef Nt (f d) (nth c (components h) (Cos O)))) /\
    forall t, (t < Nt)%nat ->
      f 2%nat t = rsum (r_n r) (fun i => r_weights r i * cycle_force s (um - g i) (u 2%nat t - g i)) /\
      forall d, (d < 2)%nat -> f d t = rsum (r_n r) (fun i => r_weights r i *
        disc_force n (cycle_radius s (um - g i) (u 2%nat t - g i))
          (cycle_rings s (rs_mu st) n (um - g i) (repeat_samples Nt (fun t => u 2%nat t - g i)) (repeat_samples Nt (u d)) (rs_aft_u0 st d) (p * Nt + t))).
Proof. exact (aft_rings s r N Q T st h Nt U w p n material_ok material gaps friction model points harmonics samples even_samples several). Qed.
Print Assumptions C80_aft_law.

(** C80: a disc moved far enough slides: every ring carries mu times its pressure, and the force is a fixed share of mu times the normal
    force, which tends to 1 with the number of radial points. *)
Theorem C80_sliding n (points : (1 < n)%nat) : exists share, 1 - 5 / (4 * INR (n - 1)) <= share <= 1 /\
  forall s mu fn a a0 t, physical s -> 0 <= mu -> 0 < fn -> 0 < a -> exists D, forall du, D <= du ->
    (forall j, (j < n)%nat -> ring_traction s mu n fn a a0 t du j = mu * hertz_pressure fn a (ring n j)) /\
    disc_force n a (ring_traction s mu n fn a a0 t du) = share * (mu * fn).
Proof. exact (share_exists n points). Qed.
Print Assumptions C80_sliding.

(** C80, sliding at mu times the normal force, is false: a contact with two radial points is pressed by a positive normal force and has no
    tangential force whatever its tangential displacement. *)
Theorem C80_sliding_refuted s (material_ok : physical s) :
  let r := mkRough (new_material (s_E s) (s_nu s) (s_R s) (s_Et s) (s_Sy s)) 1 (fun _ => 0) (fun _ => 1) 0 (MIF 2) 1 in
  exists Q st x, rough_new r (U0Scalar 0) = Ok st /\ (forall d e, Q d e = if Nat.eqb d e then 1 else 0) /\
    forall X, X 2%nat = x -> exists f : nat -> R, force_values Q (snd (rough_force r 3 Q st X false)) = Some (fun p => rsum 3 (fun d => Q p d * f d)) /\
      0 < f 2%nat /\ f 0%nat = 0 /\ f 1%nat = 0.
Proof. exact (two_points s material_ok). Qed.
Print Assumptions C80_sliding_refuted.

(** a disc of radius 2 with three rings, moved by 1: the middle sticks, the edge carries nothing *)
Example C80_case : exists mvs, physical soft /\ (forall before after, mvs = before ++ after -> resolved 3 (rg_a (rings_after soft 0 3 before))) /\
  rg_a (rings_after soft 0 3 mvs) = 2 /\ rg_t (rings_after soft 0 3 mvs) 0%nat 0%nat = / PI /\ rg_t (rings_after soft 0 3 mvs) 2%nat 0%nat = 0.
Proof. exact (ex_intro _ case_moves case_rings). Qed.
