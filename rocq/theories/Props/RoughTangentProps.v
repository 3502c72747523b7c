(** Property C83: the Jacobian of rough contact is the derivative of its forces. *)
From Coq Require Import Reals List Arith Lra.
From Verif.Lib Require Import RSum Py.
From Verif.Spec Require Import Calculus Harmonic Slider Rough RoughCalls RoughTangent.
From Verif.Model Require Import Harmonic JaxDual JaxFloat RoughContact.
From Verif.Proofs Require Import RoughCasesP RoughJacobianP RoughJacobianCaseP RoughAftJacobianP.
Import ListNotations.
Open Scope R_scope.

(** * C83 *)
(** The Jacobian should be the derivative of the forces wherever the forces are differentiable.  This is false after set_prestress_mu: with
    friction switched off the tangential forces are zero at every displacement, but at the stored position the Jacobian has a quarter of the
    tangential stiffness of the contact.  This holds for every material and every elastic interference x. *)
Theorem C83_frictionless_refuted : forall s x, physical s -> 0 < x < yield_limit s -> exists r u0 st Q T (X : vec) F J,
  let cs := [RSetPrestressMu] in
  let g := fun i => r_meso r + r_gaps r i in
  let M := fun i => memory_after s (g i) (rough_moves (r_mu r) 3 Q cs) in
  r_mat r = new_material (s_E s) (s_nu s) (s_R s) (s_Et s) (s_Sy s) /\ r_model r = TAN /\ 0 < r_mu r /\ rough_new r u0 = Ok st /\
  r_n r = 1%nat /\ r_weights r O = 1 /\ g O = 0 /\
  (forall d, (d < 3)%nat -> rsum 3 (fun j => Q d j * X j) = if Nat.eqb d 2 then x else 0) /\
  smooth_normal s (mem_d (M O)) (mem_F (M O)) x /\
  (forall V upd, force_values T (snd (rough_force r 3 Q (rough_run r 3 Q st cs) V upd)) = Some (F V)) /\
  (forall V i, (i < 2)%nat -> F V i = 0) /\
  (forall upd, force_jacobian T Q (snd (rough_force r 3 Q (rough_run r 3 Q st cs) X upd)) = Some J) /\
  J O O = 8 * mindlin_modulus s * sqrt (s_R s * x) / 4 /\ 0 < J O O /\ ~ is_jacobian 3 3 F X J.
Proof. exact frictionless_tie. Qed.
Print Assumptions C83_frictionless_refuted.

(** Static evaluation, after any sequence of calls: where no asperity is at the beginning or end of its contact, at the yield limit, at its
    largest interference or exactly at its friction limit, the Jacobian is finite and is the derivative of the forces. *)
Theorem C83_static_partial : forall s r N Q (T : mat) u0 st cs X,
  physical s -> r_mat r = new_material (s_E s) (s_nu s) (s_R s) (s_Et s) (s_Sy s) ->
  (forall i, (i < r_n r)%nat -> 0 <= r_meso r + r_gaps r i) -> 0 <= r_mu r -> r_model r = TAN -> rough_new r u0 = Ok st ->
  let st' := rough_run r N Q st cs in
  let mu := rough_mu_after (r_mu r) cs in
  let g := fun i => r_meso r + r_gaps r i in
  let M := fun i => memory_after s (g i) (rough_moves (r_mu r) N Q cs) in
  let u := fun d => rsum N (fun j => Q d j * X j) in
  (forall i, (i < r_n r)%nat -> smooth_normal s (mem_d (M i)) (mem_F (M i)) (u 2%nat - g i)) ->
  (forall i d, (i < r_n r)%nat -> (d < 2)%nat ->
     smooth_friction s mu (mem_d (M i)) (mem_F (M i)) (u 2%nat - g i) (u d - mem_u (M i) d) (mem_f (M i) d)) ->
  exists (F : vec -> vec) (J : mat),
    (forall V upd, force_values T (snd (rough_force r N Q st' V upd)) = Some (F V)) /\
    (forall upd, force_jacobian T Q (snd (rough_force r N Q st' X upd)) = Some J) /\ forall m, is_jacobian N m F X J.
Proof. exact static_jacobian. Qed.
Print Assumptions C83_static_partial.

(** Every elastic interference of a contact that sticks, on first loading, is covered. *)
Example C83_stuck_case : forall s x mu, physical s -> 0 < x -> x < yield_limit s -> 0 < mu ->
  smooth_normal s 0 0 x /\ smooth_friction s mu 0 0 x 0 0.
Proof. exact stuck_case. Qed.

(** So is every asperity that was loaded beyond the yield limit in an earlier call and is loaded further. *)
Example C83_reload_case : forall s p q, physical s -> yield_limit s < p -> p < q ->
  let r := one_asperity s (1/2) in
  let cs := [RForce (pressed p) true] in
  let g := fun i => r_meso r + r_gaps r i in
  let M := fun i => memory_after s (g i) (rough_moves (r_mu r) 3 eye cs) in
  let u := fun d => rsum 3 (fun j => eye d j * pressed q j) in
  (forall i, (i < r_n r)%nat -> smooth_normal s (mem_d (M i)) (mem_F (M i)) (u 2%nat - g i)) /\
  (forall i d, (i < r_n r)%nat -> (d < 2)%nat ->
     smooth_friction s (rough_mu_after (r_mu r) cs) (mem_d (M i)) (mem_F (M i)) (u 2%nat - g i) (u d - mem_u (M i) d) (mem_f (M i) d)).
Proof. exact reload_case. Qed.

(** Harmonic evaluation, for any number of passes over the cycle: where the normal motion has a single largest sample, no asperity is at the
    beginning or end of its contact or just yielding, and no asperity is exactly at its friction limit at any sample, the derivatives with
    respect to the displacements and to the frequency are finite and are the derivatives of the forces; that with respect to the frequency is
    zero. *)
Theorem C83_aft_partial : forall s r N Q (T : mat) st h Nt,
  physical s -> r_mat r = new_material (s_E s) (s_nu s) (s_R s) (s_Et s) (s_Sy s) ->
  (forall i, (i < r_n r)%nat -> 0 <= r_meso r + r_gaps r i) -> 0 <= rs_mu st -> r_model r = TAN ->
  admissible h -> (2 * list_max h + 1 < Nt)%nat -> Nat.even Nt = true -> (1 < length (components h))%nat ->
  forall U w n,
  let u := fun d t => local_motion N Q h U d (sample_phase Nt t) in
  let g := fun i => r_meso r + r_gaps r i in
  let nc := length (components h) in
  single_largest Nt (u 2%nat) -> forall um, largest Nt (u 2%nat) um ->
  (forall i, (i < r_n r)%nat -> smooth_peak s (um - g i)) ->
  (forall i t, (i < r_n r)%nat -> (t < Nt)%nat -> smooth_cycle s (um - g i) (u 2%nat t - g i)) ->
  (forall i d k, (i < r_n r)%nat -> (d < 2)%nat -> (k < S n * Nt)%nat ->
     smooth_slip s (rs_mu st) (um - g i) (repeat_samples Nt (fun t => u 2%nat t - g i)) (repeat_samples Nt (u d)) (rs_aft_u0 st d) k) ->
  exists (FF : vec -> R -> vec) (dU : mat) (dw : vec),
    (forall V z, exists J, rough_aft r N Q T st V z h Nt (S n) = Ok (Some (FF V z), J)) /\
    rough_aft r N Q T st U w h Nt (S n) = Ok (Some (FF U w), Some (dU, dw)) /\
    is_joint_jacobian (nc * N) (nc * N) FF U w dU dw /\ forall p, (p < nc * N)%nat -> dw p = 0.
Proof. exact aft_jacobian. Qed.
Print Assumptions C83_aft_partial.

(** Every normal vibration within the elastic range that stays in contact is covered, for any material, friction and number of samples. *)
Example C83_vibration_case : forall s x0 x1 mu Nt n, physical s -> 0 < x1 -> x1 < x0 -> x0 + x1 < yield_limit s -> 0 < mu -> (3 < Nt)%nat ->
  let r := one_asperity s mu in
  let g := fun i => r_meso r + r_gaps r i in
  let u := fun d t => local_motion 3 eye [0;1]%nat (vibration x0 x1) d (sample_phase Nt t) in
  single_largest Nt (u 2%nat) /\ largest Nt (u 2%nat) (x0 + x1) /\ (forall i, (i < r_n r)%nat -> smooth_peak s (x0 + x1 - g i)) /\
  (forall i t, (i < r_n r)%nat -> (t < Nt)%nat -> smooth_cycle s (x0 + x1 - g i) (u 2%nat t - g i)) /\
  forall i d k, (i < r_n r)%nat -> (d < 2)%nat -> (k < S n * Nt)%nat ->
    smooth_slip s mu (x0 + x1 - g i) (repeat_samples Nt (fun t => u 2%nat t - g i)) (repeat_samples Nt (u d)) 0 k.
Proof. exact vibration_case. Qed.
