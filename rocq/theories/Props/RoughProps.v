(** Properties C61 and C62: the rough contact element. *)
From Coq Require Import Reals Lra Lia Arith List.
From Verif.Lib Require Import RSum Py.
From Verif.Spec Require Import Calculus Harmonic Slider Rough RoughCalls.
From Verif.Model Require Import Harmonic LocalForces Aft JaxFloat RoughContact.
From Verif.Proofs Require Import RoughNormalP RoughCallsP RoughSteadyP RoughCasesP RoughAftP.
Import ListNotations.
Open Scope R_scope.

(** C61: after any sequence of calls, the normal force of asperity i is that of an asperity which remembers the largest interference and the
    largest force of the updating evaluations since the last init_history, and the element's normal force is the weighted sum.  Every number
    returned is finite. *)
Theorem C61_force_law s r N Q (T : mat) u0 st cs X upd
  (material_ok : physical s) (material : r_mat r = new_material (s_E s) (s_nu s) (s_R s) (s_Et s) (s_Sy s))
  (gaps : forall i, (i < r_n r)%nat -> 0 <= r_meso r + r_gaps r i) (friction : 0 <= r_mu r) (quadrature : r_model r <> MIF 0) (new : rough_new r u0 = Ok st) :
  let res := snd (rough_force r N Q (rough_run r N Q st cs) X upd) in
  let g := fun i => r_meso r + r_gaps r i in
  let M := fun i => memory_after s (g i) (rough_moves (r_mu r) N Q cs) in
  let x := fun i => rsum N (fun j => Q 2%nat j * X j) - g i in
  (forall i, (i < r_n r)%nat ->
     fval (st_fn res i) = Some (asperity_force s (mem_d (M i)) (mem_F (M i)) (x i)) /\
     fval (st_a res i) = Some (asperity_radius s (mem_d (M i)) (mem_F (M i)) (x i))) /\
  exists f : nat -> R, force_values T res = Some (fun p => rsum 3 (fun d => T p d * f d)) /\
    f 2%nat = rsum (r_n r) (fun i => r_weights r i * asperity_force s (mem_d (M i)) (mem_F (M i)) (x i)).
Proof.
  pose proof (static_forces s r N Q T u0 st cs X upd material_ok material gaps friction (model_not_0 r quadrature) new) as [A (f & B & C & _)].
  exact (conj (fun i Hi => conj (proj1 (A i Hi)) (proj1 (proj2 (A i Hi)))) (ex_intro _ f (conj B C))).
Qed.
Print Assumptions C61_force_law.

(** C61: normal forces are nonnegative after every history. *)
Theorem C61_nonnegative s g mvs x (material_ok : physical s) (gap : 0 <= g) :
  let M := memory_after s g mvs in 0 <= asperity_force s (mem_d M) (mem_F M) x.
Proof. exact (memory_nonneg s g material_ok gap mvs x). Qed.
Print Assumptions C61_nonnegative.

(** C61: the remembered values never decrease and are never exceeded by an interference or force of the history. *)
Theorem C61_memory s g mvs mv more :
  let M := memory_after s g mvs in let M' := memory_after s g (mvs ++ mv :: more) in
  mem_d M <= mem_d M' /\ mem_F M <= mem_F M' /\
  snd mv 2%nat - g <= mem_d M' /\ asperity_force s (mem_d M) (mem_F M) (snd mv 2%nat - g) <= mem_F M'.
Proof.
  exact (conj (proj1 (memory_grows s g mvs (mv :: more))) (conj (proj2 (memory_grows s g mvs (mv :: more))) (memory_covers s g mvs mv more))).
Qed.
Print Assumptions C61_memory.

(** C61: unloading starts at the largest force reached, and no smaller interference gives a larger force. *)
Theorem C61_unloading_start s g mvs x (material_ok : physical s) (gap : 0 <= g) :
  let M := memory_after s g mvs in
  asperity_force s (mem_d M) (mem_F M) (mem_d M) = mem_F M /\
  (x <= mem_d M -> asperity_force s (mem_d M) (mem_F M) x <= mem_F M).
Proof. exact (conj (memory_at_max s g material_ok gap mvs) (memory_below s g material_ok gap mvs x)). Qed.
Print Assumptions C61_unloading_start.

(** C61: if the largest interference was elastic, the largest force is that of Hertz contact, later forces are those of loading, and the
    unloading law coincides with them. *)
Theorem C61_elastic s g mvs x (material_ok : physical s) (gap : 0 <= g) :
  let M := memory_after s g mvs in
  mem_d M < yield_limit s ->
  mem_F M = solid_hertz s (mem_d M) /\
  (x < yield_limit s -> asperity_force s (mem_d M) (mem_F M) x = solid_hertz s x) /\
  (0 < mem_d M -> solid_unloading s (mem_d M) (mem_F M) x = solid_hertz s x).
Proof. exact (memory_elastic s g material_ok gap mvs x). Qed.
Print Assumptions C61_elastic.

(** C61, vanishing out of contact, is false: a contact pressed just beyond the yield limit and then separated still transmits a normal
    force, because the plastic loading law gives more than the Hertz force there and the permanent deformation becomes negative. *)
Theorem C61_out_of_contact_refuted :
  exists s r N Q st cs X f, physical s /\ r_mat r = new_material (s_E s) (s_nu s) (s_R s) (s_Et s) (s_Sy s) /\
    (forall i, (i < r_n r)%nat -> 0 <= r_meso r + r_gaps r i) /\ rough_new r (U0Scalar 0) = Ok st /\
    rsum N (fun j => Q 2%nat j * X j) < r_meso r + r_gaps r 0%nat /\
    fval (st_fn (snd (rough_force r N Q (rough_run r N Q st cs) X false)) 0%nat) = Some f /\ 0 < f.
Proof. exact out_of_contact_witness. Qed.
Print Assumptions C61_out_of_contact_refuted.

(** What remains: without interference there is no force whenever the largest force does not exceed the Hertz force of the largest
    interference (in particular if it was elastic), and there is never a force below the permanent deformation. *)
Theorem C61_out_of_contact_partial s g mvs x (material_ok : physical s) (gap : 0 <= g) :
  let M := memory_after s g mvs in
  (mem_F M <= solid_hertz s (mem_d M) -> x <= 0 -> asperity_force s (mem_d M) (mem_F M) x = 0) /\
  (mem_d M < yield_limit s -> mem_F M <= solid_hertz s (mem_d M)) /\
  (yield_limit s <= mem_d M -> x <= mem_d M -> x <= permanent (effective_modulus s) (s_R s) (mem_d M) (mem_F M) ->
   asperity_force s (mem_d M) (mem_F M) x = 0).
Proof. exact (memory_out s g material_ok gap mvs x). Qed.
Print Assumptions C61_out_of_contact_partial.

(** C61 at the yield limit: first loading exactly to 1.9 times the yield interference gives no force at all, although the force is that of
    Hertz contact below and of plastic contact above. *)
Theorem C61_yield_limit_refuted s (material_ok : physical s) :
  let r := mkRough (new_material (s_E s) (s_nu s) (s_R s) (s_Et s) (s_Sy s)) 1 (fun _ => 0) (fun _ => 1) 0 TAN (1/2) in
  exists Q st, rough_new r (U0Scalar 0) = Ok st /\ forall x, exists X, rsum 3 (fun j => Q 2%nat j * X j) = x /\
    let res := snd (rough_force r 3 Q st X false) in
    (x < yield_limit s -> fval (st_fn res 0%nat) = Some (solid_hertz s x)) /\
    (x = yield_limit s -> fval (st_fn res 0%nat) = Some 0) /\
    (yield_limit s < x -> fval (st_fn res 0%nat) = Some (plastic_law s x)).
Proof. exact (yield_limit_witness s material_ok). Qed.
Print Assumptions C61_yield_limit_refuted.

(** an asperity that yielded, with a largest force above the Hertz force *)
Example C61_case : exists s g mvs, physical s /\ 0 <= g /\ let M := memory_after s g mvs in
  yield_limit s < mem_d M /\ 0 < mem_F M /\ solid_hertz s (mem_d M) < mem_F M.
Proof. exact (ex_intro _ steel (ex_intro _ 0 (ex_intro _ _ (conj (proj1 yielded_case) (conj (Rle_refl 0) (proj2 yielded_case)))))). Qed.

(** C62: after any sequence of calls the tangential force of each asperity ('TAN') is the stored force plus the step times Mindlin's
    stiffness, limited by the friction coefficient in force times its normal force. *)
Theorem C62_friction_law s r N Q u0 st cs X upd
  (material_ok : physical s) (material : r_mat r = new_material (s_E s) (s_nu s) (s_R s) (s_Et s) (s_Sy s))
  (gaps : forall i, (i < r_n r)%nat -> 0 <= r_meso r + r_gaps r i) (friction : 0 <= r_mu r) (model : r_model r = TAN) (new : rough_new r u0 = Ok st) :
  let res := snd (rough_force r N Q (rough_run r N Q st cs) X upd) in
  let mu := rough_mu_after (r_mu r) cs in
  let g := fun i => r_meso r + r_gaps r i in
  let M := fun i => memory_after s (g i) (rough_moves (r_mu r) N Q cs) in
  let u := fun d => rsum N (fun j => Q d j * X j) in
  forall i d, (i < r_n r)%nat -> exists f fn,
    fval (st_fxy res i 0%nat d) = Some f /\ fval (st_fn res i) = Some fn /\
    f = asperity_friction s mu (mem_d (M i)) (mem_F (M i)) (u 2%nat - g i) (u d - mem_u (M i) d) (mem_f (M i) d) /\
    Rabs f <= mu * fn.
Proof. exact (static_friction s r N Q u0 st cs X upd material_ok material gaps friction model new). Qed.
Print Assumptions C62_friction_law.

(** C62, both tangential models: each tangential force of the element is at most the friction coefficient in force times its normal force. *)
Theorem C62_static_limit s r N Q (T : mat) u0 st cs X upd
  (material_ok : physical s) (material : r_mat r = new_material (s_E s) (s_nu s) (s_R s) (s_Et s) (s_Sy s))
  (gaps : forall i, (i < r_n r)%nat -> 0 <= r_meso r + r_gaps r i) (friction : 0 <= r_mu r) (quadrature : r_model r <> MIF 0) (new : rough_new r u0 = Ok st)
  (weights : forall i, (i < r_n r)%nat -> 0 <= r_weights r i) :
  exists f : nat -> R, force_values T (snd (rough_force r N Q (rough_run r N Q st cs) X upd)) = Some (fun p => rsum 3 (fun d => T p d * f d)) /\
    forall d, (d < 2)%nat -> Rabs (f d) <= rough_mu_after (r_mu r) cs * f 2%nat.
Proof. exact (static_limit s r N Q T u0 st cs X upd material_ok material gaps friction (model_not_0 r quadrature) new weights). Qed.
Print Assumptions C62_static_limit.

(** C62: the harmonic forces are the Fourier coefficients of the last of S n passes over the period.  Its normal forces are those of
    asperities loaded to the largest interference of the period; its tangential forces ('TAN') follow the Mindlin slider law from the
    initial positions; and each tangential force is at most mu times the normal force at every instant (both models). *)
Theorem C62_aft s r N Q (T : mat) st h Nt U w n
  (material_ok : physical s) (material : r_mat r = new_material (s_E s) (s_nu s) (s_R s) (s_Et s) (s_Sy s))
  (gaps : forall i, (i < r_n r)%nat -> 0 <= r_meso r + r_gaps r i) (friction : 0 <= rs_mu st) (quadrature : r_model r <> MIF 0)
  (harmonics : admissible h) (samples : (2 * list_max h + 1 < Nt)%nat) (even_samples : Nat.even Nt = true) (several : (1 < length (components h))%nat) :
  exists F J, rough_aft r N Q T st U w h Nt (S n) = Ok (Some F, J) /\
  exists f : nat -> nat -> R,
    (forall c i, (c < length (components h))%nat -> (i < N)%nat ->
       F (c * N + i)%nat = rsum 3 (fun d => T i d * fourier_coef Nt (f d) (nth c (components h) (Cos O)))) /\
    forall t, (t < Nt)%nat ->
      let u := fun d t => local_motion N Q h U d (sample_phase Nt t) in
      exists um, largest Nt (u 2%nat) um /\
      let g := fun i => r_meso r + r_gaps r i in
      f 2%nat t = rsum (r_n r) (fun i => r_weights r i * cycle_force s (um - g i) (u 2%nat t - g i)) /\
      forall d, (d < 2)%nat ->
        (r_model r = TAN -> f d t = rsum (r_n r) (fun i => r_weights r i *
           cycle_friction s (rs_mu st) (um - g i) (repeat_samples Nt (fun t => u 2%nat t - g i)) (repeat_samples Nt (u d)) (rs_aft_u0 st d) (n * Nt + t))) /\
        ((forall i, (i < r_n r)%nat -> 0 <= r_weights r i) -> Rabs (f d t) <= rs_mu st * f 2%nat t).
Proof. exact (aft_forces s r N Q T st h Nt material_ok material gaps friction (model_not_0 r quadrature) harmonics samples even_samples several U w n). Qed.
Print Assumptions C62_aft.

(** C62: the start of the harmonic evaluation, rs_aft_u0 in C62_aft, is the argument u0 of the constructor until set_aft_initialize is
    called, and then the displacement of its last call; no other call changes it.  Arrays of other lengths are rejected. *)
Theorem C62_start r N Q u0 cs :
  (start_allowed u0 -> exists st, rough_new r u0 = Ok st /\ forall d, (d < 3)%nat -> rs_aft_u0 (rough_run r N Q st cs) d = aft_start_after N Q u0 cs d) /\
  (~ start_allowed u0 -> rough_new r u0 = Err AssertionError).
Proof. exact (aft_start r N Q u0 cs). Qed.
Print Assumptions C62_start.

(** The start (2, 5) of the two directions, after a static evaluation with update and a reset. *)
Example C62_start_case (r : rough) X : start_allowed (U0Array 2 (fun d => match d with O => 2 | _ => 5 end)) /\
  aft_start_after 1 (fun _ _ => 1) (U0Array 2 (fun d => match d with O => 2 | _ => 5 end)) [RForce X true; RInitHistory] 1%nat = 5.
Proof. cbn. split; [lia|reflexivity]. Qed.

(** C62: the tangential force of each asperity in a cycle is at most mu times its normal force, and it reaches a periodic state after
    some number of passes. *)
Theorem C62_cycle s mu peak x u u0 Nt (material_ok : physical s) (friction : 0 <= mu) (samples : (0 < Nt)%nat) :
  let f := cycle_friction s mu peak (repeat_samples Nt x) (repeat_samples Nt u) u0 in
  (forall k, Rabs (f k) <= mu * cycle_force s peak (repeat_samples Nt x k)) /\
  exists n, steady_state Nt f (fun k => f (n * Nt + k)%nat).
Proof. exact (conj (friction_range s mu peak u0 Nt x u material_ok friction) (friction_eventually s mu peak u0 Nt x u material_ok friction samples)). Qed.
Print Assumptions C62_cycle.

(** C62, steady state after two passes, is false, and no other number of passes is enough: for every n there is a contact and a motion
    for which pass n + 2 differs from pass n + 1 (the stiffness changes with the contact radius, so a stuck contact ratchets). *)
Theorem C62_two_passes_refuted : forall n, exists s r st Nt unlt a b,
  physical s /\ r_mat r = new_material (s_E s) (s_nu s) (s_R s) (s_Et s) (s_Sy s) /\ (forall i, (i < r_n r)%nat -> 0 <= r_meso r + r_gaps r i) /\
  rough_new r (U0Scalar 0) = Ok st /\ (0 < Nt)%nat /\
  rough_local_force_history r st Nt unlt (fun _ => 0) (S n) 0 0 = Some a /\
  rough_local_force_history r st Nt unlt (fun _ => 0) (S (S n)) 0 0 = Some b /\ a <> b.
Proof. exact ratchet_witness. Qed.
Print Assumptions C62_two_passes_refuted.

(** What remains ('TAN'): two passes reach the steady state if every asperity carries no normal force at some instant of the period, or the
    normal displacement is constant.  Missing: the 'MIF' model, and asperities in contact all the time under a varying normal load. *)
Theorem C62_two_passes_partial s r st Nt unlt start n
  (material_ok : physical s) (material : r_mat r = new_material (s_E s) (s_nu s) (s_R s) (s_Et s) (s_Sy s))
  (gaps : forall i, (i < r_n r)%nat -> 0 <= r_meso r + r_gaps r i) (friction : 0 <= rs_mu st) (model : r_model r = TAN) (samples : (0 < Nt)%nat)
  (separates : forall i, (i < r_n r)%nat ->
     (exists t um, (t < Nt)%nat /\ largest Nt (fun t => unlt t 2%nat) um /\
        cycle_force s (um - (r_meso r + r_gaps r i)) (unlt t 2%nat - (r_meso r + r_gaps r i)) = 0) \/
     (forall t, (t < Nt)%nat -> unlt t 2%nat = unlt O 2%nat)) :
  forall t d, (t < Nt)%nat -> (d < 3)%nat ->
    rough_local_force_history r st Nt unlt start (2 + n) t d = rough_local_force_history r st Nt unlt start 2 t d.
Proof. exact (steady_histories s r (rs_mu st) Nt unlt start n material_ok material gaps friction model samples separates st eq_refl). Qed.
Print Assumptions C62_two_passes_partial.

(** an asperity that separates once per cycle *)
Example C62_case : exists s u um, physical s /\ largest 2 u um /\ cycle_force s (um - 0) (u 1%nat - 0) = 0 /\ 0 < cycle_force s (um - 0) (u O - 0).
Proof. exact (ex_intro _ soft (ex_intro _ _ (ex_intro _ 1 (conj soft_physical separating_case)))). Qed.
