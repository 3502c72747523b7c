(** Properties C11-C15 for the instantaneous elements, and C22 for JenkinsForce.aft.
    Specification: Spec/Elements.v, Spec/Harmonic.v, Spec/Calculus.v, Spec/Slider.v. *)
From Coq Require Import Reals Lra Lia Arith List Bool.
From Verif.Lib Require Import RSum Py.
From Verif.Spec Require Import Calculus Harmonic Elements Slider.
From Verif.Model Require Import Jenkins LocalForces Aft.
From Verif.Proofs Require Import AftP ElementsP HystAftP ElementCasesP.
Import ListNotations.
Open Scope R_scope.

(** C11: CubicForce.force is T (k (Q X)^3) with its Jacobian. *)
Theorem C11_cubic N nnl Q T k X :
  (forall i, fst (cubic_force N nnl Q T k X) i
             = rsum nnl (fun d => T i d * (k d * (rsum N (fun j => Q d j * X j)) ^ 3))) /\
  is_jacobian N N (fun X => fst (cubic_force N nnl Q T k X)) X (snd (cubic_force N nnl Q T k X)).
Proof. exact (conj (cubic_force_value N nnl Q T k X) (cubic_force_jacobian N nnl Q T k X)). Qed.
Print Assumptions C11_cubic.

Theorem C11_quintic N nnl Q T k X :
  (forall i, fst (quintic_force N nnl Q T k X) i
             = rsum nnl (fun d => T i d * (k d * (rsum N (fun j => Q d j * X j)) ^ 5))) /\
  is_jacobian N N (fun X => fst (quintic_force N nnl Q T k X)) X (snd (quintic_force N nnl Q T k X)).
Proof. exact (conj (quintic_force_value N nnl Q T k X) (quintic_force_jacobian N nnl Q T k X)). Qed.
Print Assumptions C11_quintic.

(** C11: GenPolyForce.force is T E (monomials of Q X) with its Jacobian, for every table of exponents. *)
Theorem C11_polynomial N nnl cnl Q T E qq X :
  (forall i, fst (poly_force N nnl cnl Q T E qq X) i
             = rsum nnl (fun d => T i d * rsum cnl (fun p => E d p *
                 monomial nnl (qq p) (fun e => rsum N (fun j => Q e j * X j))))) /\
  is_jacobian N N (fun X => fst (poly_force N nnl cnl Q T E qq X)) X (snd (poly_force N nnl cnl Q T E qq X)).
Proof. exact (conj (poly_force_value N nnl cnl Q T E qq X) (poly_force_jacobian N nnl cnl Q T E qq X)). Qed.
Print Assumptions C11_polynomial.

(** a cubic spring between two degrees of freedom *)
Example C11_case : let Q : mat := fun _ j => match j with O => 1 | _ => -1 end in let T : mat := fun i _ => match i with O => 1 | _ => -1 end in
  let o := cubic_force 2 1 Q T (fun _ => 2) (fun i => match i with O => 3 | _ => 1 end) in
  fst o 0%nat = 16 /\ fst o 1%nat = -16 /\ snd o 0%nat 0%nat = 24 /\ snd o 0%nat 1%nat = -24.
Proof. cbn. repeat split; lra. Qed.

(** C12: the derivatives returned beside the local forces. *)
Theorem C12_cubic k d u v :
  law_f (cubic_history k) d u v = k d * u ^ 3 /\
  exact_partials (law_f (cubic_history k) d) u v (law_du (cubic_history k) d u v) (law_dv (cubic_history k) d u v).
Proof. exact (conj eq_refl (cubic_exact k d u v)). Qed.
Print Assumptions C12_cubic.

Theorem C12_quintic k d u v :
  law_f (quintic_history k) d u v = k d * u ^ 5 /\
  exact_partials (law_f (quintic_history k) d) u v (law_du (quintic_history k) d u v) (law_dv (quintic_history k) d u v).
Proof. exact (conj eq_refl (quintic_exact k d u v)). Qed.
Print Assumptions C12_quintic.

Theorem C12_cubic_damping c d u v :
  law_f (damping_history c) d u v = c d * v ^ 3 /\
  exact_partials (law_f (damping_history c) d) u v (law_du (damping_history c) d u v) (law_dv (damping_history c) d u v).
Proof. exact (conj eq_refl (damping_exact c d u v)). Qed.
Print Assumptions C12_cubic_damping.

(** CubicDamping.force (its argument is the velocity) has the Jacobian it returns. *)
Theorem C12_cubic_damping_force N nnl Q T c V :
  is_jacobian N N (fun V => fst (damping_force N nnl Q T c V)) V (snd (damping_force N nnl Q T c V)).
Proof. exact (damping_force_jacobian N nnl Q T c V). Qed.
Print Assumptions C12_cubic_damping_force.

Theorem C12_unilateral k Np delta d u v (stiff : 0 <= k d) (off_kink : u <> delta d) :
  law_f (unilateral_history k Np delta) d u v = unilateral_law (k d) (Np d) (delta d) u /\
  exact_partials (law_f (unilateral_history k Np delta) d) u v
    (law_du (unilateral_history k Np delta) d u v) (law_dv (unilateral_history k Np delta) d u v).
Proof. exact (conj (unilateral_value k Np delta d u v stiff) (unilateral_exact k Np delta d u v stiff off_kink)). Qed.
Print Assumptions C12_unilateral.

Theorem C12_iwan_backbone kt Fs chi beta d u v
  (stiff : 0 < kt) (slip : 0 < Fs) (chi_ok : -1 < chi) (beta_ok : 0 <= beta)
  (off_kink : Rabs u <> macroslip kt Fs chi beta) :
  law_f (iwan_history kt Fs chi beta) d u v = iwan_backbone kt Fs chi beta u /\
  exact_partials (law_f (iwan_history kt Fs chi beta) d) u v
    (law_du (iwan_history kt Fs chi beta) d u v) (law_dv (iwan_history kt Fs chi beta) d u v).
Proof.
  exact (conj (iwan_value kt Fs chi beta stiff slip chi_ok beta_ok d u v)
              (iwan_exact kt Fs chi beta stiff slip chi_ok beta_ok d u v off_kink)).
Qed.
Print Assumptions C12_iwan_backbone.

(** contact spring beyond its gap, and an Iwan element in microslip *)
Example C12_case : 0 <= 2 /\ 3 <> 1 /\ law_f (unilateral_history (fun _ => 2) (fun _ => 1) (fun _ => 1)) 0 3 5 = 3 /\
  (0 < 1 /\ -1 < 0 /\ 0 <= 1 /\ macroslip 1 1 0 1 = 4 / 3 /\ Rabs 1 <> macroslip 1 1 0 1).
Proof. exact instant_case. Qed.

(** C13: the unilateral spring law for k >= 0: value, lower bound, monotone, continuous. *)
Theorem C13_unilateral_law k Np delta d v (stiff : 0 <= k d) :
  let f := fun u => law_f (unilateral_history k Np delta) d u v in
  (forall u, u <= delta d -> f u = - Np d) /\
  (forall u, delta d < u -> f u = k d * (u - delta d) - Np d) /\
  (forall u, - Np d <= f u) /\
  (forall u u', u <= u' -> f u <= f u') /\
  (forall u, continuity_pt f u).
Proof. exact (unilateral_all k Np delta d v stiff). Qed.
Print Assumptions C13_unilateral_law.

(** C13: force and gradient of UnilateralSpring.force; at the contact point no gradient exists. *)
Theorem C13_unilateral_force N nnl Q T k Np delta X (stiff : forall d, (d < nnl)%nat -> 0 <= k d) :
  (forall i, fst (unilateral_force N nnl Q T k Np delta X) i
     = rsum nnl (fun d => T i d * unilateral_law (k d) (Np d) (delta d) (rsum N (fun j => Q d j * X j)))) /\
  ((forall d, (d < nnl)%nat -> rsum N (fun j => Q d j * X j) <> delta d) ->
   is_jacobian N N (fun X => fst (unilateral_force N nnl Q T k Np delta X)) X
     (snd (unilateral_force N nnl Q T k Np delta X))).
Proof.
  exact (conj (fun i => unilateral_force_value N nnl Q T k Np delta X i stiff)
              (unilateral_force_jacobian N nnl Q T k Np delta X stiff)).
Qed.
Print Assumptions C13_unilateral_force.

Theorem C13_no_gradient_at_contact k Np delta l (stiff : 0 < k) :
  ~ derivable_pt_lim (unilateral_law k Np delta) delta l.
Proof. exact (unilateral_kink k Np delta l stiff). Qed.
Print Assumptions C13_no_gradient_at_contact.

(** two contacts, one closed and one open, off the kink *)
Example C13_case : let Q : mat := fun d j => if Nat.eqb d j then 1 else 0 in let X : vec := fun i => match i with O => 3 | _ => 0 end in
  (forall d, (d < 2)%nat -> 0 <= 2) /\ (forall d, (d < 2)%nat -> rsum 2 (fun j => Q d j * X j) <> 1) /\
  fst (unilateral_force 2 2 Q Q (fun _ => 2) (fun _ => 1) (fun _ => 1) X) 0%nat = 3 /\ fst (unilateral_force 2 2 Q Q (fun _ => 2) (fun _ => 1) (fun _ => 1) X) 1%nat = -1.
Proof. exact contact_case. Qed.

(** C14: the conservative Iwan backbone. *)
Theorem C14_iwan_backbone kt Fs chi beta d v
  (stiff : 0 < kt) (slip : 0 < Fs) (chi_ok : -1 < chi) (beta_ok : 0 <= beta) :
  let f := fun u => law_f (iwan_history kt Fs chi beta) d u v in
  let df := fun u => law_du (iwan_history kt Fs chi beta) d u v in
  (forall u, f (- u) = - f u) /\
  (forall u, continuity_pt f u) /\
  (forall u, Rabs (f u) <= Fs) /\
  (forall u u', u <= u' -> f u <= f u') /\
  (forall u, macroslip kt Fs chi beta <= u -> f u = Fs) /\
  (forall u, Rabs u <> macroslip kt Fs chi beta -> derivable_pt_lim f u (df u)) /\
  df 0 = kt.
Proof. exact (iwan_all kt Fs chi beta stiff slip chi_ok beta_ok d v). Qed.
Print Assumptions C14_iwan_backbone.

(** C14: force and gradient of ConservativeIwanBB.force *)
Theorem C14_iwan_force kt Fs chi beta N nnl Q T X
  (stiff : 0 < kt) (slip : 0 < Fs) (chi_ok : -1 < chi) (beta_ok : 0 <= beta) :
  (forall i, fst (iwan_force N nnl Q T kt Fs chi beta X) i
     = rsum nnl (fun d => T i d * iwan_backbone kt Fs chi beta (rsum N (fun j => Q d j * X j)))) /\
  ((forall d, (d < nnl)%nat -> Rabs (rsum N (fun j => Q d j * X j)) <> macroslip kt Fs chi beta) ->
   is_jacobian N N (fun X => fst (iwan_force N nnl Q T kt Fs chi beta X)) X
     (snd (iwan_force N nnl Q T kt Fs chi beta X))).
Proof.
  exact (conj (iwan_force_value kt Fs chi beta stiff slip chi_ok beta_ok N nnl Q T X)
              (iwan_force_jacobian kt Fs chi beta stiff slip chi_ok beta_ok N nnl Q T X)).
Qed.
Print Assumptions C14_iwan_force.

(** with chi = beta = 0 the curve is u - u^2/4 up to u = 2: half-way force 3/4 *)
Example C14_case : macroslip 1 1 0 0 = 2 /\ iwan_backbone 1 1 0 0 1 = 3 / 4 /\ iwan_backbone 1 1 0 0 (-3) = -1.
Proof. exact iwan_case. Qed.

(** C15: InstantaneousForce.aft for any separable local law, regular where the law returns its own
    derivatives at the samples. *)
Theorem C15_aft N nnl Q T law h Nt
  (harmonics : admissible h) (enough : (2 * list_max h + 1 < Nt)%nat) (even : Nat.even Nt = true) :
  aft_is_exact (fun U w => aft_instantaneous N nnl Q T law U w h Nt) N nnl Q T (law_f law) h Nt
    (exact_samples N nnl Q (law_f law) (law_du law) (law_dv law) h Nt).
Proof. exact (aft_generic N nnl Q T h Nt harmonics enough even law). Qed.
Print Assumptions C15_aft.

Theorem C15_aft_cubic N nnl Q T k h Nt
  (harmonics : admissible h) (enough : (2 * list_max h + 1 < Nt)%nat) (even : Nat.even Nt = true) :
  aft_is_exact (fun U w => aft_instantaneous N nnl Q T (cubic_history k) U w h Nt)
    N nnl Q T (fun d u _ => k d * u ^ 3) h Nt (fun _ _ => True).
Proof. exact (aft_cubic N nnl Q T h Nt harmonics enough even k). Qed.
Print Assumptions C15_aft_cubic.

Theorem C15_aft_quintic N nnl Q T k h Nt
  (harmonics : admissible h) (enough : (2 * list_max h + 1 < Nt)%nat) (even : Nat.even Nt = true) :
  aft_is_exact (fun U w => aft_instantaneous N nnl Q T (quintic_history k) U w h Nt)
    N nnl Q T (fun d u _ => k d * u ^ 5) h Nt (fun _ _ => True).
Proof. exact (aft_quintic N nnl Q T h Nt harmonics enough even k). Qed.
Print Assumptions C15_aft_quintic.

Theorem C15_aft_cubic_damping N nnl Q T c h Nt
  (harmonics : admissible h) (enough : (2 * list_max h + 1 < Nt)%nat) (even : Nat.even Nt = true) :
  aft_is_exact (fun U w => aft_instantaneous N nnl Q T (damping_history c) U w h Nt)
    N nnl Q T (fun d _ v => c d * v ^ 3) h Nt (fun _ _ => True).
Proof. exact (aft_damping N nnl Q T h Nt harmonics enough even c). Qed.
Print Assumptions C15_aft_cubic_damping.

Theorem C15_aft_unilateral N nnl Q T k Np delta h Nt
  (harmonics : admissible h) (enough : (2 * list_max h + 1 < Nt)%nat) (even : Nat.even Nt = true)
  (stiff : forall d, (d < nnl)%nat -> 0 <= k d) :
  aft_is_exact (fun U w => aft_instantaneous N nnl Q T (unilateral_history k Np delta) U w h Nt)
    N nnl Q T (fun d u _ => unilateral_law (k d) (Np d) (delta d) u) h Nt
    (fun U _ => forall d n, (d < nnl)%nat -> (n < Nt)%nat -> local_motion N Q h U d (sample_phase Nt n) <> delta d).
Proof. exact (aft_unilateral N nnl Q T h Nt harmonics enough even k Np delta stiff). Qed.
Print Assumptions C15_aft_unilateral.

Theorem C15_aft_iwan_backbone N nnl Q T kt Fs chi beta h Nt
  (harmonics : admissible h) (enough : (2 * list_max h + 1 < Nt)%nat) (even : Nat.even Nt = true)
  (stiff : 0 < kt) (slip : 0 < Fs) (chi_ok : -1 < chi) (beta_ok : 0 <= beta) :
  aft_is_exact (fun U w => aft_instantaneous N nnl Q T (iwan_history kt Fs chi beta) U w h Nt)
    N nnl Q T (fun _ u _ => iwan_backbone kt Fs chi beta u) h Nt
    (fun U _ => forall d n, (d < nnl)%nat -> (n < Nt)%nat ->
       Rabs (local_motion N Q h U d (sample_phase Nt n)) <> macroslip kt Fs chi beta).
Proof. exact (aft_iwan N nnl Q T h Nt harmonics enough even kt Fs chi beta stiff slip chi_ok beta_ok). Qed.
Print Assumptions C15_aft_iwan_backbone.

(** C15 for GenPolyForce.aft *)
Theorem C15_aft_polynomial N nnl Q T cnl E qq h Nt
  (harmonics : admissible h) (enough : (2 * list_max h + 1 < Nt)%nat) (even : Nat.even Nt = true) :
  exists (F : vec -> vec) (dU : vec -> mat),
    (forall U w, aft_coupled N nnl Q T (poly_history nnl cnl E qq) U w h Nt = Ok (F U, dU U, fun _ => 0)) /\
    (forall U c i, (c < length (components h))%nat -> (i < N)%nat ->
       F U (c * N + i)%nat = fourier_coef Nt (fun n => rsum nnl (fun d => T i d *
           rsum cnl (fun p => E d p * monomial nnl (qq p) (fun e => local_motion N Q h U e (sample_phase Nt n)))))
           (nth c (components h) (Cos O))) /\
    (forall U, is_jacobian (length (components h) * N) (length (components h) * N) F U (dU U)).
Proof. exact (aft_poly N nnl Q T h Nt harmonics enough even cnl E qq). Qed.
Print Assumptions C15_aft_polynomial.

(** the regularity condition holds for u = 2 cos(tau), gap 1, four samples *)
Example C15_case :
  admissible [O; 1%nat] /\ (2 * list_max [O; 1%nat] + 1 < 4)%nat /\ Nat.even 4 = true /\
  (let U := fun p : nat => match p with 1 => 2 | _ => 0 end in
   forall d n, (d < 1)%nat -> (n < 4)%nat ->
     local_motion 1 (fun _ _ => 1) [O; 1%nat] U d (sample_phase 4 n) <> 1).
Proof. exact aft_case. Qed.

(** C22: JenkinsForce.aft returns the Fourier coefficients of the steady hysteretic force (unless the
    first pass ends at zero force, see C19) and the Jacobian of the coefficients it returns. *)
Theorem C22_jenkins_aft s N Q T h Nt
  (harmonics : admissible h) (enough : (2 * list_max h + 1 < Nt)%nat) (even : Nat.even Nt = true)
  (slip_limit_nonneg : 0 <= j_Fs s) :
  exists (st : vec -> jenkins) (F : vec -> vec) (dU : vec -> mat),
    (forall U, jenkins_aft s N Q T U h Nt = Ok (st U, (F U, dU U, fun _ => 0))) /\
    (forall U,
       let u := repeat_samples Nt (fun n => local_motion N Q h U 0 (sample_phase Nt n)) in
       let law := jenkins_law (j_kt s) (j_Fs s) u (local_first_coef N Q U) in
       default_tol < Rabs (law (Nt - 1)%nat) ->
       forall c i, (c < length (components h))%nat -> (i < N)%nat ->
         F U (c * N + i)%nat = T i 0%nat * fourier_coef Nt (fun n => law (Nt + n)%nat) (nth c (components h) (Cos O))) /\
    (forall U,
       let u := repeat_samples Nt (fun n => local_motion N Q h U 0 (sample_phase Nt n)) in
       (forall j, (j < 2 * Nt)%nat -> Rabs (trial (j_kt s) (j_Fs s) u (local_first_coef N Q U) j) <> j_Fs s) ->
       Rabs (jenkins_law (j_kt s) (j_Fs s) u (local_first_coef N Q U) (Nt - 1)) <> default_tol ->
       is_jacobian (length (components h) * N) (length (components h) * N) F U (dU U)).
Proof. exact (jenkins_aft_exact s N Q T h Nt harmonics enough even slip_limit_nonneg). Qed.
Print Assumptions C22_jenkins_aft.

(** sticking and slipping: u = 5/4 sin(tau) at four samples *)
Example C22_aft_case :
  let U := fun p : nat => match p with 2 => 5 / 4 | _ => 0 end in
  let u := repeat_samples 4 (fun n => local_motion 1 (fun _ _ => 1) [O; 1%nat] U 0 (sample_phase 4 n)) in
  (forall j, (j < 2 * 4)%nat -> Rabs (trial 1 1 u (local_first_coef 1 (fun _ _ => 1) U) j) <> 1) /\
  Rabs (jenkins_law 1 1 u (local_first_coef 1 (fun _ _ => 1) U) (4 - 1)) <> default_tol.
Proof. exact aft_hyst_case. Qed.
