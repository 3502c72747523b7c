(** Properties C26-C28 (and C18, C22, C65) for the JAX Jenkins and elastic dry friction elements.
    Specification: Spec/Slider.v (jenkins_law, contact_force, friction_law, contact_history, steady_state), Spec/Harmonic.v,
    Spec/Calculus.v, Spec/EldryCalls.v.  p = 2 for the 2D element (tangential, normal), p = 3 for the 3D element. *)
From Coq Require Import Reals Lra Lia Arith List Bool.
From Verif.Lib Require Import RSum Py.
From Verif.Spec Require Import Slider Calculus Harmonic Elements JenkinsCalls EldryCalls.
From Verif.Model Require Import Harmonic Aft Jenkins JaxDual JaxFriction.
From Verif.Proofs Require Import HystAftP JaxFrictionP EldryP EldryStaticP EldryCasesP CycleP ElementCasesP.
Import ListNotations.
Open Scope R_scope.

(** C28: for every motion with at least one nonzero harmonic the JAX Jenkins aft returns the Fourier coefficients of the steady-state
    Jenkins force that follows from the initial slider position (u0, or the first coefficient), with zero frequency derivative and the
    exact Jacobian wherever no step is exactly at the slip limit. *)
Theorem C28_steady_partial N Q T kt Fs u0 h Nt
  (harmonics : admissible h) (samples : (2 * list_max h + 1 < Nt)%nat) (even_samples : Nat.even Nt = true)
  (several : (1 < length (components h))%nat) (slip_limit_nonneg : 0 <= Fs) :
  let nhc := length (components h) in
  exists (F : vec -> R -> vec) (dU : vec -> R -> mat) (dw : vec -> R -> vec),
    (forall U w, jax_jenkins_aft N Q T kt Fs u0 U w h Nt = Ok (F U w, dU U w, dw U w)) /\
    (forall U w,
       let start := match u0 with None => local_first_coef N Q U | Some x => x end in
       let law := jenkins_law kt Fs (repeat_samples Nt (fun n => local_motion N Q h U 0 (sample_phase Nt n))) start in
       steady_state Nt law (fun n => law (Nt + n)%nat) /\
       forall c i, (c < nhc)%nat -> (i < N)%nat ->
         F U w (c * N + i)%nat = T i 0%nat * fourier_coef Nt (fun n => law (Nt + n)%nat) (nth c (components h) (Cos O))) /\
    (forall U w r, (r < nhc * N)%nat -> dw U w r = 0) /\
    (forall U w,
       let start := match u0 with None => local_first_coef N Q U | Some x => x end in
       let u := repeat_samples Nt (fun n => local_motion N Q h U 0 (sample_phase Nt n)) in
       (forall j, (j < 2 * Nt)%nat -> Rabs (trial kt Fs u start j) <> Fs) ->
       is_joint_jacobian (nhc * N) (nhc * N) F U w (dU U w) (dw U w)).
Proof. exact (jax_jenkins_exact N Q T kt Fs u0 h Nt harmonics samples even_samples several slip_limit_nonneg). Qed.
Print Assumptions C28_steady_partial.

(** a motion with sticking and slipping steps that meets the hypotheses of the Jacobian *)
Example C28_case :
  let U := fun p : nat => match p with 2 => 5 / 4 | _ => 0 end in
  let u := repeat_samples 4 (fun n => local_motion 1 (fun _ _ => 1) [O; 1%nat] U 0 (sample_phase 4 n)) in
  (forall j, (j < 2 * 4)%nat -> Rabs (trial 1 1 u (local_first_coef 1 (fun _ _ => 1) U) j) <> 1) /\ (1 < length (components [O; 1%nat]))%nat.
Proof. split; [exact (proj1 aft_hyst_case)|cbn; lia]. Qed.

(** C28: the force history is that of two passes of the reference element (NumPy JenkinsForce) from the same slider position, whenever
    the reference element does not stop after its first pass. *)
Theorem C28_reference_partial s Nt u cst u0 k
  (samples : (0 < Nt)%nat) (instant : (k < Nt)%nat) (slip_limit_nonneg : 0 <= j_Fs s)
  (no_early_stop : default_tol < Rabs (jenkins_law (j_kt s) (j_Fs s) (repeat_samples Nt u) u0 (Nt - 1))) :
  dv (jj_history Nt (fun t _ => dconst (u t)) (j_kt s) (j_Fs s) (dconst u0) k O)
  = forces_at (jenkins_local_force_history s (rows Nt u cst) u0 2 default_tol default_tol) k.
Proof. exact (jj_history_reference s Nt u cst u0 k samples instant slip_limit_nonneg no_early_stop). Qed.
Print Assumptions C28_reference_partial.

(** C28 fails for a purely static coefficient vector, harmonic list [0]: aft raises. *)
Theorem C28_mean_only_refuted : forall N Q T kt Fs u0 U w Nt, jax_jenkins_aft N Q T kt Fs u0 U w [O] Nt = Err TypeError.
Proof. intros. exact (jax_aft_mean_only N 1 Q T (jj_local kt Fs u0 [O] Nt) U w (le_n 1)). Qed.
Print Assumptions C28_mean_only_refuted.

(** C26: the law of every history. The normal force is nonnegative and zero without contact, and the friction force never exceeds mu
    times the normal force of the same instant, so it is zero whenever the contact is open. *)
Theorem C26_coulomb p kt kn mu gap u start d k (dofs : (0 < p)%nat) (stiff : 0 <= kn) (friction : 0 <= mu) :
  let f := contact_history p kt kn mu gap u start in
  0 <= f (normal_dof p d) k /\
  (u (normal_dof p d) k <= gap -> f (normal_dof p d) k = 0) /\
  (d <> normal_dof p d -> Rabs (f d k) <= mu * f (normal_dof p d) k).
Proof. exact (contact_coulomb p kt kn mu gap u start d k dofs stiff friction). Qed.
Print Assumptions C26_coulomb.

(** C26: the forces of local_force_history follow that law (second cycle), for u0 = None or a vector. *)
Theorem C26_force_history Nt p P u0 unlt unlth0 start
  (samples : (0 < Nt)%nat) (dofs : (0 < p)%nat) (stiff : 0 <= ep_kn P)
  (starting : u0 = None /\ start = unlth0 \/ u0 = Some (inr start)) :
  exists ft, ed_local_force_history Nt p P u0 unlt unlth0 = Ok ft /\
    forall d k, (k < Nt)%nat ->
      ft k d = contact_history p (ep_kt P) (ep_kn P) (ep_mu P) (ep_gap P) (fun d => repeat_samples Nt (fun t => unlt t d)) start d (Nt + k).
Proof. exact (eldry_local_history Nt p P u0 unlt unlth0 start samples dofs stiff starting). Qed.
Print Assumptions C26_force_history.

(** C65: with the default scalar u0 the same method raises. *)
Theorem C65_eldry_scalar_start_refuted : forall Nt p P x unlt unlth0, ed_local_force_history Nt p P (Some (inl x)) unlt unlth0 = Err IndexError.
Proof. intros. reflexivity. Qed.
Print Assumptions C65_eldry_scalar_start_refuted.

(** C26: a static evaluation after any sequence of calls follows the law with the friction coefficient in force; sliders are centred on
    the displacement of the last updating evaluation. *)
Theorem C26_static p ne N Q T kt kn mu gap u0 cs X upd i
  (dofs : (0 < p)%nat) (stiff : 0 <= kn) (friction : 0 <= mu) :
  fst (snd (ed_force p ne N Q T (ed_run p ne N Q T (ed_new kt kn mu gap u0) cs) X upd)) i
  = rsum (p * ne) (fun d => T i d * contact_history p kt kn (ed_mu_after mu cs) gap (fun d _ => rsum N (fun j => Q d j * X j))
      (fun d => rsum N (fun j => Q d j * last (ed_recorded cs) (fun _ => 0) j)) d 0).
Proof. exact (static_after_calls p ne N Q T kt kn mu gap u0 cs X upd i dofs stiff friction). Qed.
Print Assumptions C26_static.

Example C26_case :
  let u := fun d => rsum 2 (fun j => mid d j * (fun j : nat => match j with O => 1/2 | _ => 1 end) j) in
  contact_history 2 1 1 1 0 (fun d _ => u d) (fun _ => 0) 0 0 = 1/2 /\ contact_history 2 1 1 1 0 (fun d _ => u d) (fun _ => 0) 1 0 = 1.
Proof. exact static_case. Qed.

(** C17 for the JAX Jenkins element: the returned cycle never creates energy. *)
Theorem C17_jax_jenkins_cycle kt Fs u0 Nt u (samples : (0 < Nt)%nat) (stiff : 0 < kt) (slip_limit_nonneg : 0 <= Fs) :
  0 <= rsum Nt (fun k => dv (jj_history Nt (fun t _ => dconst (u t)) kt Fs (dconst u0) k O) * (u k - u ((k + Nt - 1) mod Nt)%nat)).
Proof. exact (jax_jenkins_cycle kt Fs u0 Nt u samples stiff slip_limit_nonneg). Qed.
Print Assumptions C17_jax_jenkins_cycle.

(** C17 for elastic dry friction: over any part of any history the work done on a local degree of freedom covers the increase of its
    stored energy, however the normal force changes the friction limit. *)
Theorem C17_dry_friction_energy p kt kn mu gap u start d n m (stiff : 0 < kt) (stiff_normal : 0 < kn) (friction : 0 <= mu) :
  let f := contact_history p kt kn mu gap u start d in
  let stiffness := if Nat.eqb d (normal_dof p d) then kn else kt in
  (f (n + m)%nat * f (n + m)%nat - f n * f n) / (2 * stiffness) <= rsum m (fun k => f (S (n + k)) * (u d (S (n + k)) - u d (n + k)%nat)).
Proof. exact (contact_energy p kt kn mu gap u start d n m stiff stiff_normal friction). Qed.
Print Assumptions C17_dry_friction_energy.

(** C17: so the cycle returned by local_force_history never creates energy, in any direction. *)
Theorem C17_dry_friction_cycle Nt p P u0 unlt unlth0 start
  (samples : (0 < Nt)%nat) (dofs : (0 < p)%nat) (stiff : 0 < ep_kt P) (stiff_normal : 0 < ep_kn P) (friction : 0 <= ep_mu P)
  (starting : u0 = None /\ start = unlth0 \/ u0 = Some (inr start)) :
  exists ft, ed_local_force_history Nt p P u0 unlt unlth0 = Ok ft /\
    forall d, 0 <= rsum Nt (fun k => ft k d * (unlt k d - unlt ((k + Nt - 1) mod Nt)%nat d)).
Proof. exact (eldry_cycle Nt p P u0 unlt unlth0 start samples dofs stiff stiff_normal friction starting). Qed.
Print Assumptions C17_dry_friction_cycle.

(** C18 for elastic dry friction with any time-varying normal load: the second cycle is the steady state. *)
Theorem C18_eldry_two_cycles Nt p kt kn mu gap u start d
  (samples : (0 < Nt)%nat) (stiff : 0 <= kn) (friction : 0 <= mu) :
  let law := contact_history p kt kn mu gap (fun d => repeat_samples Nt (u d)) start d in
  steady_state Nt law (fun n => law (Nt + n)%nat).
Proof. exact (contact_second_pass_steady Nt p kt kn mu gap u start d samples stiff friction). Qed.
Print Assumptions C18_eldry_two_cycles.

(** C22, C26 for aft: coefficients of the second cycle, no frequency derivative, exact Jacobian wherever no normal displacement is
    exactly at the gap and no tangential step exactly at its limit. *)
Theorem C22_eldry_aft_partial p ne N Q T P u0 h Nt
  (dofs : (0 < p)%nat) (elements : (0 < ne)%nat)
  (harmonics : admissible h) (samples : (2 * list_max h + 1 < Nt)%nat) (even_samples : Nat.even Nt = true)
  (several : (1 < length (components h))%nat) (stiff : 0 < ep_kn P) (friction : 0 <= ep_mu P) :
  let nhc := length (components h) in
  exists (F : vec -> R -> vec) (dU : vec -> R -> mat) (dw : vec -> R -> vec),
    (forall U w, eldry_aft p ne N Q T P u0 U w h Nt = Ok (F U w, dU U w, dw U w)) /\
    (forall U w c i, (c < nhc)%nat -> (i < N)%nat ->
       let u := fun d => repeat_samples Nt (fun n => local_motion N Q h U d (sample_phase Nt n)) in
       let start := match u0 with None => fun d => rsum N (fun j => Q d j * U j) | Some x => x end in
       F U w (c * N + i)%nat = rsum (p * ne) (fun d => T i d *
         fourier_coef Nt (fun n => contact_history p (ep_kt P) (ep_kn P) (ep_mu P) (ep_gap P) u start d (Nt + n)) (nth c (components h) (Cos O)))) /\
    (forall U w r, (r < nhc * N)%nat -> dw U w r = 0) /\
    (forall U w,
       let u := fun d => repeat_samples Nt (fun n => local_motion N Q h U d (sample_phase Nt n)) in
       let start := match u0 with None => fun d => rsum N (fun j => Q d j * U j) | Some x => x end in
       (forall d t, (d < p * ne)%nat -> (t < Nt)%nat -> d = normal_dof p d -> u d t <> ep_gap P) ->
       (forall d j, (d < p * ne)%nat -> (j < 2 * Nt)%nat -> d <> normal_dof p d ->
          let fn := fun k => contact_force (ep_kn P) (ep_gap P) (u (normal_dof p d) k) in
          Rabs (friction_trial (ep_kt P) (ep_mu P) fn (u d) (start d) j) <> ep_mu P * fn j) ->
       is_joint_jacobian (nhc * N) (nhc * N) F U w (dU U w) (dw U w)).
Proof. exact (eldry_aft_exact p ne N Q T P u0 h Nt dofs elements harmonics samples even_samples several stiff friction). Qed.
Print Assumptions C22_eldry_aft_partial.

(** a motion with stick and slip that meets all hypotheses (p = 2, one element, Q = T = identity, kt = kn = 1, mu = 1/2, gap = 0, u0 = 0) *)
Example C22_eldry_case :
  let u := fun d => repeat_samples 4 (fun n => local_motion 2 mid [0;1]%nat slip_U d (sample_phase 4 n)) in
  admissible [0;1]%nat /\ (2 * list_max [0;1]%nat + 1 < 4)%nat /\ Nat.even 4 = true /\ (1 < length (components [0;1]%nat))%nat /\
  (forall d t, (d < 2 * 1)%nat -> (t < 4)%nat -> d = normal_dof 2 d -> u d t <> 0) /\
  (forall d j, (d < 2 * 1)%nat -> (j < 2 * 4)%nat -> d <> normal_dof 2 d ->
     let fn := fun k => contact_force 1 0 (u (normal_dof 2 d) k) in
     Rabs (friction_trial 1 (1/2) fn (u d) 0 j) <> 1/2 * fn j).
Proof. exact slip_case. Qed.

(** C22 is false for an open contact at tangential rest: the tangential force is zero for every motion that stays out of contact, but
    the returned Jacobian is not the derivative (equal arguments of jnp.minimum and jnp.maximum average their tangents). *)
Theorem C22_eldry_open_contact_refuted :
  exists F dU dw, (forall U w, eldry_aft 2 1 2 mid mid rest_pars (Some (fun _ => 0)) U w [0;1]%nat 4 = Ok (F U w, dU U w, dw U w)) /\
    (forall U w, (forall c, (c < 3)%nat -> U (c * 2 + 1)%nat = 0) -> forall c, (c < 3)%nat -> F U w (c * 2)%nat = 0) /\
    ~ is_jacobian 6 6 (fun U => F U 1) (fun _ => 0) (dU (fun _ => 0) 1).
Proof. exact rest_jacobian_wrong. Qed.
Print Assumptions C22_eldry_open_contact_refuted.

(** C22: the Jacobian of the static force is exact away from the gap and, for a loaded contact, away from the slip limit; for an open
    contact it is exact without further conditions. *)
Theorem C22_eldry_static p ne N Q T s X upd (dofs : (0 < p)%nat) (stiff : 0 < ep_kn (ed_pars s)) (friction : 0 <= ep_mu (ed_pars s)) :
  let u := fun d => rsum N (fun j => Q d j * X j) in
  let fn := fun d => contact_force (ep_kn (ed_pars s)) (ep_gap (ed_pars s)) (u (normal_dof p d)) in
  forall (not_at_gap : forall d, (d < p * ne)%nat -> u (normal_dof p d) <> ep_gap (ed_pars s))
         (not_at_limit : forall d, (d < p * ne)%nat -> d <> normal_dof p d -> 0 < ep_mu (ed_pars s) * fn d ->
            Rabs (ep_kt (ed_pars s) * (u d - ed_up s d)) <> ep_mu (ed_pars s) * fn d),
  is_jacobian N N (fun X => fst (snd (ed_force p ne N Q T s X upd))) X (snd (snd (ed_force p ne N Q T s X upd))).
Proof. exact (static_jacobian p ne N Q T s X upd dofs stiff friction). Qed.
Print Assumptions C22_eldry_static.

(** C27 is false: after an updating evaluation the same displacement gives zero friction, because the stored force is not used. *)
Theorem C27_history_refuted : exists p ne N Q T kt kn mu gap u0 X, (0 < p)%nat /\ 0 < kt /\ 0 < kn /\ 0 < mu /\
  let s0 := ed_new kt kn mu gap u0 in
  let first := ed_force p ne N Q T s0 X true in
  let again := ed_force p ne N Q T (fst first) X true in
  fst (snd first) 0%nat = 1/2 /\ fst (snd again) 0%nat = 0 /\ fst (snd first) 1%nat = 1 /\ fst (snd again) 1%nat = 1.
Proof. exact history_lost_case. Qed.
Print Assumptions C27_history_refuted.

(** What the code does for every call sequence: re-evaluating at the last stored displacement keeps the normal forces and loses all
    friction. *)
Theorem C27_normal_kept_partial p ne N Q T kt kn mu gap u0 cs X upd i
  (dofs : (0 < p)%nat) (stiff : 0 <= kn) (friction : 0 <= mu) :
  fst (snd (ed_force p ne N Q T (ed_run p ne N Q T (ed_new kt kn mu gap u0) (cs ++ [EDForce X true])) X upd)) i
  = rsum (p * ne) (fun d => T i d * (if Nat.eqb d (normal_dof p d) then contact_force kn gap (rsum N (fun j => Q d j * X j)) else 0)).
Proof. exact (lost_history p ne N Q T kt kn mu gap u0 cs X upd i dofs stiff friction). Qed.
Print Assumptions C27_normal_kept_partial.

(** C27: evaluations without update do not change anything: any number of them between two calls leaves every later force unchanged. *)
Theorem C27_looking_partial p ne N Q T s before looks X Y upd
  (only_looks : forall c, In c looks -> exists Z, c = EDForce Z false) :
  ed_force p ne N Q T (ed_run p ne N Q T s (before ++ looks ++ [EDForce X false])) Y upd
  = ed_force p ne N Q T (ed_run p ne N Q T s before) Y upd.
Proof. exact (looking_keeps p ne N Q T s before looks X Y upd only_looks). Qed.
Print Assumptions C27_looking_partial.

(** one element with a tangential and a normal direction, pressed by 1/2; the calls that only look are at other displacements *)
Example C27_case : let X : vec := fun i => match i with O => 3 | _ => 1 / 2 end in
  (0 < 2)%nat /\ 0 <= 4 /\ 0 <= 1 / 2 /\ normal_dof 2 1 = 1%nat /\ contact_force 4 0 (X 1%nat) = 2 /\
  (forall c, In c [EDForce X false; EDForce vzero false] -> exists Z, c = EDForce Z false).
Proof. exact looking_case. Qed.
