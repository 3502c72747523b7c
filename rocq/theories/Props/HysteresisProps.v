(** Properties C16-C20, C22, C24, C25 for the Jenkins elements.
    Specification: Spec/Slider.v, Spec/JenkinsCalls.v, Spec/Calculus.v. *)
From Coq Require Import Reals Lra Lia Arith List Bool.
From Verif.Lib Require Import RSum Py.
From Verif.Spec Require Import Slider Calculus JenkinsCalls.
From Verif.Model Require Import Jenkins VectorJenkins JenkinsOps.
From Verif.Proofs Require Import SliderP JenkinsP JenkinsOpsP VectorJenkinsP JenkinsDerivP HysteresisP CycleP ElementCasesP.
Import ListNotations.
Open Scope R_scope.

(** C16: every force returned by any call in any call sequence is within the slip limit. *)
Theorem C16_jenkins_slip_bound kt Fs (slip_limit_nonneg : 0 <= Fs) (calls : list jcall) :
  forall r f, In r (snd (jcalls_exec (j_new kt Fs) calls)) -> In f (forces_of r) -> Rabs f <= Fs.
Proof. exact (jcalls_slip_bound kt Fs slip_limit_nonneg calls). Qed.
Print Assumptions C16_jenkins_slip_bound.

(** C16: after any sequence of static calls the returned force is that of a Jenkins slider taken
    through the recorded displacements, whether or not the call itself updates. *)
Theorem C16_jenkins_static_force kt Fs (slip_limit_nonneg : 0 <= Fs) (calls : list jcall)
  (static : forallb (fun c => static_call c && negb (is_switch c)) calls = true) u update :
  forces_of (snd (jcall_exec (fst (jcalls_exec (j_new kt Fs) (CInitHistory :: calls))) (CForce u update)))
  = [force_after kt Fs (recorded calls ++ [u])].
Proof. exact (static_history_force kt Fs calls u update slip_limit_nonneg static). Qed.
Print Assumptions C16_jenkins_static_force.

(** C16: inserting an evaluation without update anywhere changes no other return value. *)
Theorem C16_jenkins_non_updating kt Fs (before after : list jcall) c (looks : non_updating c) :
  exists r, snd (jcalls_exec (j_new kt Fs) (before ++ c :: after)) =
     firstn (length before) (snd (jcalls_exec (j_new kt Fs) (before ++ after))) ++ r ::
     skipn (length before) (snd (jcalls_exec (j_new kt Fs) (before ++ after))).
Proof. exact (jcalls_skip (j_new kt Fs) before c after looks). Qed.
Print Assumptions C16_jenkins_non_updating.

(** C16, refuted part: instant_force_harmonic with update_prev=False does change later derivatives. *)
Theorem C16_harmonic_non_updating_refuted :
  exists kt Fs before after c,
    (exists u cst, c = CInstantForceHarmonic u cst false) /\
    last (snd (jcalls_exec (j_new kt Fs) (before ++ c :: after))) RNone
    <> last (snd (jcalls_exec (j_new kt Fs) (before ++ after))) RNone.
Proof. exact harmonic_look_changes. Qed.
Print Assumptions C16_harmonic_non_updating_refuted.

(** a history with sliding and reversal: 0 -> 3 (slips at 1) -> 5/2 (elastic) *)
Example C16_case : force_after 1 1 (recorded [CForce 3 true; CForce 7 false] ++ [5 / 2]) = / 2.
Proof. exact c16_case. Qed.

(** C17: work done on the element over any history covers the increase of stored energy f^2/(2 kt). *)
Theorem C17_jenkins_dissipation kt Fs u u0 n (stiff : 0 < kt) (slip_limit_nonneg : 0 <= Fs) :
  let f := jenkins_law kt Fs u u0 in
  (f n * f n - f O * f O) / (2 * kt) <= rsum n (fun k => f (S k) * (u (S k) - u k)).
Proof. exact (slider_energy kt Fs u u0 n stiff slip_limit_nonneg). Qed.
Print Assumptions C17_jenkins_dissipation.

(** C17: the closed loop of forces returned by local_force_history never creates energy, for every number of repeats and every tolerance:
    also when the loop stops after its first, transient pass. *)
Theorem C17_jenkins_cycle s N u cst u0 m atol rtol
  (samples : (0 < N)%nat) (stiff : 0 < j_kt s) (slip_limit_nonneg : 0 <= j_Fs s) (tol : 0 <= atol \/ 0 <= rtol) :
  0 <= rsum N (fun k =>
      forces_at (jenkins_local_force_history s (rows N u cst) u0 m atol rtol) k
      * (u k - u ((k + N - 1) mod N)%nat)).
Proof. exact (jenkins_cycle s N u cst u0 m atol rtol samples stiff slip_limit_nonneg tol). Qed.
Print Assumptions C17_jenkins_cycle.

(** C17: the same for VectorJenkins *)
Theorem C17_vector_jenkins_cycle s N u cst u0 (samples : (0 < N)%nat) (stiff : 0 < j_kt s) (slip_limit_nonneg : 0 <= j_Fs s) :
  exists s' ft dfduh, vector_jenkins_local_force_history s N u cst u0 = Ok (s', ft, dfduh) /\ 0 <= rsum N (fun k => ft k * (u k - u ((k + N - 1) mod N)%nat)).
Proof. exact (vector_jenkins_cycle s N u cst u0 samples stiff slip_limit_nonneg). Qed.
Print Assumptions C17_vector_jenkins_cycle.

(** the cycle u = 1/2, 7/2, -5/2, -1 slips both ways and takes the energy 45/4 *)
Example C17_case cst : rsum 4 (fun k => forces_at (jenkins_local_force_history (j_new 1 1) (rows 4 case_u cst) 0 2 default_tol default_tol) k
    * (case_u k - case_u ((k + 4 - 1) mod 4)%nat)) = 45 / 4.
Proof. exact (cycle_case cst). Qed.

(** C18: for a slider with any time-varying limits, pass 2 and every later pass are identical. *)
Theorem C18_slider_two_cycles kt N lo hi u u0
  (samples : (0 < N)%nat) (limits : forall k, lo k <= hi k)
  (plo : periodic N lo) (phi : periodic N hi) (pu : periodic N u) :
  forall n k, (1 <= n)%nat -> slider kt lo hi u u0 (n * N + k) = slider kt lo hi u u0 (N + k).
Proof. exact (slider_all_passes kt N lo hi u u0 samples limits plo phi pu). Qed.
Print Assumptions C18_slider_two_cycles.

(** C18 for the Jenkins element with repeated samples *)
Theorem C18_jenkins_two_cycles kt Fs N u u0 (samples : (0 < N)%nat) (slip_limit_nonneg : 0 <= Fs) :
  steady_state N (jenkins_law kt Fs (repeat_samples N u) u0)
    (fun k => jenkins_law kt Fs (repeat_samples N u) u0 (N + k)).
Proof. exact (jenkins_second_pass_steady kt Fs N u u0 samples slip_limit_nonneg). Qed.
Print Assumptions C18_jenkins_two_cycles.

(** the first cycle is not the steady one: motion 0, 5, 0, 5, ... of a slider with limit 1 *)
Example C18_case : let u := repeat_samples 2 (fun k => match k with O => 0 | _ => 5 end) in
  jenkins_law 1 1 u 0 0 = 0 /\ jenkins_law 1 1 u 0 2 = -1 /\ jenkins_law 1 1 u 0 4 = -1 /\ jenkins_law 1 1 u 0 3 = 1.
Proof. exact two_cycles_case. Qed.

(** C19: with the default tolerances local_force_history returns the steady state whenever the
    first pass does not end at (numerically) zero force. *)
Theorem C19_jenkins_steady_partial s N u cst u0 m
  (samples : (0 < N)%nat) (slip_limit_nonneg : 0 <= j_Fs s) (two : (2 <= m)%nat)
  (no_early_stop : default_tol < Rabs (jenkins_law (j_kt s) (j_Fs s) (repeat_samples N u) u0 (N - 1))) :
  exists s' os,
    jenkins_local_force_history s (rows N u cst) u0 m default_tol default_tol = Ok (s', os) /\
    length os = N /\
    steady_state N (jenkins_law (j_kt s) (j_Fs s) (repeat_samples N u) u0)
      (fun k => nth k (map fst os) 0).
Proof. exact (history_steady s N u cst u0 m samples slip_limit_nonneg two no_early_stop). Qed.
Print Assumptions C19_jenkins_steady_partial.

(** C19 is false in general: the loop may stop after the first, transient pass. *)
Theorem C19_jenkins_steady_refuted :
  exists kt Fs N u u0, (0 < N)%nat /\ 0 < kt /\ 0 < Fs /\ forall cst, exists s' os,
    jenkins_local_force_history (j_new kt Fs) (rows N u cst) u0 2 default_tol default_tol = Ok (s', os) /\
    ~ steady_state N (jenkins_law kt Fs (repeat_samples N u) u0) (fun k => nth k (map fst os) 0).
Proof. exact early_stop_not_steady. Qed.
Print Assumptions C19_jenkins_steady_refuted.

(** C19: allowing more than two repeats never changes the result (the comparison value is a view of
    the array that the next pass overwrites). *)
Theorem C19_more_repeats_no_effect s N u cst u0 m atol rtol
  (samples : (0 < N)%nat) (slip_limit_nonneg : 0 <= j_Fs s)
  (tol : 0 <= atol \/ 0 <= rtol) (two : (2 <= m)%nat) :
  exists s1 os1 s2 os2,
    jenkins_local_force_history s (rows N u cst) u0 m atol rtol = Ok (s1, os1) /\
    jenkins_local_force_history s (rows N u cst) u0 2 atol rtol = Ok (s2, os2) /\
    forall k, (k < N)%nat -> nth k (map fst os1) 0 = nth k (map fst os2) 0.
Proof. exact (history_repeats s N u cst u0 m atol rtol samples slip_limit_nonneg tol two). Qed.
Print Assumptions C19_more_repeats_no_effect.

(** the hypotheses of C19 hold for a cycle u = 1/2, 7/2, -5/2, -1 that slips both ways; the first
    pass starts with force 1/2, the steady state with 1 *)
Example C19_case :
  default_tol < Rabs (jenkins_law 1 1 (repeat_samples 4 case_u) 0 (4 - 1)) /\
  forall k, (k < 4)%nat ->
    jenkins_law 1 1 (repeat_samples 4 case_u) 0 (4 + k) = nth k [1; 1; -1; / 2] 0.
Proof. exact case_pass. Qed.

(** C20: VectorJenkins and JenkinsForce return the same forces and the same derivatives when both
    run the same number of passes: the end-of-pass test looks at the last sample in one and at
    the last reversal in the other. *)
Theorem C20_vector_jenkins_partial s N u cst u0 c
  (samples : (0 < N)%nat) (slip_limit_nonneg : 0 <= j_Fs s) (rev : last_reversal N u c)
  (same_stop : default_tol < Rabs (jenkins_law (j_kt s) (j_Fs s) (repeat_samples N u) u0 (N - 1)) <->
               default_tol < Rabs (jenkins_law (j_kt s) (j_Fs s) (repeat_samples N u) u0 c)) :
  exists s1 os s2 ft dfduh,
    jenkins_local_force_history s (rows N u cst) u0 2 default_tol default_tol = Ok (s1, os) /\
    vector_jenkins_local_force_history s N u cst u0 = Ok (s2, ft, dfduh) /\
    length os = N /\
    forall k, (k < N)%nat ->
      ft k = nth k (map fst os) 0 /\ forall i, dfduh k i = nth k (map snd os) (fun _ => 0) i.
Proof. exact (vector_equals_jenkins s N u cst u0 c samples slip_limit_nonneg rev same_stop). Qed.
Print Assumptions C20_vector_jenkins_partial.

(** C20: a last reversal always exists, so the theorem above covers every history. *)
Theorem C20_last_reversal_exists N u (samples : (0 < N)%nat) : exists c, last_reversal N u c.
Proof. exact (last_reversal_exists N u samples). Qed.
Print Assumptions C20_last_reversal_exists.

(** C20: VectorJenkins returns the steady state when the force at the last reversal is not zero. *)
Theorem C20_vector_steady s N u cst u0 c
  (samples : (0 < N)%nat) (slip_limit_nonneg : 0 <= j_Fs s) (rev : last_reversal N u c)
  (no_early_stop : default_tol < Rabs (jenkins_law (j_kt s) (j_Fs s) (repeat_samples N u) u0 c)) :
  exists s' ft dfduh,
    vector_jenkins_local_force_history s N u cst u0 = Ok (s', ft, dfduh) /\
    steady_state N (jenkins_law (j_kt s) (j_Fs s) (repeat_samples N u) u0) ft.
Proof. exact (vector_steady s N u cst u0 c samples slip_limit_nonneg rev no_early_stop). Qed.
Print Assumptions C20_vector_steady.

(** C20 is false in general. *)
Theorem C20_vector_jenkins_refuted :
  exists kt Fs N u u0, (0 < N)%nat /\ 0 < kt /\ 0 < Fs /\ forall cst, exists s1 os s2 ft dfduh,
    jenkins_local_force_history (j_new kt Fs) (rows N u cst) u0 2 default_tol default_tol = Ok (s1, os) /\
    vector_jenkins_local_force_history (j_new kt Fs) N u cst u0 = Ok (s2, ft, dfduh) /\
    exists k, (k < N)%nat /\ ft k <> nth k (map fst os) 0.
Proof. exact vector_differs. Qed.
Print Assumptions C20_vector_jenkins_refuted.

Example C20_case : last_reversal 4 case_u 2 /\
  (default_tol < Rabs (jenkins_law 1 1 (repeat_samples 4 case_u) 0 (4 - 1)) <->
   default_tol < Rabs (jenkins_law 1 1 (repeat_samples 4 case_u) 0 2)).
Proof. exact case_reversal. Qed.

(** C22: the returned derivative history is the Jacobian of the returned force history with respect
    to the harmonic coefficients X; cst holds the basis functions and X 0 is the coefficient the
    slider is centred on.  Hypotheses: no step of the two passes is exactly at the slip limit and the
    first pass does not end exactly on the stopping tolerance. *)
Theorem C22_jenkins_derivatives s N nc (cst : nat -> vec) X
  (samples : (0 < N)%nat) (coefficients : (0 < nc)%nat) (slip_limit_nonneg : 0 <= j_Fs s) :
  let hist := fun X : vec =>
    jenkins_local_force_history s (rows N (fun j => rsum nc (fun c => cst j c * X c)) cst) (X O)
                                2 default_tol default_tol in
  let u := repeat_samples N (fun j => rsum nc (fun c => cst j c * X c)) in
  forall (not_at_limit : forall j, (j < 2 * N)%nat ->
              Rabs (trial (j_kt s) (j_Fs s) u (X O) j) <> j_Fs s)
         (not_at_tolerance : Rabs (jenkins_law (j_kt s) (j_Fs s) u (X O) (N - 1)) <> default_tol),
  is_jacobian nc N (fun X k => forces_at (hist X) k) X (fun k c => derivs_at (hist X) k c).
Proof. exact (jenkins_history_jacobian s N nc cst X samples coefficients slip_limit_nonneg). Qed.
Print Assumptions C22_jenkins_derivatives.

(** a case with sticking and slipping steps: u = 0, 5/4, 0, -5/4 as X = (0, 5/4), cst = (1, sin) *)
Example C22_case :
  let cst := fun k c => match c with O => 1 | _ => match k with 1 => 1 | 3 => -1 | _ => 0 end end in
  let X := fun c : nat => match c with O => 0 | _ => 5 / 4 end in
  let u := repeat_samples 4 (fun j => rsum 2 (fun c => cst j c * X c)) in
  (forall j, (j < 2 * 4)%nat -> Rabs (trial 1 1 u (X O) j) <> 1) /\
  Rabs (jenkins_law 1 1 u (X O) (4 - 1)) <> default_tol.
Proof. exact c22_case. Qed.

(** C24 (Jenkins element): the friction after any call sequence is decided by the last switch. *)
Theorem C24_jenkins_reset kt Fs before after (slip_limit_nonneg : 0 <= Fs)
  (no_switch_after : forallb (fun c => negb (is_switch c)) after = true) :
  j_Fs (fst (jcalls_exec (j_new kt Fs) (before ++ CResetRealMu :: after))) = Fs.
Proof. exact (jenkins_reset_roundtrip kt Fs before after slip_limit_nonneg no_switch_after). Qed.
Print Assumptions C24_jenkins_reset.

Theorem C24_jenkins_prestress kt Fs before after (slip_limit_nonneg : 0 <= Fs)
  (no_switch_after : forallb (fun c => negb (is_switch c)) after = true) :
  j_Fs (fst (jcalls_exec (j_new kt Fs) (before ++ CSetPrestressMu :: after))) = 0.
Proof. exact (jenkins_prestress_zero kt Fs before after slip_limit_nonneg no_switch_after). Qed.
Print Assumptions C24_jenkins_prestress.

(** C24: while prestressed every returned force is zero. *)
Theorem C24_jenkins_prestress_forces kt Fs before after (slip_limit_nonneg : 0 <= Fs)
  (no_switch_after : forallb (fun c => negb (is_switch c)) after = true) :
  forall r f, In r (skipn (S (length before))
                   (snd (jcalls_exec (j_new kt Fs) (before ++ CSetPrestressMu :: after)))) ->
    In f (forces_of r) -> f = 0.
Proof. exact (jenkins_prestress_forces kt Fs before after slip_limit_nonneg no_switch_after). Qed.
Print Assumptions C24_jenkins_prestress_forces.

(** C24: switching to the prestress friction and straight back leaves the whole element (parameters and
    both histories) as it was, so later calls return the same results. *)
Theorem C24_jenkins_round_trip kt Fs before after (slip_limit_nonneg : 0 <= Fs)
  (no_switch_before : forallb (fun c => negb (is_switch c)) before = true) :
  fst (jcalls_exec (j_new kt Fs) (before ++ [CSetPrestressMu; CResetRealMu])) = fst (jcalls_exec (j_new kt Fs) before) /\
  skipn (length before + 2) (snd (jcalls_exec (j_new kt Fs) (before ++ CSetPrestressMu :: CResetRealMu :: after)))
  = skipn (length before) (snd (jcalls_exec (j_new kt Fs) (before ++ after))).
Proof.
  exact (conj (prestress_roundtrip kt Fs before slip_limit_nonneg no_switch_before)
              (prestress_roundtrip_results kt Fs before after slip_limit_nonneg no_switch_before)).
Qed.
Print Assumptions C24_jenkins_round_trip.

(** the element slides before the switch, and is evaluated after it *)
Example C24_case : let before := [CInitHistory; CForce 5 true] in let after := [CInitHistory; CForce 7 true; CForce (-7) true] in
  0 <= 1 /\ forallb (fun c => negb (is_switch c)) before = true /\ forallb (fun c => negb (is_switch c)) after = true /\
  map forces_of (snd (jcalls_exec (j_new 1 1) (before ++ after))) = [[]; [1]; []; [1]; [-1]].
Proof. exact switch_case. Qed.

(** C25 is false: a harmonic evaluation overwrites the static history. *)
Theorem C25_static_history_refuted :
  exists kt Fs before rows u0 after,
    0 < kt /\ 0 < Fs /\
    forces_of (last (snd (jcalls_exec (j_new kt Fs)
      (before ++ CLocalForceHistory rows u0 2 default_tol default_tol :: after))) RNone)
    <> forces_of (last (snd (jcalls_exec (j_new kt Fs) (before ++ after))) RNone).
Proof. exact aft_changes_static. Qed.
Print Assumptions C25_static_history_refuted.

(** C25: after init_history the static results do not depend on earlier evaluations of any kind. *)
Theorem C25_static_after_init_partial kt Fs before after (slip_limit_nonneg : 0 <= Fs)
  (no_switch_before : forallb (fun c => negb (is_switch c)) before = true)
  (static_after : forallb static_call after = true) :
  skipn (length before) (snd (jcalls_exec (j_new kt Fs) (before ++ CInitHistory :: after)))
  = snd (jcalls_exec (j_new kt Fs) (CInitHistory :: after)).
Proof. exact (static_after_init kt Fs before after slip_limit_nonneg no_switch_before static_after). Qed.
Print Assumptions C25_static_after_init_partial.

(** a static loading up to sliding, init_history, and loading in the other direction *)
Example C25_case : let before := [CInitHistory; CForce 5 true] in let after := [CForce (- (1 / 2)) true; CForce 7 false] in
  0 <= 1 /\ forallb (fun c => negb (is_switch c)) before = true /\ forallb static_call after = true /\
  map forces_of (snd (jcalls_exec (j_new 1 1) (CInitHistory :: after))) = [[]; [- (1 / 2)]; [1]] /\
  map forces_of (snd (jcalls_exec (j_new 1 1) (before ++ after))) = [[]; [1]; [-1]; [1]].
Proof. exact init_case. Qed.
