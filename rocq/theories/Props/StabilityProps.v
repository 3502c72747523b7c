(** Property C92: motions near static states. *)
From Coq Require Import Reals List Arith Bool.
From Verif.Lib Require Import RSum Py.
From Verif.Spec Require Import System Energy StaticStates Potential Trajectory Convex.
From Verif.Model Require Import VibSys SysElements.
From Verif.Proofs Require Import TrajectoryP StabilityP RotationCaseP.
Import ListNotations.
Open Scope R_scope.

(** * C92 *)
(** With one convex spring, positive definite mass and stiffness and no load, a solution of the equations that shooting integrates never leaves
    the neighbourhood of a static state that its energy allows. *)
Theorem C92_near_partial : forall inv s Fl w y f p m mu U Rr J, vs_forces s = [f] -> spring (vs_N s) f (fst p) (snd p) -> convex (snd p) ->
  inverse_of (vs_N s) (vs_M s) (inv (vs_M s)) -> symmetric_matrix (vs_N s) (vs_M s) -> symmetric_matrix (vs_N s) (vs_K s) ->
  stiffness_at_least (vs_N s) m (vs_K s) -> stiffness_at_least (vs_N s) mu (vs_M s) -> positive_semidefinite (vs_N s) (vs_C s) ->
  trajectory inv s Fl w y -> (forall i, (i < 2 * vs_N s)%nat -> Fl i = 0) ->
  static_res s U (fun _ => 0) = Ok (Rr, J) -> (forall i, (i < vs_N s)%nat -> Rr i = 0) ->
  forall a b, a <= b -> mu / 2 * length2 (vs_N s) (velocity (vs_N s) (y b)) + m / 2 * length2 (vs_N s) (fun i => y b i - U i)
    <= total_energy s [p] (y a) - potential_energy (vs_N s) (vs_K s) [p] (fun _ => 0) U.
Proof. exact motion_near. Qed.
Print Assumptions C92_near_partial.

(** With several elements this holds for the static states of the system with the last element only. *)
Theorem C92_last : forall inv s Fl w y fs f p m mu U Rr J, vs_forces s = fs ++ [f] -> spring (vs_N s) f (fst p) (snd p) -> convex (snd p) ->
  inverse_of (vs_N s) (vs_M s) (inv (vs_M s)) -> symmetric_matrix (vs_N s) (vs_M s) -> symmetric_matrix (vs_N s) (vs_K s) ->
  stiffness_at_least (vs_N s) m (vs_K s) -> stiffness_at_least (vs_N s) mu (vs_M s) -> positive_semidefinite (vs_N s) (vs_C s) ->
  trajectory inv s Fl w y -> (forall i, (i < 2 * vs_N s)%nat -> Fl i = 0) ->
  static_res (with_only f s) U (fun _ => 0) = Ok (Rr, J) -> (forall i, (i < vs_N s)%nat -> Rr i = 0) ->
  forall a b, a <= b -> mu / 2 * length2 (vs_N s) (velocity (vs_N s) (y b)) + m / 2 * length2 (vs_N s) (fun i => y b i - U i)
    <= total_energy s [p] (y a) - potential_energy (vs_N s) (vs_K s) [p] (fun _ => 0) U.
Proof. exact motion_near_last. Qed.
Print Assumptions C92_last.

(** A solution that starts at rest in a static state stays there. *)
Theorem C92_rest_partial : forall inv s Fl w y f p m mu Rr J, vs_forces s = [f] -> spring (vs_N s) f (fst p) (snd p) -> convex (snd p) ->
  inverse_of (vs_N s) (vs_M s) (inv (vs_M s)) -> symmetric_matrix (vs_N s) (vs_M s) -> symmetric_matrix (vs_N s) (vs_K s) ->
  stiffness_at_least (vs_N s) m (vs_K s) -> stiffness_at_least (vs_N s) mu (vs_M s) -> positive_semidefinite (vs_N s) (vs_C s) ->
  trajectory inv s Fl w y -> (forall i, (i < 2 * vs_N s)%nat -> Fl i = 0) ->
  static_res s (y 0) (fun _ => 0) = Ok (Rr, J) -> (forall i, (i < vs_N s)%nat -> Rr i = 0) -> (forall i, (i < vs_N s)%nat -> velocity (vs_N s) (y 0) i = 0) ->
  forall t, 0 <= t -> forall i, (i < 2 * vs_N s)%nat -> y t i = y 0 i.
Proof. exact rest_stays. Qed.
Print Assumptions C92_rest_partial.

(** With two springs this is false, because only the last force enters the accelerations: a mass at rest in its static state moves away. *)
Theorem C92_two_springs_refuted : exists inv s ps y Rr J, convex_springs (vs_N s) (vs_forces s) ps /\ inverse_of (vs_N s) (vs_M s) (inv (vs_M s)) /\
  symmetric_matrix (vs_N s) (vs_M s) /\ symmetric_matrix (vs_N s) (vs_K s) /\ stiffness_at_least (vs_N s) 1 (vs_K s) /\ stiffness_at_least (vs_N s) 1 (vs_M s) /\
  positive_semidefinite (vs_N s) (vs_C s) /\ trajectory inv s (fun _ => 0) 1 y /\ static_res s (y 0) (fun _ => 0) = Ok (Rr, J) /\ (forall i, Rr i = 0) /\
  (forall i, (i < vs_N s)%nat -> velocity (vs_N s) (y 0) i = 0) /\ y PI O <> y 0 O.
Proof. exact rest_two_springs. Qed.
Print Assumptions C92_two_springs_refuted.

(** The mass of C90_case swings about its static state at -6 with the energy 2 above it. *)
Example C92_case : convex (snd swing_p) /\ stiffness_at_least 1 1 one /\ positive_semidefinite 1 (vs_C swing_sys) /\
  exists Rr J, static_res swing_sys (fun _ => - 6) (fun _ => 0) = Ok (Rr, J) /\ (forall i, Rr i = 0) /\
    total_energy swing_sys [swing_p] (swing_y 0) - potential_energy 1 one [swing_p] (fun _ => 0) (fun _ => - 6) = 2.
Proof. exact swing_stable. Qed.
Print Assumptions C92_case.
