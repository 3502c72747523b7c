(** Property C90: energy along the solutions that shooting integrates. *)
From Coq Require Import Reals List Arith Bool.
From Verif.Lib Require Import RSum Py.
From Verif.Spec Require Import System Energy Potential Trajectory.
From Verif.Model Require Import VibSys SysElements.
From Verif.Proofs Require Import RotationCaseP TrajectoryP.
Import ListNotations.
Open Scope R_scope.

(** * C90 *)
(** Shooting integrates the system with the last element only.  This is the whole system if it has one element. *)
Theorem C90_last : forall inv s Fl w y fs f, vs_forces s = fs ++ [f] -> trajectory inv s Fl w y -> trajectory inv (with_only f s) Fl w y.
Proof. exact trajectory_last. Qed.
Print Assumptions C90_last.

(** The energy of masses, stiffness and the last spring grows by the power of the load less the power of the damping matrix.  With one
    spring (fs = []) this is the energy of the system. *)
Theorem C90_rate_partial : forall inv s Fl w y fs f p t, vs_forces s = fs ++ [f] -> spring (vs_N s) f (fst p) (snd p) -> inverse_of (vs_N s) (vs_M s) (inv (vs_M s)) ->
  symmetric_matrix (vs_N s) (vs_M s) -> symmetric_matrix (vs_N s) (vs_K s) -> trajectory inv s Fl w y ->
  derivable_pt_lim (fun t => total_energy s [p] (y t)) t
    (load_power (vs_N s) Fl w t (velocity (vs_N s) (y t)) - quadratic (vs_N s) (vs_C s) (velocity (vs_N s) (y t))).
Proof. exact energy_rate. Qed.
Print Assumptions C90_rate_partial.

(** Without load it is constant for undamped systems and does not grow for damped ones. *)
Theorem C90_conserved_partial : forall inv s Fl w y fs f p, vs_forces s = fs ++ [f] -> spring (vs_N s) f (fst p) (snd p) -> inverse_of (vs_N s) (vs_M s) (inv (vs_M s)) ->
  symmetric_matrix (vs_N s) (vs_M s) -> symmetric_matrix (vs_N s) (vs_K s) -> trajectory inv s Fl w y -> (forall i, (i < 2 * vs_N s)%nat -> Fl i = 0) ->
  ((forall i j, (i < vs_N s)%nat -> (j < vs_N s)%nat -> vs_C s i j = 0) -> forall a b, total_energy s [p] (y a) = total_energy s [p] (y b)) /\
  (positive_semidefinite (vs_N s) (vs_C s) -> forall a b, a <= b -> total_energy s [p] (y b) <= total_energy s [p] (y a)).
Proof. exact energy_conserved. Qed.
Print Assumptions C90_conserved_partial.

(** With two springs this is false, because only the last force enters the accelerations: an undamped mass without load gains energy. *)
Theorem C90_two_springs_refuted : exists inv s ps y, springs (vs_N s) (vs_forces s) ps /\ inverse_of (vs_N s) (vs_M s) (inv (vs_M s)) /\
  symmetric_matrix (vs_N s) (vs_M s) /\ symmetric_matrix (vs_N s) (vs_K s) /\ (forall i j, vs_C s i j = 0) /\ trajectory inv s (fun _ => 0) 1 y /\
  total_energy s ps (y 0) = 1/2 /\ total_energy s ps (y 1) = 3/2.
Proof. exact energy_two_springs. Qed.
Print Assumptions C90_two_springs_refuted.

(** A mass that swings on a unilateral spring: u = cos(2 t) - 6. *)
Example C90_case : spring 1 (unilateral_nl 1 1 one one (fun _ => 3) (fun _ => 0) (fun _ => - 8)) (fst swing_p) (snd swing_p) /\
  inverse_of 1 (vs_M swing_sys) one /\ symmetric_matrix 1 (vs_M swing_sys) /\ symmetric_matrix 1 (vs_K swing_sys) /\ trajectory (fun _ => one) swing_sys (fun _ => 0) 1 swing_y /\
  total_energy swing_sys [swing_p] (swing_y 0) = 26.
Proof. exact swing_case. Qed.
Print Assumptions C90_case.
