(** Property C86: conservative systems. *)
From Coq Require Import Reals List Arith Bool.
From Verif.Lib Require Import RSum Py.
From Verif.Spec Require Import Calculus Harmonic Elements System Galerkin Energy StaticHistory Potential.
From Verif.Model Require Import Harmonic VibSys SysElements.
From Verif.Proofs Require Import PotentialP PotentialHbmP PotentialCaseP.
Import ListNotations.
Open Scope R_scope.

(** * C86 *)
(** With a symmetric stiffness matrix and springs, static_res returns the gradient of the potential energy.  Its zeros are the stationary
    points of that energy. *)
Theorem C86_static : forall s ps Fst U, symmetric_matrix (vs_N s) (vs_K s) -> springs (vs_N s) (vs_forces s) ps ->
  exists Rr J, static_res s U Fst = Ok (Rr, J) /\ is_gradient (vs_N s) (potential_energy (vs_N s) (vs_K s) ps Fst) U Rr /\
    ((forall i, (i < vs_N s)%nat -> Rr i = 0) <-> is_gradient (vs_N s) (potential_energy (vs_N s) (vs_K s) ps Fst) U (fun _ => 0)).
Proof. exact static_stationary. Qed.
Print Assumptions C86_static.

(** Without damping, hbm_res returns the gradient of the mean action of the sampled motion, up to the mean square of the component of each
    row.  Its zeros are the stationary points of the mean action. *)
Theorem C86_harmonic : forall s h Nt ps Fl v X, admissible h -> (2 * list_max h + 1 < Nt)%nat -> Nat.even Nt = true ->
  let N := vs_N s in let n := (length (components h) * N)%nat in let A := mean_action N h Nt (vs_M s) (vs_K s) ps Fl (X n) v in
  X n <> 0 -> symmetric_matrix N (vs_M s) -> symmetric_matrix N (vs_K s) -> (forall i j, (i < N)%nat -> (j < N)%nat -> vs_C s i j = 0) ->
  springs N (vs_forces s) ps -> (forall U, phase_velocity N h U (v U)) ->
  exists Rr G, hbm_res s X Fl h Nt true = Ok (Rr, Some G) /\ is_gradient n A X (fun r => share N h r * Rr r) /\
    ((forall r, (r < n)%nat -> Rr r = 0) <-> is_gradient n A X (fun _ => 0)).
Proof. exact hbm_stationary. Qed.
Print Assumptions C86_harmonic.

(** The Iwan backbone has an energy, so the springs above include it. *)
Theorem C86_iwan : forall kt Fs chi beta, 0 < kt -> 0 < Fs -> -1 < chi -> 0 <= beta ->
  exists W, forall u, derivable_pt_lim W u (iwan_backbone kt Fs chi beta u).
Proof. exact iwan_energy. Qed.
Print Assumptions C86_iwan.

(** A chain of two masses with a cubic spring and a wall meets the hypotheses. *)
Example C86_case :
  symmetric_matrix 2 (vs_M chain) /\ symmetric_matrix 2 (vs_K chain) /\ springs (vs_N chain) (vs_forces chain) chain_ps /\
  potential_energy 2 chain_K chain_ps (fun _ => 1) (fun j => if Nat.eqb j 0 then 1 else 3) = 39 /\
  exists v, (forall U, phase_velocity 2 [0; 1; 2]%nat U (v U)) /\ admissible [0; 1; 2]%nat /\ (2 * list_max [0; 1; 2] + 1 < 8)%nat.
Proof. exact chain_case. Qed.
Print Assumptions C86_case.
