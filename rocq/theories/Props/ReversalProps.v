(** Property C88: time reversal. *)
From Coq Require Import Reals List Arith Bool.
From Verif.Lib Require Import RSum Py.
From Verif.Spec Require Import Harmonic Potential Reversal.
From Verif.Model Require Import Harmonic VibSys SysElements.
From Verif.Proofs Require Import ReversalP PotentialCaseP ReversalCaseP.
Import ListNotations.
Open Scope R_scope.

(** * C88 *)
(** The opposite sign of the sines turns the motion around. *)
Theorem C88_motion : forall N h U j tau, (j < N)%nat -> series h (dof_coefs N (reversed N h U) j) tau = series h (dof_coefs N U j) (- tau).
Proof. exact reversed_motion. Qed.
Print Assumptions C88_motion.

(** Without damping, the reversed motion under the reversed load has the reversed residual. *)
Theorem C88_reversal : forall s h Nt ps Fl Fl' X X', admissible h -> (2 * list_max h + 1 < Nt)%nat -> Nat.even Nt = true ->
  let N := vs_N s in let n := (length (components h) * N)%nat in
  X n <> 0 -> (forall i j, (i < N)%nat -> (j < N)%nat -> vs_C s i j = 0) -> springs N (vs_forces s) ps ->
  (forall r, (r < n)%nat -> X' r = reversed N h X r) -> X' n = X n -> (forall r, (r < n)%nat -> Fl' r = reversed N h Fl r) ->
  exists Rr G Rr' G', hbm_res s X Fl h Nt true = Ok (Rr, Some G) /\ hbm_res s X' Fl' h Nt true = Ok (Rr', Some G') /\
    forall r, (r < n)%nat -> Rr' r = reversed N h Rr r.
Proof. exact hbm_reversed. Qed.
Print Assumptions C88_reversal.

(** Hence a motion of cosines under a load of cosines has no residual in the sine equations. *)
Theorem C88_cosines : forall s h Nt ps Fl X, admissible h -> (2 * list_max h + 1 < Nt)%nat -> Nat.even Nt = true ->
  let N := vs_N s in let n := (length (components h) * N)%nat in
  X n <> 0 -> (forall i j, (i < N)%nat -> (j < N)%nat -> vs_C s i j = 0) -> springs N (vs_forces s) ps ->
  (forall r, (r < n)%nat -> sine_row N h r -> X r = 0 /\ Fl r = 0) ->
  exists Rr G, hbm_res s X Fl h Nt true = Ok (Rr, Some G) /\ forall r, (r < n)%nat -> sine_row N h r -> Rr r = 0.
Proof. exact hbm_even. Qed.
Print Assumptions C88_cosines.

(** The chain of C86_case in a motion of cosines. *)
Example C88_case : admissible cos_h /\ (2 * list_max cos_h + 1 < 8)%nat /\ cos_X (length (components cos_h) * vs_N chain)%nat = 3 /\
  springs (vs_N chain) (vs_forces chain) chain_ps /\ (forall i j, vs_C chain i j = 0) /\
  (forall r, (r < length (components cos_h) * vs_N chain)%nat -> sine_row (vs_N chain) cos_h r -> cos_X r = 0 /\ cos_F r = 0) /\ sine_row (vs_N chain) cos_h 5 /\ ~ sine_row (vs_N chain) cos_h 7.
Proof. exact cos_case. Qed.
Print Assumptions C88_case.
