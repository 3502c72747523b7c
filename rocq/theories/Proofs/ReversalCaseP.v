(** The chain of two masses in cosine motion. *)
From Coq Require Import Reals Lra Lia Arith List Bool.
From Verif.Lib Require Import RSum Py.
From Verif.Spec Require Import Harmonic Potential Reversal.
From Verif.Model Require Import Harmonic VibSys SysElements.
From Verif.Proofs Require Import PotentialCaseP.
Import ListNotations.
Open Scope R_scope.

Definition cos_h : list nat := [0; 1; 2]%nat.
(** offset, cos(tau) and cos(2 tau) of both masses; frequency 3 *)
Definition cos_X : vec := fun r => match r with 0%nat => 1/2 | 1%nat => 1 | 2%nat => 2 | 3%nat => -1 | 6%nat => 1/4 | 7%nat => 1/3 | 10%nat => 3 | _ => 0 end.
Definition cos_F : vec := fun r => match r with 2%nat => 5 | _ => 0 end.

Lemma cos_case : admissible cos_h /\ (2 * list_max cos_h + 1 < 8)%nat /\ cos_X (length (components cos_h) * vs_N chain)%nat = 3 /\
  springs (vs_N chain) (vs_forces chain) chain_ps /\ (forall i j, vs_C chain i j = 0) /\
  (forall r, (r < length (components cos_h) * vs_N chain)%nat -> sine_row (vs_N chain) cos_h r -> cos_X r = 0 /\ cos_F r = 0) /\ sine_row (vs_N chain) cos_h 5 /\ ~ sine_row (vs_N chain) cos_h 7.
Proof.
  split; [repeat split; [discriminate|repeat constructor; cbn; intuition discriminate|cbn; intuition discriminate]|]. split; [cbn; lia|]. split; [reflexivity|]. split; [apply chain_springs|]. split; [reflexivity|].
  split; [|split; [exists 1%nat; reflexivity|intros (k & Q); cbn in Q; discriminate]].
  intros r Hr (k & Q). cbn in Hr. do 10 (destruct r as [|r]; [cbn in Q; try discriminate; split; reflexivity|]). lia.
Qed.
