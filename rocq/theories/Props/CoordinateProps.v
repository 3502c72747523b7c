(** Property C75: systems in other coordinates and reduced models. *)
From Coq Require Import Reals List Arith Bool.
From Verif.Lib Require Import RSum Py.
From Verif.Spec Require Import Coordinates.
From Verif.Model Require Import Aft VibSys SysElements Jenkins SysHistory SysHarmonic Harmonic.
From Verif.Proofs Require Import CoordinatesP CoordinatesCaseP.
Import ListNotations.
Open Scope R_scope.

(** * C75 *)
(** With u = V q, matrices V'AV, element matrices QV and V'T, and forces V'f, static_res returns V' times the residual of the original
    system, with the Jacobian V'JV, and raises the same exceptions. *)
Theorem C75_static : forall N n V K l r U q F G, Forall2 (same_element N n V) l r -> expands 1 N n V q U -> projects 1 N n V F G ->
  same_result (fun a b => both (projects 1 N n V) (fst a) (fst b) /\ both (projects_jacobian 1 N n V) (snd a) (snd b))
    (sys_static_res N K l U F) (sys_static_res n (congruent N V K) r q G).
Proof. exact static_same. Qed.
Print Assumptions C75_static.

(** Any sequence of calls leaves the elements of both systems in the same state, with the same exceptions. *)
Theorem C75_history : forall N n V l r cs ds, Forall2 (same_element N n V) l r -> Forall2 (same_call N n V) cs ds ->
  Forall2 (same_element N n V) (fst (sys_run N l cs)) (fst (sys_run n r ds)) /\ snd (sys_run N l cs) = snd (sys_run n r ds).
Proof. exact run_same. Qed.
Print Assumptions C75_history.

(** hbm_res returns V' times the residual of the original system in every harmonic component, and leaves the elements in the same state. *)
Theorem C75_harmonic : forall N n V M C K l r X Y F G h Nt, let nb := aft_Nhc h in
  Forall2 (same_element N n V) l r -> expands nb N n V X Y -> Y (nb * N)%nat = X (nb * n)%nat -> projects nb N n V F G ->
  let a := sys_hbm_res N M C K l Y F h Nt in let b := sys_hbm_res n (congruent N V M) (congruent N V C) (congruent N V K) r X G h Nt in
  Forall2 (same_element N n V) (fst a) (fst b) /\ same_result (both (projects nb N n V)) (snd a) (snd b).
Proof. exact harmonic_same. Qed.
Print Assumptions C75_harmonic.

(** The Jacobians of hbm_res are V'JV and the frequency derivatives V' times those of the original system. *)
Theorem C75_jacobian : forall N n V s r X Y F G h Nt cg, let nb := aft_Nhc h in
  same_system N n V s r -> expands nb N n V X Y -> Y (nb * N)%nat = X (nb * n)%nat -> projects nb N n V F G ->
  same_result (fun a b => projects nb N n V (fst a) (fst b) /\
                          both (fun A B => projects_jacobian nb N n V (fst A) (fst B) /\ projects nb N n V (snd A) (snd B)) (snd a) (snd b))
    (hbm_res s Y F h Nt cg) (hbm_res r X G h Nt cg).
Proof. exact hbm_same. Qed.
Print Assumptions C75_jacobian.

(** epmc_res: the same, and the two constraints are the same numbers. *)
Theorem C75_nonlinear_mode : forall N n V s r X Y F G h Nt cg, let nb := aft_Nhc h in (zi h + 2 <= nb)%nat ->
  same_system N n V s r -> expands nb N n V X Y -> (forall i, (i < 3)%nat -> Y (nb * N + i)%nat = X (nb * n + i)%nat) -> projects nb N n V F G ->
  same_result (fun a b => projects nb N n V (fst a) (fst b) /\ forall i, (i < 2)%nat -> fst a (nb * N + i)%nat = fst b (nb * n + i)%nat)
    (epmc_res s Y F h Nt cg) (epmc_res r X G h Nt cg).
Proof. exact epmc_same. Qed.
Print Assumptions C75_nonlinear_mode.

(** If the coordinates describe every displacement (other numbering, all modes), both systems have the same solutions. *)
Theorem C75_solutions : forall N n V W M C K l r F G h Nt, let nb := aft_Nhc h in
  (forall i j, (i < N)%nat -> (j < N)%nat -> rsum n (fun k => V i k * W k j) = if Nat.eqb i j then 1 else 0) ->
  Forall2 (same_element N n V) l r -> projects nb N n V F G ->
  (forall Y, exists X, expands nb N n V X Y /\ X (nb * n)%nat = Y (nb * N)%nat) /\
  forall X Y, expands nb N n V X Y -> Y (nb * N)%nat = X (nb * n)%nat ->
    ((exists l1 Rr, sys_hbm_res N M C K l Y F h Nt = (l1, Ok (Some Rr)) /\ forall i, (i < nb * N)%nat -> Rr i = 0) <->
     (exists r1 Rr, sys_hbm_res n (congruent N V M) (congruent N V C) (congruent N V K) r X G h Nt = (r1, Ok (Some Rr)) /\ forall i, (i < nb * n)%nat -> Rr i = 0)).
Proof. exact solutions_same. Qed.
Print Assumptions C75_solutions.

(** With fewer coordinates, a solution of the full system within the span of V solves the reduced one. *)
Theorem C75_reduced : forall N n V M C K l r X Y F G h Nt l1 Rr, let nb := aft_Nhc h in
  Forall2 (same_element N n V) l r -> expands nb N n V X Y -> Y (nb * N)%nat = X (nb * n)%nat -> projects nb N n V F G ->
  sys_hbm_res N M C K l Y F h Nt = (l1, Ok (Some Rr)) -> (forall i, (i < nb * N)%nat -> Rr i = 0) ->
  exists r1 Rq, sys_hbm_res n (congruent N V M) (congruent N V C) (congruent N V K) r X G h Nt = (r1, Ok (Some Rq)) /\ forall i, (i < nb * n)%nat -> Rq i = 0.
Proof. exact reduced_solution. Qed.
Print Assumptions C75_reduced.

(** Two masses with a Jenkins element between them and a cubic spring to the ground, in the sum and the difference of the displacements:
    the Jenkins element acts on twice the difference, the stiffness is diagonal, and the motion 3 cos(t), cos(t) solves the problem for
    some force. *)
Example C75_case : (forall i j, (i < 2)%nat -> (j < 2)%nat -> rsum 2 (fun k => cc_V i k * cc_W k j) = if Nat.eqb i j then 1 else 0) /\
  Forall2 (same_element 2 2 cc_V) cc_els cc_red /\ (forall m, (m < 2)%nat -> columns 2 cc_V cc_Q O m = if Nat.eqb m 1 then 2 else 0) /\
  congruent 2 cc_V cc_K O O = 2 /\ congruent 2 cc_V cc_K O 1%nat = 0 /\ congruent 2 cc_V cc_K 1%nat 1%nat = 6 /\
  expands 2 2 2 cc_V cc_X cc_Y /\ cc_Y 4%nat = cc_X 4%nat /\
  exists F l Rr, sys_hbm_res 2 mid cc_K cc_K cc_els cc_Y F [1%nat] 8 = (l, Ok (Some Rr)) /\ forall i, (i < 4)%nat -> Rr i = 0.
Proof. exact coordinates_case. Qed.
