(** Solutions in other coordinates, with an example. *)
From Coq Require Import Reals List Arith Bool Lra Lia FunctionalExtensionality.
From Verif.Lib Require Import RSum Py.
From Verif.Spec Require Import Harmonic Galerkin Coordinates.
From Verif.Model Require Import Harmonic LocalForces Aft VibSys SysElements Jenkins Iwan SysHistory SysHarmonic.
From Verif.Proofs Require Import AftP HarmonicOpsP HystAftP GalerkinP CoordinatesP.
Import ListNotations.
Open Scope R_scope.

Lemma coordinates_exist nb N n V W Y : (forall i j, (i < N)%nat -> (j < N)%nat -> rsum n (fun k => V i k * W k j) = if Nat.eqb i j then 1 else 0) ->
  exists X, expands nb N n V X Y /\ X (nb * n)%nat = Y (nb * N)%nat.
Proof.
  intros HW. exists (fun r => if Nat.ltb r (nb * n) then rsum N (fun j => W (r mod n)%nat j * Y (r / n * N + j)%nat) else Y (nb * N)%nat). split.
  - intros c i Hc Hi. rewrite (rsum_ext n _ (fun k => rsum N (fun j => V i k * W k j * Y (c * N + j)%nat))).
    + rewrite rsum_swap, (rsum_single N i _ Hi).
      * rewrite rsum_scal_r, (HW i i Hi Hi), Nat.eqb_refl. ring.
      * intros j Hj Hne. rewrite rsum_scal_r, (HW i j Hi Hj). destruct (Nat.eqb_spec i j); [lia|ring].
    + intros k Hk. destruct (Nat.ltb_spec (c * n + k) (nb * n)); [|nia]. destruct (divmod_block n c k Hk) as [-> ->]. rewrite <- rsum_scal_l. apply rsum_ext. intros; ring.
  - destruct (Nat.ltb_spec (nb * n) (nb * n)); [lia|reflexivity].
Qed.

(** solutions in coordinates that describe every displacement *)
Lemma solutions_same N n V W M C K l r F G h Nt : let nb := aft_Nhc h in
  (forall i j, (i < N)%nat -> (j < N)%nat -> rsum n (fun k => V i k * W k j) = if Nat.eqb i j then 1 else 0) ->
  Forall2 (same_element N n V) l r -> projects nb N n V F G ->
  (forall Y, exists X, expands nb N n V X Y /\ X (nb * n)%nat = Y (nb * N)%nat) /\
  forall X Y, expands nb N n V X Y -> Y (nb * N)%nat = X (nb * n)%nat ->
    ((exists l1 Rr, sys_hbm_res N M C K l Y F h Nt = (l1, Ok (Some Rr)) /\ forall i, (i < nb * N)%nat -> Rr i = 0) <->
     (exists r1 Rr, sys_hbm_res n (congruent N V M) (congruent N V C) (congruent N V K) r X G h Nt = (r1, Ok (Some Rr)) /\ forall i, (i < nb * n)%nat -> Rr i = 0)).
Proof.
  cbv zeta. intros HW H HF. split; [intros Y; exact (coordinates_exist _ N n V W Y HW)|]. intros X Y E Ew.
  destruct (harmonic_same N n V M C K l r X Y F G h Nt H E Ew HF) as [_ P].
  destruct (sys_hbm_res N M C K l Y F h Nt) as [l1 [[R1|]|x1]], (sys_hbm_res n _ _ _ r X G h Nt) as [r1 [[R2|]|x2]]; cbn in P; try contradiction.
  2,3: split; intros (? & ? & A & _); discriminate.
  pose proof (project_zero _ N n V W R1 R2 HW P) as Z. split; intros (a & b & A & B); injection A as <- <-; eexists _, _; (split; [reflexivity|]); apply Z, B.
Qed.

(** reduced models with any V: a solution of the full model that lies in the span of V solves the reduced model *)
Lemma reduced_solution N n V M C K l r X Y F G h Nt l1 Rr : let nb := aft_Nhc h in
  Forall2 (same_element N n V) l r -> expands nb N n V X Y -> Y (nb * N)%nat = X (nb * n)%nat -> projects nb N n V F G ->
  sys_hbm_res N M C K l Y F h Nt = (l1, Ok (Some Rr)) -> (forall i, (i < nb * N)%nat -> Rr i = 0) ->
  exists r1 Rq, sys_hbm_res n (congruent N V M) (congruent N V C) (congruent N V K) r X G h Nt = (r1, Ok (Some Rq)) /\ forall i, (i < nb * n)%nat -> Rq i = 0.
Proof.
  cbv zeta. intros H E Ew HF ER Z. destruct (harmonic_same N n V M C K l r X Y F G h Nt H E Ew HF) as [_ P]. rewrite ER in P. cbn [snd] in P.
  destruct (sys_hbm_res n _ _ _ r X G h Nt) as [r1 [[R2|]|x2]]; cbn in P; try contradiction. exists r1, R2. split; [reflexivity|]. intros i Hi.
  destruct (block_form _ n i Hi) as [c [k [Hc [Hk ->]]]]. rewrite (P c k Hc Hk). apply rsum_zero. intros j Hj. rewrite Z by nia. ring.
Qed.

(** * Example: two masses with a Jenkins element between them and a cubic spring to the ground; sum and difference as coordinates *)
Definition cc_V : mat := fun i k => match i, k with 1%nat, 1%nat => -1 | _, _ => 1 end.
Definition cc_W : mat := fun i k => match i, k with 1%nat, 1%nat => -1/2 | _, _ => 1/2 end.
Definition cc_Q : mat := fun d j => match d, j with O, O => 1 | O, 1%nat => -1 | _, _ => 0 end.
Definition cc_P : mat := fun d j => match d, j with O, O => 1 | _, _ => 0 end.
Definition cc_K : mat := fun i j => match i, j with O, O => 2 | 1%nat, 1%nat => 2 | _, _ => -1 end.
Definition cc_els : list element := [ElJenkins cc_Q (transpose cc_Q) (j_new 1 1); ElInstant (cubic_nl 2 1 cc_P (transpose cc_P) (fun _ => 3))].
Definition cc_red : list element := [ElJenkins (columns 2 cc_V cc_Q) (rows 2 cc_V (transpose cc_Q)) (j_new 1 1); ElInstant (cubic_nl 2 1 (columns 2 cc_V cc_P) (rows 2 cc_V (transpose cc_P)) (fun _ => 3))].
(** u0 = 3 cos(t), u1 = cos(t): sum coordinate 2 cos(t), difference cos(t); frequency 1 *)
Definition cc_Y : vec := fun r => match r with O => 3 | 1%nat => 1 | 4%nat => 1 | _ => 0 end.
Definition cc_X : vec := fun r => match r with O => 2 | 1%nat => 1 | 4%nat => 1 | _ => 0 end.

Lemma coordinates_case : (forall i j, (i < 2)%nat -> (j < 2)%nat -> rsum 2 (fun k => cc_V i k * cc_W k j) = if Nat.eqb i j then 1 else 0) /\
  Forall2 (same_element 2 2 cc_V) cc_els cc_red /\ (forall m, (m < 2)%nat -> columns 2 cc_V cc_Q O m = if Nat.eqb m 1 then 2 else 0) /\
  congruent 2 cc_V cc_K O O = 2 /\ congruent 2 cc_V cc_K O 1%nat = 0 /\ congruent 2 cc_V cc_K 1%nat 1%nat = 6 /\
  expands 2 2 2 cc_V cc_X cc_Y /\ cc_Y 4%nat = cc_X 4%nat /\
  exists F l Rr, sys_hbm_res 2 mid cc_K cc_K cc_els cc_Y F [1%nat] 8 = (l, Ok (Some Rr)) /\ forall i, (i < 4)%nat -> Rr i = 0.
Proof.
  split. { intros i j Hi Hj. destruct i as [|[|i]], j as [|[|j]]; try lia; cbn; lra. }
  split. { repeat constructor. }
  split. { intros m Hm. destruct m as [|[|m]]; try lia; cbn; lra. }
  split; [cbn; lra|]. split; [cbn; lra|]. split; [cbn; lra|].
  split. { intros c i Hc Hi. destruct c as [|[|c]], i as [|[|i]]; try lia; cbn; lra. }
  split; [reflexivity|].
  assert (Ha : admissible [1%nat]) by (repeat split; [discriminate|repeat constructor; intros []|intros []]).
  assert (HJ : exists st F, element_aft 2 (ElJenkins cc_Q (transpose cc_Q) (j_new 1 1)) (take 4 cc_Y) 1 [1%nat] 8 = Ok (st, Some F)).
  { destruct (jenkins_aft_value (j_new 1 1) 2 cc_Q (transpose cc_Q) [1%nat] 8 Ha ltac:(cbn; lia) eq_refl ltac:(cbn; lra) (take 4 cc_Y)) as (st & F & dU & E & _). cbn [element_aft]. rewrite E. cbn [bind]. eexists _, _. reflexivity. }
  destruct HJ as (st & F1 & E1).
  destruct (cubic_harmonics 2 1 cc_P (transpose cc_P) [1%nat] 8 Ha ltac:(cbn; lia) eq_refl (fun _ => 3) ltac:(cbn; lia) (take 4 cc_Y) 1 _ (velocity_exists 2 [1%nat] (take 4 cc_Y))) as (F2 & dU & dw & E2 & _).
  destruct (stiffness_eom 2 mid cc_K cc_K 1 [1%nat] true cc_Y Ha) as (E & dE & _ & _ & HE & _).
  exists (fun i => matvec 4 E cc_Y i + vadd (vadd vzero F1) F2 i).
  eexists _, _. split.
  - unfold sys_hbm_res. change (aft_Nhc [1%nat] * 2)%nat with 4%nat. change (cc_Y 4%nat) with 1. rewrite HE. unfold cc_els. cbn [sys_aft]. rewrite E1. cbn [element_aft]. rewrite E2. cbn [bind oadd fst]. reflexivity.
  - intros i _. cbv beta. ring.
Qed.
