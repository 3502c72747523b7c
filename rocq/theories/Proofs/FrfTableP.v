From Coq Require Import Reals List Arith Bool Lia Lra Psatz FunctionalExtensionality.
From Verif.Lib Require Import RSum Calc LinAlg Py.
From Verif.Spec Require Import Calculus Harmonic System.
From Verif.Model Require Import Harmonic Aft VibSys FrfTable.
From Verif.Proofs Require Import HarmonicP VibSysP BaseP FrfP.
Import ListNotations.
Open Scope R_scope.

Lemma frf_table_solves s Fl eigs neigs Flsin a b : vs_ab s = Some (a, b) -> (vs_N s <= neigs)%nat ->
  let N := vs_N s in
  let fs := match Flsin with Some v => v | None => vzero end in
  all_modes N (vs_K s) (vs_M s) (fst (eigs (vs_K s) (vs_M s) N)) (snd (eigs (vs_K s) (vs_M s) N)) ->
  forall ws, Forall (fun w => no_resonance N a b w (fst (eigs (vs_K s) (vs_M s) N))) ws ->
  exists rows, linear_frf_table s ws Fl eigs neigs Flsin = Ok rows /\
    Forall2 (fun w row => snd row = w /\
      equation_of_motion N [1%nat] (vs_M s) (fun i j => a * vs_M s i j + b * vs_K s i j) (vs_K s) (cos_sin N (fst (fst row)) (snd (fst row))) w
        (fun _ _ => 0) (fun i t => Fl i * cos (w * t) + fs i * sin (w * t))) ws rows.
Proof.
  intros Hab Hk N fs HA. induction ws as [|w ws IH]; intros HR; cbn [linear_frf_table]; [rewrite Hab; eexists; split; [reflexivity|constructor]|].
  inversion_clear HR as [|? ? H1 H2]. destruct (linear_frf_solves s w Fl eigs neigs Flsin a b Hab Hk HA H1) as (xc & xs & E & SS). rewrite E. cbn [bind].
  destruct (IH H2) as (rows & Er & Sr). rewrite Er. cbn [bind]. eexists. split; [reflexivity|]. constructor; [split; [reflexivity|exact SS]|exact Sr].
Qed.

(** * base excitation: the response to one moving base degree of freedom *)
Lemma rsum_one_base N (bf : nat -> bool) c (f : vec) : (c < length (selected bf N))%nat ->
  (forall k, (k < length (selected bf N))%nat -> k <> c -> f (nth k (selected bf N) O) = 0) ->
  rsum N f = rsum (length (selected (fun d => negb (bf d)) N)) (fun l => f (nth l (selected (fun d => negb (bf d)) N) O)) + f (nth c (selected bf N) O).
Proof.
  intros Hc H0. rewrite <- (rsum_selected (fun d => negb (bf d)) N (fun j _ => f j)).
  transitivity (rsum N (fun j => if negb (bf j) then f j else 0) + rsum N (fun j => if bf j then f j else 0)).
  - rewrite <- rsum_plus. apply rsum_ext. intros j Hj. destruct (bf j); cbn [negb]; ring.
  - f_equal. rewrite (rsum_selected bf N (fun j _ => f j)). rewrite (rsum_single _ c); [reflexivity|exact Hc|]. intros k Hk Hn. apply H0; assumption.
Qed.

Lemma frf_column_solves s w Ub bf eigs neigs a b c :
  let N := vs_N s in
  let free := selected (fun d => negb (bf d)) N in
  let nf := length free in
  let fr := fun i => nth i free O in
  let base := selected bf N in
  let Kf := fun i j => vs_K s (fr i) (fr j) in
  let Mf := fun i j => vs_M s (fr i) (fr j) in
  vs_ab s = Some (a, b) -> (nf <= neigs)%nat -> (c < length base)%nat ->
  (forall i j, (i < N)%nat -> (j < N)%nat -> vs_C s i j = a * vs_M s i j + b * vs_K s i j) ->
  (forall i j, (i < N)%nat -> (j < N)%nat -> bf i = false -> bf j = true -> vs_M s i j = 0) ->
  all_modes nf Kf Mf (fst (eigs Kf Mf nf)) (snd (eigs Kf Mf nf)) ->
  no_resonance nf a b w (fst (eigs Kf Mf nf)) ->
  exists xc xs, frf_base_column s w Ub bf eigs neigs c = Ok (xc, xs) /\
    forall yc ys, (forall k, (k < length base)%nat -> yc (nth k base O) = (if Nat.eqb k c then Ub O else 0) /\ ys (nth k base O) = (if Nat.eqb k c then Ub 1%nat else 0)) ->
      (forall l, (l < nf)%nat -> yc (fr l) = xc l /\ ys (fr l) = xs l) ->
      base_motion_equation N bf (vs_M s) (vs_C s) (vs_K s) yc ys w.
Proof.
  intros N free nf fr base Kf Mf Hab Hk Hcb HC HM HA HR. unfold frf_base_column. fold N.
  change (mask_rank (fun d => negb (bf d)) N) with nf. rewrite Nat.min_r by exact Hk.
  change (fun i j => vs_K s (mask_index (fun d => negb (bf d)) N i) (mask_index (fun d => negb (bf d)) N j)) with Kf.
  change (fun i j => vs_M s (mask_index (fun d => negb (bf d)) N i) (mask_index (fun d => negb (bf d)) N j)) with Mf.
  destruct (eigs Kf Mf nf) as [wnsq V] eqn:EE. cbn [fst snd] in HA, HR. rewrite Hab.
  rewrite (mask_index_selected bf N c). fold base. set (ib := nth c base O) in *.
  set (fc := fun i : nat => - vs_K s (mask_index (fun d => negb (bf d)) N i) ib * Ub 0%nat - vs_C s (mask_index (fun d => negb (bf d)) N i) ib * Ub 1%nat * w).
  set (fs := fun i : nat => - vs_K s (mask_index (fun d => negb (bf d)) N i) ib * Ub 1%nat + vs_C s (mask_index (fun d => negb (bf d)) N i) ib * Ub 0%nat * w).
  eexists _, _. split; [reflexivity|]. intros yc ys Hb Hl.
  assert (Hc : yc ib = Ub O) by (destruct (Hb c Hcb) as [H _]; rewrite Nat.eqb_refl in H; exact H).
  assert (Hs : ys ib = Ub 1%nat) by (destruct (Hb c Hcb) as [_ H]; rewrite Nat.eqb_refl in H; exact H).
  pose proof (modal_solution nf Kf Mf wnsq V a b w fc fs HA HR) as MS. cbv zeta in MS. cbv beta in Hl.
  match type of MS with forall i, _ -> matvec nf Kf ?x i - _ + _ = _ /\ matvec nf Kf ?y i - _ - _ = _ => set (xc := x) in *; set (xs := y) in * end.
  unfold base_motion_equation.
  exists (fun i t => if bf i then (matvec N (vs_K s) yc i - w ^ 2 * matvec N (vs_M s) yc i + w * matvec N (vs_C s) ys i) * cos (w * t)
     + (matvec N (vs_K s) ys i - w ^ 2 * matvec N (vs_M s) ys i - w * matvec N (vs_C s) yc i) * sin (w * t) else 0).
  split; [intros i t Hi E; rewrite E; reflexivity|]. apply eom_1. intros i t Hi. destruct (bf i) eqn:E; [reflexivity|].
  destruct (selected_in bf N c Hcb) as [Hib Bib].
  set (p := fun d => negb (bf d)). assert (Pi : p i = true) by (unfold p; rewrite E; reflexivity).
  set (r := mask_rank p i). assert (Hr : (r < nf)%nat) by (exact (rank_lt p i N Hi Pi)).
  assert (Fr : fr r = i) by (exact (nth_selected_rank p N i Hi Pi)).
  assert (SPL : forall (A : mat) (y : vec) x, (forall k, (k < length base)%nat -> k <> c -> y (nth k base O) = 0) -> (forall l, (l < nf)%nat -> y (fr l) = x l) ->
     matvec N A y i = matvec nf (fun i j => A (fr i) (fr j)) x r + A i ib * y ib).
  { intros A y x H0 Hy. unfold matvec. rewrite (rsum_one_base N bf c _ Hcb) by (intros k Hk' Hn; cbv beta; rewrite H0 by assumption; ring). f_equal. fold free. fold nf. apply rsum_ext. intros l Hl'.
    change (nth l free O) with (fr l). rewrite Hy by exact Hl'. rewrite Fr. reflexivity. }
  assert (Xc : forall l, (l < nf)%nat -> yc (fr l) = xc l) by (intros l Hl'; apply Hl; exact Hl').
  assert (Xs : forall l, (l < nf)%nat -> ys (fr l) = xs l) by (intros l Hl'; apply Hl; exact Hl').
  assert (Zc : forall k, (k < length base)%nat -> k <> c -> yc (nth k base O) = 0) by (intros k Hk' Hn; destruct (Hb k Hk') as [H _]; rewrite (proj2 (Nat.eqb_neq k c) Hn) in H; exact H).
  assert (Zs : forall k, (k < length base)%nat -> k <> c -> ys (nth k base O) = 0) by (intros k Hk' Hn; destruct (Hb k Hk') as [_ H]; rewrite (proj2 (Nat.eqb_neq k c) Hn) in H; exact H).
  rewrite !(SPL _ yc xc Zc Xc), !(SPL _ ys xs Zs Xs), Hc, Hs. rewrite (HM i ib Hi Hib E Bib).
  assert (CC : forall x, matvec nf (fun i j => vs_C s (fr i) (fr j)) x r = a * matvec nf Mf x r + b * matvec nf Kf x r).
  { intros x. unfold matvec. rewrite <- !rsum_scal_l, <- rsum_plus. apply rsum_ext. intros j Hj.
    rewrite HC; [unfold Mf, Kf; ring|apply (proj1 (selected_in _ _ _ Hr))|apply (proj1 (selected_in _ _ _ Hj))]. }
  fold Kf. fold Mf. rewrite !CC. destruct (MS r Hr) as [A B].
  assert (F1 : fc r = - vs_K s i ib * Ub 0%nat - vs_C s i ib * Ub 1%nat * w) by (unfold fc; change (mask_index (fun d => negb (bf d)) N r) with (fr r); rewrite Fr; reflexivity).
  assert (F2 : fs r = - vs_K s i ib * Ub 1%nat + vs_C s i ib * Ub 0%nat * w) by (unfold fs; change (mask_index (fun d => negb (bf d)) N r) with (fr r); rewrite Fr; reflexivity).
  rewrite F1 in A. rewrite F2 in B.
  set (k1 := matvec nf Kf xc r) in *. set (k2 := matvec nf Kf xs r) in *. set (m1 := matvec nf Mf xc r) in *. set (m2 := matvec nf Mf xs r) in *.
  replace (k1 + vs_K s i ib * Ub 0%nat - w ^ 2 * (m1 + 0 * Ub 0%nat) + w * (a * m2 + b * k2 + vs_C s i ib * Ub 1%nat)) with 0 by lra.
  replace (k2 + vs_K s i ib * Ub 1%nat - w ^ 2 * (m2 + 0 * Ub 1%nat) - w * (a * m1 + b * k1 + vs_C s i ib * Ub 0%nat)) with 0 by lra.
  ring.
Qed.

Section Table.
Variables (s : vibsys) (Ub : vec) (bf : nat -> bool) (eigs : mat -> mat -> nat -> vec * mat) (neigs : nat) (a b : R).
Let N := vs_N s.
Let free := selected (fun d => negb (bf d)) N.
Let nf := length free.
Let fr := fun i => nth i free O.
Let base := selected bf N.
Let Kf : mat := fun i j => vs_K s (fr i) (fr j).
Let Mf : mat := fun i j => vs_M s (fr i) (fr j).
Hypothesis Hab : vs_ab s = Some (a, b).
Hypothesis Hk : (nf <= neigs)%nat.
Hypothesis HC : forall i j, (i < N)%nat -> (j < N)%nat -> vs_C s i j = a * vs_M s i j + b * vs_K s i j.
Hypothesis HM : forall i j, (i < N)%nat -> (j < N)%nat -> bf i = false -> bf j = true -> vs_M s i j = 0.
Hypothesis HA : all_modes nf Kf Mf (fst (eigs Kf Mf nf)) (snd (eigs Kf Mf nf)).

Definition row_solves (c : nat) (w : R) (row : frf_row) : Prop := snd row = w /\
  forall yc ys, (forall k, (k < length base)%nat -> yc (nth k base O) = (if Nat.eqb k c then Ub O else 0) /\ ys (nth k base O) = (if Nat.eqb k c then Ub 1%nat else 0)) ->
    (forall l, (l < nf)%nat -> yc (fr l) = fst (fst row) l /\ ys (fr l) = snd (fst row) l) -> base_motion_equation N bf (vs_M s) (vs_C s) (vs_K s) yc ys w.
Lemma rows_solve col ws : forall j, (forall i, (i < length ws)%nat -> (col (j + i)%nat < length base)%nat) ->
  Forall (fun w => no_resonance nf a b w (fst (eigs Kf Mf nf))) ws ->
  exists rows, frf_base_rows s col j ws Ub bf eigs neigs = Ok rows /\ length rows = length ws /\
    forall i, (i < length ws)%nat -> row_solves (col (j + i)%nat) (nth i ws 0) (nth i rows (vzero, vzero, 0)).
Proof.
  induction ws as [|w ws IH]; intros j Hj HR; cbn [frf_base_rows]; [rewrite Hab; eexists; split; [reflexivity|]; split; [reflexivity|]; intros i Hi; cbn in Hi; lia|].
  inversion_clear HR as [|? ? H1 H2].
  destruct (frf_column_solves s w Ub bf eigs neigs a b (col j) Hab Hk ltac:(specialize (Hj O ltac:(cbn; lia)); rewrite Nat.add_0_r in Hj; exact Hj) HC HM HA H1) as (xc & xs & E & SS). rewrite E. cbn [bind].
  destruct (IH (S j) ltac:(intros i Hi; specialize (Hj (S i) ltac:(cbn; lia)); replace (S j + i)%nat with (j + S i)%nat by lia; exact Hj) H2) as (rows & Er & Lr & Sr). rewrite Er. cbn [bind].
  eexists. split; [reflexivity|]. split; [cbn; rewrite Lr; reflexivity|]. intros [|i] Hi.
  - rewrite Nat.add_0_r. split; [reflexivity|exact SS].
  - cbn [nth]. specialize (Sr i ltac:(cbn in Hi; lia)). replace (j + S i)%nat with (S j + i)%nat by lia. exact Sr.
Qed.

Lemma table_one ws ib : base = [ib] -> Forall (fun w => no_resonance nf a b w (fst (eigs Kf Mf nf))) ws ->
  exists rows, linear_frf_base_table s ws Ub bf eigs neigs = Ok rows /\ length rows = length ws /\
    forall i, (i < length ws)%nat -> row_solves O (nth i ws 0) (nth i rows (vzero, vzero, 0)).
Proof.
  intros Hb HR. unfold linear_frf_base_table. change (mask_rank bf (vs_N s)) with (length base). rewrite Hb. cbn [length Nat.eqb].
  apply (rows_solve (fun _ => O) ws O); [|exact HR]. intros i _. rewrite Hb. cbn. lia.
Qed.
Lemma table_several ws : length base <> 1%nat -> length base = length ws -> Forall (fun w => no_resonance nf a b w (fst (eigs Kf Mf nf))) ws ->
  exists rows, linear_frf_base_table s ws Ub bf eigs neigs = Ok rows /\ length rows = length ws /\
    forall i, (i < length ws)%nat -> row_solves i (nth i ws 0) (nth i rows (vzero, vzero, 0)).
Proof.
  intros Hb Hl HR. unfold linear_frf_base_table. change (mask_rank bf (vs_N s)) with (length base). rewrite (proj2 (Nat.eqb_neq _ _) Hb), (proj2 (Nat.eqb_eq _ _) Hl).
  apply (rows_solve (fun j => j) ws O); [|exact HR]. intros i Hi. lia.
Qed.
End Table.

Lemma table_error s ws Ub bf eigs neigs : length (selected bf (vs_N s)) <> 1%nat -> length (selected bf (vs_N s)) <> length ws -> vs_ab s <> None ->
  linear_frf_base_table s ws Ub bf eigs neigs = Err ValueError.
Proof.
  intros H1 H2 H3. unfold linear_frf_base_table. change (mask_rank bf (vs_N s)) with (length (selected bf (vs_N s))).
  rewrite (proj2 (Nat.eqb_neq _ _) H1), (proj2 (Nat.eqb_neq _ _) H2). destruct (Nat.eqb _ 1); [|reflexivity]. destruct (vs_ab s); [reflexivity|contradiction].
Qed.

(** * a mass on two springs whose other ends move together *)
Definition two_springs : vibsys :=
  vs_new 3 (fun i j => if Nat.eqb i j then 1 else 0) (fun i j => match i, j with O, O => 2 | O, _ => -1 | _, O => -1 | _, _ => if Nat.eqb i j then 1 else 0 end) None (Some (0, 0)).
Definition ends (d : nat) : bool := negb (Nat.eqb d 0).
Definition one_mode (A B : mat) (k : nat) : vec * mat := (fun _ => 2, fun _ _ => 1).
Lemma several_wrong : exists s ws Ub bf eigs rows,
  let N := vs_N s in
  let free := selected (fun d => negb (bf d)) N in
  let nf := length free in
  let fr := fun i => nth i free O in
  let base := selected bf N in
  let Kf := fun i j => vs_K s (fr i) (fr j) in
  let Mf := fun i j => vs_M s (fr i) (fr j) in
  length base = 2%nat /\ length ws = 2%nat /\ all_modes nf Kf Mf (fst (eigs Kf Mf nf)) (snd (eigs Kf Mf nf)) /\
  Forall (fun w => no_resonance nf 0 0 w (fst (eigs Kf Mf nf))) ws /\ vs_ab s = Some (0, 0) /\
  (forall i j, (i < N)%nat -> (j < N)%nat -> bf i = false -> bf j = true -> vs_M s i j = 0) /\
  linear_frf_base_table s ws Ub bf eigs nf = Ok rows /\
  forall i, (i < 2)%nat -> forall yc ys, (forall k, (k < length base)%nat -> yc (nth k base O) = Ub O /\ ys (nth k base O) = Ub 1%nat) ->
    (forall l, (l < nf)%nat -> yc (fr l) = fst (fst (nth i rows (vzero, vzero, 0))) l /\ ys (fr l) = snd (fst (nth i rows (vzero, vzero, 0))) l) ->
    ~ base_motion_equation N bf (vs_M s) (vs_C s) (vs_K s) yc ys (nth i ws 0).
Proof.
  set (Ub := fun i : nat => match i with O => 1 | _ => 0 end).
  assert (HA : all_modes 1 (fun i j => vs_K two_springs (nth i [O] O) (nth j [O] O)) (fun i j => vs_M two_springs (nth i [O] O) (nth j [O] O)) (fun _ => 2) (fun _ _ => 1)).
  { split; [intros; lra|]. split.
    - intros m i Hm Hi. assert (m = O) by lia. assert (i = O) by lia. subst. cbn. lra.
    - intros m l Hm Hl. assert (m = O) by lia. assert (l = O) by lia. subst. cbn. lra. }
  assert (HR : Forall (fun w => no_resonance 1 0 0 w (fun _ => 2)) [1; 2]).
  { constructor; [intros m Hm; cbn; lra|]. constructor; [intros m Hm; cbn; lra|constructor]. }
  assert (HC : forall i j, (i < vs_N two_springs)%nat -> (j < vs_N two_springs)%nat -> vs_C two_springs i j = 0 * vs_M two_springs i j + 0 * vs_K two_springs i j) by (intros; reflexivity).
  assert (HM : forall i j, (i < vs_N two_springs)%nat -> (j < vs_N two_springs)%nat -> ends i = false -> ends j = true -> vs_M two_springs i j = 0).
  { intros i j Hi Hj E1 E2. unfold ends in *. destruct i; [|discriminate]. destruct j; [discriminate|]. reflexivity. }
  destruct (table_several two_springs Ub ends one_mode 1 0 0 eq_refl (le_n _) HC HM HA [1; 2] ltac:(discriminate) eq_refl HR) as (rows & E & L & SS).
  exists two_springs, [1; 2], Ub, ends, one_mode, rows. cbv zeta.
  split; [reflexivity|]. split; [reflexivity|]. split; [exact HA|]. split; [exact HR|]. split; [reflexivity|]. split; [exact HM|]. split; [exact E|].
  intros i Hi yc ys Hb Hl (g & G0 & Q). pose proof (eom_1_inv _ _ _ _ _ _ _ _ Q O 0 ltac:(cbn; lia)) as X.
  rewrite (G0 O 0 ltac:(cbn; lia) eq_refl) in X. rewrite Rmult_0_r, cos_0, sin_0, Rmult_0_r, Rplus_0_r, Rmult_1_r in X.
  destruct (SS i Hi) as [_ Si].
  set (zc := fun d : nat => match d with O => yc O | _ => if Nat.eqb d (S i) then 1 else 0 end).
  set (zs := fun d : nat => match d with O => ys O | _ => 0 end).
  destruct (Si zc zs) as (g2 & G2 & Q2).
  - intros k Hk. change (selected ends (vs_N two_springs)) with [1%nat; 2%nat] in *. cbn [length] in Hk. destruct k as [|[|k]]; [| |lia]; destruct i as [|[|i]]; try lia; cbn; split; reflexivity.
  - intros l Hl'. change (selected (fun d => negb (ends d)) (vs_N two_springs)) with [O] in *. cbn [length] in Hl'. assert (l = O) by lia. subst l. exact (Hl O ltac:(cbn; lia)).
  - pose proof (eom_1_inv _ _ _ _ _ _ _ _ Q2 O 0 ltac:(cbn; lia)) as Y.
    rewrite (G2 O 0 ltac:(cbn; lia) eq_refl) in Y. rewrite Rmult_0_r, cos_0, sin_0, Rmult_0_r, Rplus_0_r, Rmult_1_r in Y.
    destruct (Hb O ltac:(cbn; lia)) as [B1 _]. destruct (Hb 1%nat ltac:(cbn; lia)) as [B2 _]. change (selected ends (vs_N two_springs)) with [1%nat; 2%nat] in B1, B2. cbn [nth] in B1, B2.
    unfold matvec in X, Y. cbn in X, Y. rewrite B1, B2 in X. unfold prop_damping in *. destruct i as [|[|i]]; [| |lia]; cbn in X, Y; lra.
Qed.

Lemma table_one_base s Ub bf eigs neigs a b :
  let N := vs_N s in
  let free := selected (fun d => negb (bf d)) N in
  let nf := length free in
  let fr := fun i => nth i free O in
  let Kf := fun i j => vs_K s (fr i) (fr j) in
  let Mf := fun i j => vs_M s (fr i) (fr j) in
  vs_ab s = Some (a, b) -> (nf <= neigs)%nat ->
  (forall i j, (i < N)%nat -> (j < N)%nat -> vs_C s i j = a * vs_M s i j + b * vs_K s i j) ->
  (forall i j, (i < N)%nat -> (j < N)%nat -> bf i = false -> bf j = true -> vs_M s i j = 0) ->
  all_modes nf Kf Mf (fst (eigs Kf Mf nf)) (snd (eigs Kf Mf nf)) ->
  forall ws ib, selected bf N = [ib] -> Forall (fun w => no_resonance nf a b w (fst (eigs Kf Mf nf))) ws ->
  exists rows, linear_frf_base_table s ws Ub bf eigs neigs = Ok rows /\ length rows = length ws /\
    forall i, (i < length ws)%nat -> let row := nth i rows (vzero, vzero, 0) in snd row = nth i ws 0 /\
      forall yc ys, yc ib = Ub O -> ys ib = Ub 1%nat ->
        (forall l, (l < nf)%nat -> yc (fr l) = fst (fst row) l /\ ys (fr l) = snd (fst row) l) ->
        base_motion_equation N bf (vs_M s) (vs_C s) (vs_K s) yc ys (nth i ws 0).
Proof.
  intros N free nf fr Kf Mf Hab Hk HC HM HA ws ib Hb HR.
  destruct (table_one s Ub bf eigs neigs a b Hab Hk HC HM HA ws ib Hb HR) as (rows & E & L & SS).
  exists rows. split; [exact E|]. split; [exact L|]. intros i Hi row. destruct (SS i Hi) as [W Q]. split; [exact W|].
  intros yc ys Hc Hs Hl. apply Q; [|exact Hl]. change (selected bf (vs_N s)) with (selected bf N). rewrite Hb. intros k Hk'. cbn [length] in Hk'. assert (k = O) by lia. subst k. cbn. split; assumption.
Qed.

Definition one_end (d : nat) : bool := Nat.eqb d 1.
Definition one_spring : vibsys := vs_new 2 (vs_M two_springs) (vs_K two_springs) None (Some (0, 0)).
Lemma case_frequencies :
  let free := selected (fun d => negb (one_end d)) (vs_N one_spring) in
  let fr := fun i => nth i free O in
  let Kf := fun i j => vs_K one_spring (fr i) (fr j) in
  let Mf := fun i j => vs_M one_spring (fr i) (fr j) in
  length free = 1%nat /\ selected one_end (vs_N one_spring) = [1%nat] /\ vs_ab one_spring = Some (0, 0) /\
  all_modes 1 Kf Mf (fst (one_mode Kf Mf 1)) (snd (one_mode Kf Mf 1)) /\ Forall (fun w => no_resonance 1 0 0 w (fst (one_mode Kf Mf 1))) [1; 2; 3].
Proof.
  cbv zeta. split; [reflexivity|]. split; [reflexivity|]. split; [reflexivity|]. split.
  - split; [intros; cbn; lra|]. split.
    + intros m i Hm Hi. assert (m = O) by lia. assert (i = O) by lia. subst. cbn. lra.
    + intros m l Hm Hl. assert (m = O) by lia. assert (l = O) by lia. subst. cbn. lra.
  - repeat constructor; intros m Hm; cbn; lra.
Qed.
