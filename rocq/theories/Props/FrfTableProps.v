(** Properties C54 and C55 for tables: several frequencies and several base degrees of freedom.  Specification: Spec/System.v.  A row of a
    table is (cosine response, sine response, frequency). *)
From Coq Require Import Reals Lra Lia Arith List Bool.
From Verif.Lib Require Import RSum Py.
From Verif.Spec Require Import Calculus Harmonic System.
From Verif.Model Require Import Aft VibSys FrfTable.
From Verif.Proofs Require Import BaseP FrfP FrfTableP.
Import ListNotations.
Open Scope R_scope.

(** C54: for every list of frequencies off resonance, linear_frf returns one row per frequency, in order, and each row is the steady response
    to the force at its frequency. *)
Theorem C54_frequencies s Fl eigs neigs Flsin a b (proportional : vs_ab s = Some (a, b)) (enough_modes : (vs_N s <= neigs)%nat) :
  let N := vs_N s in
  let fs := match Flsin with Some v => v | None => vzero end in
  forall (modes : all_modes N (vs_K s) (vs_M s) (fst (eigs (vs_K s) (vs_M s) N)) (snd (eigs (vs_K s) (vs_M s) N))) ws
         (off_resonance : Forall (fun w => no_resonance N a b w (fst (eigs (vs_K s) (vs_M s) N))) ws),
  exists rows, linear_frf_table s ws Fl eigs neigs Flsin = Ok rows /\
    Forall2 (fun w row => snd row = w /\
      equation_of_motion N [1%nat] (vs_M s) (fun i j => a * vs_M s i j + b * vs_K s i j) (vs_K s) (cos_sin N (fst (fst row)) (snd (fst row))) w
        (fun _ _ => 0) (fun i t => Fl i * cos (w * t) + fs i * sin (w * t))) ws rows.
Proof. exact (frf_table_solves s Fl eigs neigs Flsin a b proportional enough_modes). Qed.
Print Assumptions C54_frequencies.

(** C55, what holds: with one base degree of freedom without inertia coupling, every row of linear_frf_base, together with the base motion,
    solves the equations of motion of the free degrees of freedom at the frequency of that row. *)
Theorem C55_frequencies_partial s Ub bf eigs neigs a b :
  let N := vs_N s in
  let free := selected (fun d => negb (bf d)) N in
  let nf := length free in
  let fr := fun i => nth i free O in
  let Kf := fun i j => vs_K s (fr i) (fr j) in
  let Mf := fun i j => vs_M s (fr i) (fr j) in
  forall (proportional : vs_ab s = Some (a, b)) (enough_modes : (nf <= neigs)%nat)
  (damping : forall i j, (i < N)%nat -> (j < N)%nat -> vs_C s i j = a * vs_M s i j + b * vs_K s i j)
  (no_inertia_coupling : forall i j, (i < N)%nat -> (j < N)%nat -> bf i = false -> bf j = true -> vs_M s i j = 0)
  (modes : all_modes nf Kf Mf (fst (eigs Kf Mf nf)) (snd (eigs Kf Mf nf)))
  ws ib (one_base_dof : selected bf N = [ib])
  (off_resonance : Forall (fun w => no_resonance nf a b w (fst (eigs Kf Mf nf))) ws),
  exists rows, linear_frf_base_table s ws Ub bf eigs neigs = Ok rows /\ length rows = length ws /\
    forall i, (i < length ws)%nat -> let row := nth i rows (vzero, vzero, 0) in snd row = nth i ws 0 /\
      forall yc ys, yc ib = Ub O -> ys ib = Ub 1%nat ->
        (forall l, (l < nf)%nat -> yc (fr l) = fst (fst row) l /\ ys (fr l) = snd (fst row) l) ->
        base_motion_equation N bf (vs_M s) (vs_C s) (vs_K s) yc ys (nth i ws 0).
Proof. exact (table_one_base s Ub bf eigs neigs a b). Qed.
Print Assumptions C55_frequencies_partial.

Example C55_case_frequencies :
  let free := selected (fun d => negb (one_end d)) (vs_N one_spring) in
  let fr := fun i => nth i free O in
  let Kf := fun i j => vs_K one_spring (fr i) (fr j) in
  let Mf := fun i j => vs_M one_spring (fr i) (fr j) in
  length free = 1%nat /\ selected one_end (vs_N one_spring) = [1%nat] /\ vs_ab one_spring = Some (0, 0) /\
  all_modes 1 Kf Mf (fst (one_mode Kf Mf 1)) (snd (one_mode Kf Mf 1)) /\ Forall (fun w => no_resonance 1 0 0 w (fst (one_mode Kf Mf 1))) [1; 2; 3].
Proof. exact case_frequencies. Qed.

(** C55 is also false with several base degrees of freedom and as many frequencies: all base degrees of freedom move with Ub, but no row
    solves the equations (a mass between two springs whose other ends move together, without inertia coupling). *)
Theorem C55_several_refuted : exists s ws Ub bf eigs rows,
  let N := vs_N s in
  let free := selected (fun d => negb (bf d)) N in
  let nf := length free in
  let fr := fun i => nth i free O in
  let base := selected bf N in
  let Kf := fun i j => vs_K s (fr i) (fr j) in
  let Mf := fun i j => vs_M s (fr i) (fr j) in
  length base = 2%nat /\ length ws = 2%nat /\ all_modes nf Kf Mf (fst (eigs Kf Mf nf)) (snd (eigs Kf Mf nf)) /\
  Forall (fun w => no_resonance nf 0 0 w (fst (eigs Kf Mf nf))) ws /\ vs_ab s = Some (0, 0) /\
  (forall i j, (i < N)%nat -> (j < N)%nat -> bf i = false -> bf j = true -> vs_M s i j = 0) /\
  linear_frf_base_table s ws Ub bf eigs nf = Ok rows /\
  forall i, (i < 2)%nat -> forall yc ys, (forall k, (k < length base)%nat -> yc (nth k base O) = Ub O /\ ys (nth k base O) = Ub 1%nat) ->
    (forall l, (l < nf)%nat -> yc (fr l) = fst (fst (nth i rows (vzero, vzero, 0))) l /\ ys (fr l) = snd (fst (nth i rows (vzero, vzero, 0))) l) ->
    ~ base_motion_equation N bf (vs_M s) (vs_C s) (vs_K s) yc ys (nth i ws 0).
Proof. exact several_wrong. Qed.
Print Assumptions C55_several_refuted.

(** C55, what the table holds then: row i is the response to base degree of freedom number i alone, the others at rest, at frequency i. *)
Theorem C55_several_partial s Ub bf eigs neigs a b :
  let N := vs_N s in
  let free := selected (fun d => negb (bf d)) N in
  let nf := length free in
  let fr := fun i => nth i free O in
  let base := selected bf N in
  let Kf := fun i j => vs_K s (fr i) (fr j) in
  let Mf := fun i j => vs_M s (fr i) (fr j) in
  forall (proportional : vs_ab s = Some (a, b)) (enough_modes : (nf <= neigs)%nat)
  (damping : forall i j, (i < N)%nat -> (j < N)%nat -> vs_C s i j = a * vs_M s i j + b * vs_K s i j)
  (no_inertia_coupling : forall i j, (i < N)%nat -> (j < N)%nat -> bf i = false -> bf j = true -> vs_M s i j = 0)
  (modes : all_modes nf Kf Mf (fst (eigs Kf Mf nf)) (snd (eigs Kf Mf nf)))
  ws (several : length base <> 1%nat) (one_frequency_each : length base = length ws)
  (off_resonance : Forall (fun w => no_resonance nf a b w (fst (eigs Kf Mf nf))) ws),
  exists rows, linear_frf_base_table s ws Ub bf eigs neigs = Ok rows /\ length rows = length ws /\
    forall i, (i < length ws)%nat -> let row := nth i rows (vzero, vzero, 0) in snd row = nth i ws 0 /\
      forall yc ys, (forall k, (k < length base)%nat ->
          yc (nth k base O) = (if Nat.eqb k i then Ub O else 0) /\ ys (nth k base O) = (if Nat.eqb k i then Ub 1%nat else 0)) ->
        (forall l, (l < nf)%nat -> yc (fr l) = fst (fst row) l /\ ys (fr l) = snd (fst row) l) ->
        base_motion_equation N bf (vs_M s) (vs_C s) (vs_K s) yc ys (nth i ws 0).
Proof. exact (table_several s Ub bf eigs neigs a b). Qed.
Print Assumptions C55_several_partial.

(** C55: with several base degrees of freedom and another number of frequencies nothing is returned. *)
Theorem C55_other_numbers_raise s ws Ub bf eigs neigs (proportional : vs_ab s <> None)
  (several : length (selected bf (vs_N s)) <> 1%nat) (other_number : length (selected bf (vs_N s)) <> length ws) :
  linear_frf_base_table s ws Ub bf eigs neigs = Err ValueError.
Proof. exact (table_error s ws Ub bf eigs neigs several other_number proportional). Qed.
Print Assumptions C55_other_numbers_raise.
