(** Properties C44-C46: saved histories and interpolation of continuation results. *)
From Coq Require Import Reals List Arith Bool ZArith Lia Lra String.
From Verif.Lib Require Import RSum Py.
From Verif.Spec Require Import Calculus Postprocess.
From Verif.Model Require Import Postprocess.
From Verif.Proofs Require Import PostP.
Import ListNotations.
Open Scope R_scope.

(** * C44 *)
(** file names that end in ".npz": the file holds the calls in order, no other file changes *)
Theorem C44_history_partial : forall t w calls fs, let fname := (t ++ ".npz")%string in
  fs fname = None -> calls <> [] ->
  Forall (fun c => List.length (fst c) = w /\ List.length (snd c) = w) calls ->
  exists fs', continuation_saves fs calls fname = Ok fs' /\ fs' fname = Some (Whole (map fst calls) (map snd calls)) /\
    (forall g, g <> fname -> fs' g = fs g).
Proof. exact saves_new. Qed.
Print Assumptions C44_history_partial.

(** an existing history is extended *)
Theorem C44_append_partial : forall t w, let fname := (t ++ ".npz")%string in forall calls fs xs ds,
  fs fname = Some (Whole xs ds) ->
  Forall (fun q => List.length q = w) xs -> Forall (fun q => List.length q = w) ds ->
  Forall (fun c => List.length (fst c) = w /\ List.length (snd c) = w) calls ->
  exists fs', continuation_saves fs calls fname = Ok fs' /\
    fs' fname = Some (Whole (xs ++ map fst calls) (ds ++ map snd calls)) /\ (forall g, g <> fname -> fs' g = fs g).
Proof. exact (fun t w => saves_from (t ++ ".npz")%string w (savez_npz t)). Qed.
Print Assumptions C44_append_partial.

(** any other file name: the second call overwrites what the first one saved *)
Theorem C44_history_refuted : exists fname calls fs', continuation_saves (fun _ => None) calls fname = Ok fs' /\ List.length calls = 2%nat /\
  fs' fname = None /\ fs' (savez_name fname) = Some (Whole [fst (nth 1 calls ([], []))] [snd (nth 1 calls ([], []))]).
Proof. exact saves_no_suffix. Qed.
Print Assumptions C44_history_refuted.

(** a kill during the write loses the points saved before, and later saves raise *)
Theorem C44_kill_refuted : exists t calls x d fs fs', let fname := (t ++ ".npz")%string in
  continuation_saves (fun _ => None) calls fname = Ok fs /\ fs fname = Some (Whole (map fst calls) (map snd calls)) /\ calls <> [] /\
  In fs' (save_killed fs x d fname) /\ fs' fname = Some Torn /\ forall y e, continuation_save fs' y e fname = Err ValueError.
Proof. exact killed_loses. Qed.
Print Assumptions C44_kill_refuted.

Example C44_case : let calls := [([1; 2], [3; 4]); ([5; 6], [7; 8]); ([9; 10], [11; 12])] in
  exists fs', continuation_saves (fun _ => None) calls "saved.npz" = Ok fs' /\
    fs' "saved.npz"%string = Some (Whole [[1; 2]; [5; 6]; [9; 10]] [[3; 4]; [7; 8]; [11; 12]]).
Proof.
  cbv zeta. destruct (C44_history_partial "saved" 2 [([1; 2], [3; 4]); ([5; 6], [7; 8]); ([9; 10], [11; 12])] (fun _ => None) eq_refl ltac:(discriminate)) as (fs' & E & F & _).
  { repeat constructor. }
  exists fs'. split; [exact E|exact F].
Qed.

(** * C45 *)
Theorem C45_linear_interp : forall N tab news ref out, linear_interp N tab news ref = Ok out ->
  let refs := match ref with None => last_column N tab | Some r => r end in
  List.length out = List.length news /\ increasing refs /\
  forall q, (q < List.length news)%nat -> let x := nth q news 0 in
    ((x < nth 0 refs 0 \/ nth (List.length refs - 1) refs 0 < x) -> nth q out None = None) /\
    (forall j, (j < List.length refs)%nat -> x = nth j refs 0 -> exists r, nth q out None = Some r /\ forall c, r c = nth j tab vzero c) /\
    (forall j, (S j < List.length refs)%nat -> nth j refs 0 <= x <= nth (S j) refs 0 ->
       exists r, nth q out None = Some r /\ on_line (nth j refs 0) (nth (S j) refs 0) (nth j tab vzero) (nth (S j) tab vzero) x r).
Proof. exact linear_interp_spec. Qed.
Print Assumptions C45_linear_interp.

(** the only inputs refused are empty tables and reference values that do not increase *)
Theorem C45_accepted : forall N tab news ref, let refs := match ref with None => last_column N tab | Some r => r end in
  increasing refs -> refs <> [] -> exists out, linear_interp N tab news ref = Ok out.
Proof. exact linear_interp_ok. Qed.
Print Assumptions C45_accepted.

Definition pts (l : list (list R)) : list vec := map (fun r i => nth i r 0) l.

Lemma inc3 a b c : a < b -> b < c -> increasing [a; b; c].
Proof. intros H1 H2 i j [Hij Hj]. cbn in Hj. destruct j as [|[|[|j]]]; [lia| | |lia]; destruct i as [|[|i]]; try lia; cbn; lra. Qed.

(** halfway between the first two of three points *)
Example C45_case : exists r, linear_interp 2 (pts [[5; 1]; [9; 2]; [4; 4]]) [3 / 2] None = Ok [Some r] /\ r 0%nat = 7.
Proof.
  destruct (C45_accepted 2 (pts [[5; 1]; [9; 2]; [4; 4]]) [3 / 2] None (inc3 1 2 4 ltac:(lra) ltac:(lra)) ltac:(discriminate)) as [out E].
  destruct (C45_linear_interp _ _ _ _ _ E) as (L & _ & H). destruct out as [|o [|]]; try discriminate. specialize (H 0%nat ltac:(cbn; lia)). cbv zeta in H.
  destruct H as (_ & _ & H). destruct (H 0%nat ltac:(cbn; lia) ltac:(cbn; lra)) as (r & Er & Hl). cbn in Er. subst o.
  exists r. split; [exact E|]. specialize (Hl 0%nat). cbn in Hl. lra.
Qed.

(** * C46 *)
(** between two neighbouring points every column of every accepted interpolation is one cubic with the stored end values and
    the stored end slopes; the last column is the requested parameter value *)
Theorem C46_cubic_pieces : forall N tab grad j c, increasing (map (fun r => r (N - 1)%nat) tab) -> List.length grad = List.length tab ->
  (S j < List.length tab)%nat -> (c < N - 1)%nat ->
  exists p p', cubic p p' /\
    p (row tab j (N - 1)%nat) = row tab j c /\ p (row tab (S j) (N - 1)%nat) = row tab (S j) c /\
    p' (row tab j (N - 1)%nat) = row grad j c / row grad j (N - 1)%nat /\
    p' (row tab (S j) (N - 1)%nat) = row grad (S j) c / row grad (S j) (N - 1)%nat /\
    forall lams out, hermite_interp N tab grad lams = Ok out -> List.length out = List.length lams /\
      forall q, (q < List.length lams)%nat -> row out q (N - 1)%nat = nth q lams 0 /\
        (row tab j (N - 1)%nat <= nth q lams 0 <= row tab (S j) (N - 1)%nat -> row out q c = p (nth q lams 0)).
Proof. exact hermite_pieces. Qed.
Print Assumptions C46_cubic_pieces.

(** the interpolated curve f of a column passes through every interior point with the stored slope as its derivative *)
Theorem C46_tangent : forall N tab grad j c f, increasing (map (fun r => r (N - 1)%nat) tab) -> List.length grad = List.length tab ->
  (forall d, In d (map (fun r => r (N - 1)%nat) grad) -> 0 < d) ->
  (0 < j)%nat -> (S j < List.length tab)%nat -> (c < N - 1)%nat ->
  (forall x out, hermite_interp N tab grad [x] = Ok out -> f x = row out 0 c) ->
  f (row tab j (N - 1)%nat) = row tab j c /\ derivable_pt_lim f (row tab j (N - 1)%nat) (row grad j c / row grad j (N - 1)%nat).
Proof. exact hermite_tangent. Qed.
Print Assumptions C46_tangent.

Theorem C46_upsample : forall N tab grad n out, (1 <= n)%nat -> (1 <= N)%nat -> List.length grad = List.length tab ->
  hermite_upsample N tab grad n = Ok out ->
  List.length out = ((List.length tab - 1) * n + 1)%nat /\
  forall j, (j < List.length tab)%nat -> forall c, (c < N)%nat -> row out (j * n) c = row tab j c.
Proof. exact upsample_spec. Qed.
Print Assumptions C46_upsample.

(** the only inputs refused *)
Theorem C46_accepted : forall N tab grad lams, increasing (map (fun r => r (N - 1)%nat) tab) -> (2 <= List.length tab)%nat ->
  (forall d, In d (map (fun r => r (N - 1)%nat) grad) -> 0 < d) -> lams <> [] ->
  (forall l, In l lams -> hd 0 (map (fun r => r (N - 1)%nat) tab) <= l <= last (map (fun r => r (N - 1)%nat) tab) 0) ->
  exists out, hermite_interp N tab grad lams = Ok out.
Proof. exact (fun N tab grad lams a b c d e => ex_intro _ _ (hermite_ok N tab grad lams a b c d e)). Qed.
Print Assumptions C46_accepted.

Theorem C46_upsample_accepted : forall N tab grad n, (1 <= n)%nat -> increasing (map (fun r => r (N - 1)%nat) tab) ->
  (2 <= List.length tab)%nat -> (forall d, In d (map (fun r => r (N - 1)%nat) grad) -> 0 < d) ->
  exists out, hermite_upsample N tab grad n = Ok out.
Proof. exact upsample_ok. Qed.
Print Assumptions C46_upsample_accepted.

(** three points upsampled by 4 give nine rows *)
Example C46_upsample_case : exists out, hermite_upsample 2 (pts [[0; 1]; [2; 2]; [3; 4]]) (pts [[1; 1]; [1; 2]; [0; 1]]) 4 = Ok out /\ List.length out = 9%nat /\ row out 4 0%nat = 2.
Proof.
  destruct (C46_upsample_accepted 2 (pts [[0; 1]; [2; 2]; [3; 4]]) (pts [[1; 1]; [1; 2]; [0; 1]]) 4 ltac:(lia) (inc3 1 2 4 ltac:(lra) ltac:(lra)) ltac:(cbn; lia)) as [out E].
  { cbn. intros d [<-|[<-|[<-|[]]]]; lra. }
  destruct (C46_upsample 2 (pts [[0; 1]; [2; 2]; [3; 4]]) (pts [[1; 1]; [1; 2]; [0; 1]]) 4 out ltac:(lia) ltac:(lia) eq_refl E) as [L H].
  exists out. split; [exact E|]. split; [exact L|]. exact (H 1%nat ltac:(cbn; lia) 0%nat ltac:(lia)).
Qed.

Example C46_case : forall f, let tab := pts [[0; 1]; [2; 2]; [3; 4]] in let grad := pts [[1; 1]; [1; 2]; [0; 1]] in
  (forall x out, hermite_interp 2 tab grad [x] = Ok out -> f x = row out 0 0%nat) -> f 2 = 2 /\ derivable_pt_lim f 2 (1 / 2).
Proof.
  intros f tab grad H. apply (C46_tangent 2 tab grad 1 0 f (inc3 1 2 4 ltac:(lra) ltac:(lra)) eq_refl); [|lia|cbn; lia|lia|exact H].
  cbn. intros d [<-|[<-|[<-|[]]]]; lra.
Qed.
