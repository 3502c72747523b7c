From Coq Require Import Reals List Arith Bool ZArith Lia Lra Psatz String Ascii.
From Verif.Lib Require Import RSum Calc Py.
From Verif.Spec Require Import Calculus Postprocess.
From Verif.Model Require Import Postprocess.
Import ListNotations.
Open Scope R_scope.

Lemma increasing_tl x l : increasing (x :: l) -> increasing l.
Proof. intros H i j Hij. apply (H (S i) (S j)). cbn. lia. Qed.

Lemma increasingb_spec l : increasingb l = true <-> increasing l.
Proof.
  split.
  - induction l as [|x l IH]; [intros _ i j H; cbn in H; lia|]. cbn [increasingb]. intros H. apply andb_prop in H. destruct H as [H1 H2]. specialize (IH H2).
    assert (HF : forall j, (j < List.length l)%nat -> x < nth j l 0).
    { destruct l as [|y l]; [cbn; intros; lia|]. apply Rltb_true in H1. intros [|j] Hj; [exact H1|]. eapply Rlt_trans; [exact H1|]. apply (IH 0%nat (S j)). cbn in *. lia. }
    intros [|i] [|j] Hij; try lia; cbn [nth] in *; [apply HF; cbn in Hij; lia|apply IH; cbn in Hij; lia].
  - induction l as [|x l IH]; [reflexivity|]. intros H. cbn [increasingb]. rewrite (IH (increasing_tl _ _ H)). destruct l as [|y l]; [reflexivity|].
    rewrite (proj2 (Rltb_true x y)); [reflexivity|]. apply (H 0%nat 1%nat). cbn. lia.
Qed.

Lemma increasing_le l i j : increasing l -> (i <= j < List.length l)%nat -> nth i l 0 <= nth j l 0.
Proof. intros H Hij. destruct (Nat.eq_dec i j) as [->|Ne]; [lra|]. left. apply H. lia. Qed.

Lemma last_nth (l : list R) : l <> [] -> last l 0 = nth (List.length l - 1) l 0.
Proof.
  induction l as [|x l IH]; [contradiction|]. intros _. destruct l as [|y l]; [reflexivity|]. rewrite <- (IH ltac:(discriminate) : last (y :: l) 0 = _) || idtac.
  transitivity (last (y :: l) 0); [reflexivity|]. rewrite IH by discriminate. cbn [List.length]. replace (S (S (List.length l)) - 1)%nat with (S (S (List.length l) - 1)) by lia. reflexivity.
Qed.

Lemma interp_two x x0 x1 xp f0 f1 fp : np_interp x (x0 :: x1 :: xp) (f0 :: f1 :: fp) =
  if Rltb x x0 then None else if Rltb x x1 then Some (f0 + (f1 - f0) / (x1 - x0) * (x - x0)) else np_interp x (x1 :: xp) (f1 :: fp).
Proof. reflexivity. Qed.
Lemma interp_one x x0 f0 : np_interp x [x0] [f0] = if Rltb x x0 then None else if Reqb x x0 then Some f0 else None.
Proof. reflexivity. Qed.

Lemma interp_in : forall xp fp j x, increasing xp -> List.length fp = List.length xp -> (S j < List.length xp)%nat ->
  nth j xp 0 <= x < nth (S j) xp 0 ->
  np_interp x xp fp = Some (nth j fp 0 + (nth (S j) fp 0 - nth j fp 0) / (nth (S j) xp 0 - nth j xp 0) * (x - nth j xp 0)).
Proof.
  induction xp as [|x0 xp IH]; intros fp j x Hi Hl Hj Hx; [cbn in Hj; lia|]. destruct fp as [|f0 fp]; [discriminate|].
  destruct xp as [|x1 xp]; [cbn in Hj; lia|]. destruct fp as [|f1 fp]; [discriminate|].
  rewrite interp_two. rewrite (proj2 (Rltb_false x x0)).
  2:{ eapply Rle_trans; [|apply Hx]. apply (increasing_le (x0 :: x1 :: xp) 0 j Hi). cbn in *. lia. }
  destruct j as [|j].
  - cbn [nth] in *. rewrite (proj2 (Rltb_true x x1)) by lra. reflexivity.
  - rewrite (proj2 (Rltb_false x x1)).
    2:{ eapply Rle_trans; [|apply Hx]. apply (increasing_le (x0 :: x1 :: xp) 1 (S j) Hi). cbn in *. lia. }
    apply (IH (f1 :: fp) j x (increasing_tl _ _ Hi)); [cbn in *; lia|cbn in *; lia|exact Hx].
Qed.

Lemma interp_last : forall xp fp x, increasing xp -> List.length fp = List.length xp -> xp <> [] -> x = nth (List.length xp - 1) xp 0 ->
  np_interp x xp fp = Some (nth (List.length xp - 1) fp 0).
Proof.
  induction xp as [|x0 xp IH]; intros fp x Hi Hl Hn Hx; [contradiction|]. destruct fp as [|f0 fp]; [discriminate|].
  assert (Ge : Rltb x x0 = false).
  { apply Rltb_false. rewrite Hx. apply (increasing_le (x0 :: xp) 0 _ Hi). cbn. lia. }
  destruct xp as [|x1 xp].
  - destruct fp; [|discriminate]. rewrite interp_one, Ge. cbn in *. subst x. rewrite (proj2 (Reqb_true x0 x0) eq_refl). reflexivity.
  - destruct fp as [|f1 fp]; [discriminate|].
    assert (E : nth (List.length (x0 :: x1 :: xp) - 1) (x0 :: x1 :: xp) 0 = nth (List.length (x1 :: xp) - 1) (x1 :: xp) 0) by (cbn; rewrite Nat.sub_0_r; reflexivity).
    rewrite interp_two, Ge. rewrite (proj2 (Rltb_false x x1)).
    2:{ rewrite Hx, E. apply (increasing_le (x1 :: xp) 0 _ (increasing_tl _ _ Hi)). cbn. lia. }
    rewrite (IH (f1 :: fp) x (increasing_tl _ _ Hi)); [cbn; rewrite Nat.sub_0_r; reflexivity|cbn in *; lia|discriminate|rewrite Hx; exact E].
Qed.

Lemma interp_left xp fp x : xp <> [] -> x < nth 0 xp 0 -> np_interp x xp fp = None.
Proof. destruct xp as [|x0 xp]; [contradiction|]. intros _ H. destruct fp; [reflexivity|]. cbn [np_interp]. rewrite (proj2 (Rltb_true x x0)); [reflexivity|exact H]. Qed.

Lemma interp_right : forall xp fp x, increasing xp -> List.length fp = List.length xp -> xp <> [] -> nth (List.length xp - 1) xp 0 < x -> np_interp x xp fp = None.
Proof.
  induction xp as [|x0 xp IH]; intros fp x Hi Hl Hn Hx; [contradiction|]. destruct fp as [|f0 fp]; [discriminate|]. destruct xp as [|x1 xp].
  - destruct fp; [|discriminate]. rewrite interp_one. destruct (Rltb x x0); [reflexivity|]. cbn in Hx. rewrite (proj2 (Reqb_false x x0)); [reflexivity|lra].
  - destruct fp as [|f1 fp]; [discriminate|].
    assert (E : nth (List.length (x0 :: x1 :: xp) - 1) (x0 :: x1 :: xp) 0 = nth (List.length (x1 :: xp) - 1) (x1 :: xp) 0) by (cbn; rewrite Nat.sub_0_r; reflexivity).
    rewrite E in Hx. rewrite interp_two. destruct (Rltb x x0); [reflexivity|]. rewrite (proj2 (Rltb_false x x1)).
    2:{ apply Rlt_le. eapply Rle_lt_trans; [|exact Hx]. apply (increasing_le (x1 :: xp) 0 _ (increasing_tl _ _ Hi)). cbn. lia. }
    apply (IH (f1 :: fp) x (increasing_tl _ _ Hi)); [cbn in *; lia|discriminate|exact Hx].
Qed.

Lemma int_part_frac j t : 0 <= t < 1 -> Z.to_nat (Int_part (INR j + t)) = j.
Proof.
  intros Ht. assert (E : Int_part (INR j + t) = Z.of_nat j).
  { unfold Int_part. rewrite <- (tech_up (INR j + t) (Z.of_nat j + 1)); [lia| |]; rewrite plus_IZR, <- INR_IZR_INZ; lra. }
  rewrite E. apply Nat2Z.id.
Qed.

Lemma nth_iota M j : (j < M)%nat -> nth j (map INR (seq 0 M)) 0 = INR j.
Proof. intros H. rewrite (nth_indep _ 0 (INR 0)) by (rewrite map_length, seq_length; exact H). rewrite map_nth, seq_nth by exact H. reflexivity. Qed.

Definition interp_row (tab : list vec) (refs : list R) (x : R) : option vec :=
  match np_interp x refs (map INR (seq 0 (List.length refs))) with
  | None => None
  | Some frac_ind =>
    let whole_ind := Z.to_nat (Int_part frac_ind) in
    let next_ind := Nat.min (whole_ind + 1) (List.length refs - 1) in
    let remainder_ind := frac_ind - INR whole_ind in
    Some (fun c => row tab whole_ind c + remainder_ind * (row tab next_ind c - row tab whole_ind c))
  end.

Lemma interp_row_in tab refs j x : increasing refs -> (S j < List.length refs)%nat -> nth j refs 0 <= x < nth (S j) refs 0 ->
  exists r, interp_row tab refs x = Some r /\ forall c, r c = row tab j c + (x - nth j refs 0) / (nth (S j) refs 0 - nth j refs 0) * (row tab (S j) c - row tab j c).
Proof.
  intros Hi Hj Hx. unfold interp_row. rewrite (interp_in refs _ j x Hi) by (try rewrite map_length, seq_length; try reflexivity; assumption).
  rewrite !nth_iota by lia. set (t := (x - nth j refs 0) / (nth (S j) refs 0 - nth j refs 0)).
  assert (P : 0 < nth (S j) refs 0 - nth j refs 0) by lra.
  assert (Ht : 0 <= t < 1).
  { unfold t. split; [apply Rmult_le_pos; [lra|left; apply Rinv_0_lt_compat; exact P]|]. apply (Rmult_lt_reg_r (nth (S j) refs 0 - nth j refs 0)); [exact P|].
    unfold Rdiv. rewrite Rmult_assoc, Rinv_l, Rmult_1_r by lra. lra. }
  replace (INR j + (INR (S j) - INR j) / (nth (S j) refs 0 - nth j refs 0) * (x - nth j refs 0)) with (INR j + t) by (rewrite S_INR; unfold t; field; lra).
  cbv zeta. rewrite (int_part_frac j t Ht). eexists. split; [reflexivity|]. intros c. cbv beta. rewrite Nat.min_l by lia. replace (j + 1)%nat with (S j) by lia. replace (INR j + t - INR j) with t by ring. reflexivity.
Qed.

Lemma interp_row_last tab refs : increasing refs -> refs <> [] ->
  exists r, interp_row tab refs (nth (List.length refs - 1) refs 0) = Some r /\ forall c, r c = row tab (List.length refs - 1) c.
Proof.
  intros Hi Hn. assert (L : (0 < List.length refs)%nat) by (destruct refs; [contradiction|cbn; lia]).
  unfold interp_row. rewrite (interp_last refs _ _ Hi) by (try rewrite map_length, seq_length; try reflexivity; assumption).
  rewrite nth_iota by lia. cbv zeta. rewrite <- (Rplus_0_r (INR (List.length refs - 1))). rewrite int_part_frac by lra.
  eexists. split; [reflexivity|]. intros c. cbv beta. rewrite Rplus_0_r. rewrite Rminus_diag_eq by reflexivity. ring.
Qed.

Lemma interp_row_knot tab refs j : increasing refs -> (j < List.length refs)%nat ->
  exists r, interp_row tab refs (nth j refs 0) = Some r /\ forall c, r c = row tab j c.
Proof.
  intros Hi Hj. destruct (Nat.eq_dec j (List.length refs - 1)) as [->|Ne].
  - apply interp_row_last; [exact Hi|]. intros ->. cbn in Hj. lia.
  - destruct (interp_row_in tab refs j (nth j refs 0) Hi ltac:(lia)) as (r & E & H).
    { split; [lra|]. apply Hi. lia. }
    exists r. split; [exact E|]. intros c. rewrite H. unfold Rdiv. rewrite Rminus_diag_eq by reflexivity. ring.
Qed.

Lemma linear_unfold N tab news ref out : linear_interp N tab news ref = Ok out ->
  let refs := match ref with None => last_column N tab | Some r => r end in
  increasing refs /\ refs <> [] /\ out = map (interp_row tab refs) news.
Proof.
  unfold linear_interp. intros H. set (refs := match ref with None => last_column N tab | Some r => r end) in *. cbv zeta in H |- *. destruct (increasingb refs) eqn:Ei; [|discriminate]. apply increasingb_spec in Ei.
  destruct refs as [|x0 l] eqn:Er; [discriminate|]. injection H as <-. split; [exact Ei|]. split; [discriminate|]. reflexivity.
Qed.

Lemma linear_interp_spec N tab news ref out : linear_interp N tab news ref = Ok out ->
  let refs := match ref with None => last_column N tab | Some r => r end in
  List.length out = List.length news /\ increasing refs /\
  forall q, (q < List.length news)%nat -> let x := nth q news 0 in
    ((x < nth 0 refs 0 \/ nth (List.length refs - 1) refs 0 < x) -> nth q out None = None) /\
    (forall j, (j < List.length refs)%nat -> x = nth j refs 0 -> exists r, nth q out None = Some r /\ forall c, r c = row tab j c) /\
    (forall j, (S j < List.length refs)%nat -> nth j refs 0 <= x <= nth (S j) refs 0 ->
       exists r, nth q out None = Some r /\ on_line (nth j refs 0) (nth (S j) refs 0) (row tab j) (row tab (S j)) x r).
Proof.
  intros H refs. destruct (linear_unfold _ _ _ _ _ H) as (Hi & Hn & ->). fold refs in Hi, Hn |- *.
  split; [apply map_length|]. split; [exact Hi|]. intros q Hq x.
  assert (E : nth q (map (interp_row tab refs) news) None = interp_row tab refs x).
  { rewrite (nth_indep _ None (interp_row tab refs 0)) by (rewrite map_length; exact Hq). apply map_nth. }
  rewrite E. split; [|split].
  - intros [L|L]; unfold interp_row; [rewrite interp_left by assumption|rewrite interp_right by (try rewrite map_length, seq_length; try reflexivity; assumption)]; reflexivity.
  - intros j Hj ->. apply interp_row_knot; assumption.
  - intros j Hj [L1 L2]. destruct L2 as [L2|L2].
    + destruct (interp_row_in tab refs j x Hi Hj (conj L1 L2)) as (r & Er & Hr). exists r. split; [exact Er|]. intros c. rewrite Hr. field. lra.
    + destruct (interp_row_knot tab refs (S j) Hi Hj) as (r & Er & Hr). rewrite L2. exists r. split; [exact Er|]. intros c. rewrite Hr. ring.
Qed.

Lemma linear_interp_ok N tab news ref : let refs := match ref with None => last_column N tab | Some r => r end in
  increasing refs -> refs <> [] -> exists out, linear_interp N tab news ref = Ok out.
Proof.
  intros refs Hi Hn. unfold linear_interp. fold refs. rewrite (proj2 (increasingb_spec refs) Hi). destruct refs; [contradiction|]. eexists. reflexivity.
Qed.

(** ---- Hermite ---- *)
Definition hermite_slope (x0 x1 y0 y1 d0 d1 x : R) : R :=
  let dx := x1 - x0 in let slope := (y1 - y0) / dx in let t := (d0 + d1 - 2 * slope) / dx in
  3 * (t / dx) * (x - x0) ^ 2 + 2 * ((slope - d0) / dx - t) * (x - x0) + d0.

Lemma hermite_cubic_ok x0 x1 y0 y1 d0 d1 : cubic (hermite_cubic x0 x1 y0 y1 d0 d1) (hermite_slope x0 x1 y0 y1 d0 d1).
Proof.
  unfold hermite_cubic, hermite_slope. cbv zeta. set (A := (d0 + d1 - 2 * ((y1 - y0) / (x1 - x0))) / (x1 - x0) / (x1 - x0)).
  set (B := ((y1 - y0) / (x1 - x0) - d0) / (x1 - x0) - (d0 + d1 - 2 * ((y1 - y0) / (x1 - x0))) / (x1 - x0)).
  exists A, (B - 3 * A * x0), (3 * A * x0 ^ 2 - 2 * B * x0 + d0), (y0 - d0 * x0 + B * x0 ^ 2 - A * x0 ^ 3). split; intros x; ring.
Qed.

Lemma hermite_ends x0 x1 y0 y1 d0 d1 : x0 <> x1 ->
  hermite_cubic x0 x1 y0 y1 d0 d1 x0 = y0 /\ hermite_cubic x0 x1 y0 y1 d0 d1 x1 = y1 /\
  hermite_slope x0 x1 y0 y1 d0 d1 x0 = d0 /\ hermite_slope x0 x1 y0 y1 d0 d1 x1 = d1.
Proof. intros H. unfold hermite_cubic, hermite_slope. repeat split; field; lra. Qed.

Lemma cubic_derivative p p' : cubic p p' -> forall x, derivable_pt_lim p x (p' x).
Proof.
  intros (a & b & c & d & H & H') x. apply (dlim_ext (fun x => a * x ^ 3 + b * x ^ 2 + c * x + d)); [intros; symmetry; apply H|].
  rewrite H'. eapply dlim_eq.
  - apply dlim_plus; [|apply dlim_const]. apply dlim_plus; [|apply dlim_scal; apply dlim_id]. apply dlim_plus; apply dlim_scal; apply (dlim_pow (fun t => t) x 1); apply dlim_id.
  - simpl. ring.
Qed.

Lemma interval_in : forall xs j k x, increasing xs -> (S j < List.length xs)%nat -> nth j xs 0 <= x ->
  (x < nth (S j) xs 0 \/ S (S j) = List.length xs) -> interval_of x xs k = (k + j)%nat.
Proof.
  induction xs as [|x0 xs IH]; intros j k x Hi Hj H1 H2; [cbn in Hj; lia|]. destruct xs as [|x1 xs]; [cbn in Hj; lia|].
  destruct xs as [|x2 xs].
  - cbn in *. lia.
  - change (interval_of x (x0 :: x1 :: x2 :: xs) k) with (if Rltb x x1 then k else interval_of x (x1 :: x2 :: xs) (S k)). destruct j as [|j].
    + destruct H2 as [H2|H2]; [|cbn in H2; lia]. cbn [nth] in H2. rewrite (proj2 (Rltb_true x x1)) by exact H2. lia.
    + rewrite (proj2 (Rltb_false x x1)).
      2:{ eapply Rle_trans; [|exact H1]. apply (increasing_le (x0 :: x1 :: x2 :: xs) 1 (S j) Hi). cbn in *. lia. }
      rewrite (IH j (S k) x (increasing_tl _ _ Hi)); [lia|cbn in *; lia|exact H1|]. destruct H2 as [H2|H2]; [left; exact H2|right; cbn in *; lia].
Qed.

Definition hermite_row (N : nat) (tab grad : list vec) (l : R) : vec :=
  let lam := last_column N tab in let dlam := last_column N grad in let j := interval_of l lam 0 in
  fun c => if Nat.ltb c (N - 1) then
      hermite_cubic (nth j lam 0) (nth (S j) lam 0) (row tab j c) (row tab (S j) c) (row grad j c / nth j dlam 0) (row grad (S j) c / nth (S j) dlam 0) l
    else l.

Lemma hermite_unfold N tab grad lams out : hermite_interp N tab grad lams = Ok out ->
  increasing (last_column N tab) /\ (2 <= List.length tab)%nat /\ (forall d, In d (last_column N grad) -> 0 < d) /\
  (forall l, In l lams -> hd 0 (last_column N tab) <= l <= last (last_column N tab) 0) /\ out = map (hermite_row N tab grad) lams.
Proof.
  unfold hermite_interp. cbv zeta. intros H. destruct (increasingb _) eqn:E1; [|discriminate]. apply increasingb_spec in E1.
  destruct (forallb (fun d => Rltb 0 d) (last_column N grad)) eqn:E2; [|discriminate]. destruct lams as [|l0 ls] eqn:El; [discriminate|]. rewrite <- El in *.
  destruct (forallb (fun l => Rleb l _) lams) eqn:E3; [|discriminate]. destruct (forallb (fun l => Rleb (hd 0 (last_column N tab)) l) lams) eqn:E4; [|discriminate].
  destruct (Nat.ltb (List.length tab) 2) eqn:E5; [discriminate|]. apply Nat.ltb_ge in E5. injection H as <-.
  split; [exact E1|]. split; [exact E5|]. split; [intros d Hd; rewrite forallb_forall in E2; apply Rltb_true; exact (E2 d Hd)|]. split; [|reflexivity].
  intros l Hl. rewrite forallb_forall in E3, E4. split; apply Rleb_true; [exact (E4 l Hl)|exact (E3 l Hl)].
Qed.

Lemma hermite_ok N tab grad lams : increasing (last_column N tab) -> (2 <= List.length tab)%nat -> (forall d, In d (last_column N grad) -> 0 < d) ->
  lams <> [] -> (forall l, In l lams -> hd 0 (last_column N tab) <= l <= last (last_column N tab) 0) ->
  hermite_interp N tab grad lams = Ok (map (hermite_row N tab grad) lams).
Proof.
  intros H1 H2 H3 H4 H5. unfold hermite_interp. cbv zeta. rewrite (proj2 (increasingb_spec _) H1).
  rewrite (proj2 (forallb_forall (fun d => Rltb 0 d) (last_column N grad))) by (intros d Hd; apply Rltb_true; exact (H3 d Hd)).
  destruct lams as [|l0 ls] eqn:El; [contradiction|]. rewrite <- El in *.
  rewrite (proj2 (forallb_forall (fun l => Rleb l (last (last_column N tab) 0)) lams)) by (intros l Hl; apply Rleb_true; apply (H5 l Hl)).
  rewrite (proj2 (forallb_forall (fun l => Rleb (hd 0 (last_column N tab)) l) lams)) by (intros l Hl; apply Rleb_true; apply (H5 l Hl)).
  destruct (Nat.ltb_spec (List.length tab) 2); [lia|]. reflexivity.
Qed.

Lemma nth_last_column N tab j : (j < List.length tab)%nat -> nth j (last_column N tab) 0 = row tab j (N - 1)%nat.
Proof. intros H. unfold last_column, row. rewrite (nth_indep _ 0 (vzero (N - 1)%nat)) by (rewrite map_length; exact H). apply (map_nth (fun r : vec => r (N - 1)%nat)). Qed.

(** value on a closed interval *)
Lemma hermite_row_in N tab grad j l c : increasing (last_column N tab) -> (S j < List.length tab)%nat -> (c < N - 1)%nat ->
  row tab j (N - 1)%nat <= l <= row tab (S j) (N - 1)%nat ->
  hermite_row N tab grad l c = hermite_cubic (row tab j (N - 1)%nat) (row tab (S j) (N - 1)%nat) (row tab j c) (row tab (S j) c)
     (row grad j c / nth j (last_column N grad) 0) (row grad (S j) c / nth (S j) (last_column N grad) 0) l.
Proof.
  intros Hi Hj Hc [L1 L2]. assert (LT : List.length (last_column N tab) = List.length tab) by apply map_length.
  assert (P : forall i, (S i < List.length tab)%nat -> row tab i (N - 1)%nat < row tab (S i) (N - 1)%nat).
  { intros i Hi2. rewrite <- !nth_last_column by lia. apply Hi. lia. }
  unfold hermite_row. cbv zeta. rewrite (proj2 (Nat.ltb_lt _ _) Hc).
  destruct (Rle_lt_or_eq_dec _ _ L2) as [L|L].
  - rewrite (interval_in _ j 0 l Hi); [|rewrite LT; exact Hj|rewrite nth_last_column by lia; exact L1|left; rewrite nth_last_column by lia; exact L].
    cbn [Nat.add]. rewrite !(nth_last_column N tab) by lia. reflexivity.
  - destruct (Nat.eq_dec (S (S j)) (List.length tab)) as [E|E].
    + rewrite (interval_in _ j 0 l Hi); [|rewrite LT; exact Hj|rewrite nth_last_column by lia; lra|right; rewrite LT; exact E].
      cbn [Nat.add]. rewrite !(nth_last_column N tab) by lia. reflexivity.
    + rewrite (interval_in _ (S j) 0 l Hi); [|rewrite LT; lia|rewrite nth_last_column by lia; lra|left; rewrite nth_last_column by lia; rewrite L; apply P; lia].
      cbn [Nat.add]. rewrite !(nth_last_column N tab) by lia. rewrite L. pose proof (P j Hj). pose proof (P (S j) ltac:(lia)).
      rewrite (proj1 (hermite_ends _ _ _ _ _ _ (Rlt_not_eq _ _ (P (S j) ltac:(lia))))).
      rewrite (proj1 (proj2 (hermite_ends _ _ _ _ _ _ (Rlt_not_eq _ _ (P j Hj))))). reflexivity.
Qed.

Lemma hermite_pieces N tab grad j c : increasing (last_column N tab) -> List.length grad = List.length tab -> (S j < List.length tab)%nat -> (c < N - 1)%nat ->
  exists p p', cubic p p' /\
    p (row tab j (N - 1)%nat) = row tab j c /\ p (row tab (S j) (N - 1)%nat) = row tab (S j) c /\
    p' (row tab j (N - 1)%nat) = row grad j c / row grad j (N - 1)%nat /\
    p' (row tab (S j) (N - 1)%nat) = row grad (S j) c / row grad (S j) (N - 1)%nat /\
    forall lams out, hermite_interp N tab grad lams = Ok out -> List.length out = List.length lams /\
      forall q, (q < List.length lams)%nat -> row out q (N - 1)%nat = nth q lams 0 /\
        (row tab j (N - 1)%nat <= nth q lams 0 <= row tab (S j) (N - 1)%nat -> row out q c = p (nth q lams 0)).
Proof.
  intros Hi HL Hj Hc.
  assert (LT : List.length (last_column N tab) = List.length tab) by apply map_length.
  assert (P : row tab j (N - 1)%nat < row tab (S j) (N - 1)%nat) by (rewrite <- !nth_last_column by lia; apply Hi; lia).
  destruct (hermite_ends _ _ (row tab j c) (row tab (S j) c) (row grad j c / nth j (last_column N grad) 0) (row grad (S j) c / nth (S j) (last_column N grad) 0) (Rlt_not_eq _ _ P)) as (E1 & E2 & E3 & E4).
  eexists _, _. split; [apply hermite_cubic_ok|]. split; [exact E1|]. split; [exact E2|].
  split; [rewrite E3, nth_last_column by lia; reflexivity|]. split; [rewrite E4, nth_last_column by lia; reflexivity|].
  intros lams out H. destruct (hermite_unfold _ _ _ _ _ H) as (_ & _ & _ & _ & ->). split; [apply map_length|]. intros q Hq.
  assert (E : row (map (hermite_row N tab grad) lams) q = hermite_row N tab grad (nth q lams 0)).
  { unfold row. rewrite (nth_indep _ vzero (hermite_row N tab grad 0)) by (rewrite map_length; exact Hq). apply map_nth. }
  rewrite E. split.
  - unfold hermite_row. cbv zeta. rewrite (proj2 (Nat.ltb_ge _ _)) by lia. reflexivity.
  - intros L. apply hermite_row_in; assumption.
Qed.

Lemma derivable_glue f p q a b x l : a < x < b -> (forall t, a <= t <= x -> f t = p t) -> (forall t, x <= t <= b -> f t = q t) ->
  derivable_pt_lim p x l -> derivable_pt_lim q x l -> derivable_pt_lim f x l.
Proof.
  intros Hx Hp Hq Dp Dq eps He. destruct (Dp eps He) as [d1 H1]. destruct (Dq eps He) as [d2 H2].
  assert (Hd : 0 < Rmin (Rmin d1 d2) (Rmin (x - a) (b - x))).
  { pose proof (cond_pos d1). pose proof (cond_pos d2). repeat apply Rmin_glb_lt; lra. }
  exists (mkposreal _ Hd). intros h Hh Hl. cbn in Hl.
  assert (L1 : Rabs h < d1) by (eapply Rlt_le_trans; [exact Hl|]; eapply Rle_trans; [apply Rmin_l|apply Rmin_l]).
  assert (L2 : Rabs h < d2) by (eapply Rlt_le_trans; [exact Hl|]; eapply Rle_trans; [apply Rmin_l|apply Rmin_r]).
  assert (L3 : Rabs h < x - a) by (eapply Rlt_le_trans; [exact Hl|]; eapply Rle_trans; [apply Rmin_r|apply Rmin_l]).
  assert (L4 : Rabs h < b - x) by (eapply Rlt_le_trans; [exact Hl|]; eapply Rle_trans; [apply Rmin_r|apply Rmin_r]).
  apply Rabs_def2 in L3. apply Rabs_def2 in L4.
  destruct (Rle_dec 0 h) as [S|S].
  - rewrite (Hq (x + h)) by lra. rewrite (Hq x) by lra. apply H2; assumption.
  - rewrite (Hp (x + h)) by lra. rewrite (Hp x) by lra. apply H1; assumption.
Qed.

Lemma hermite_tangent N tab grad j c f : increasing (last_column N tab) -> List.length grad = List.length tab -> (forall d, In d (last_column N grad) -> 0 < d) ->
  (0 < j)%nat -> (S j < List.length tab)%nat -> (c < N - 1)%nat ->
  (forall x out, hermite_interp N tab grad [x] = Ok out -> f x = row out 0 c) ->
  f (row tab j (N - 1)%nat) = row tab j c /\ derivable_pt_lim f (row tab j (N - 1)%nat) (row grad j c / row grad j (N - 1)%nat).
Proof.
  intros Hi HL Hg Hj0 Hj Hc Hf.
  assert (LT : List.length (last_column N tab) = List.length tab) by apply map_length.
  assert (P : forall i k, (i < k < List.length tab)%nat -> row tab i (N - 1)%nat < row tab k (N - 1)%nat) by (intros i k Hik; rewrite <- !nth_last_column by lia; apply Hi; lia).
  assert (P' : forall i k, (i <= k < List.length tab)%nat -> row tab i (N - 1)%nat <= row tab k (N - 1)%nat) by (intros i k Hik; rewrite <- !nth_last_column by lia; apply increasing_le; [exact Hi|lia]).
  assert (V : forall i x, (S i < List.length tab)%nat -> row tab i (N - 1)%nat <= x <= row tab (S i) (N - 1)%nat -> f x = hermite_row N tab grad x c).
  { intros i x Hi2 Hx. rewrite (Hf x (map (hermite_row N tab grad) [x])); [reflexivity|]. apply hermite_ok; [exact Hi|lia|exact Hg|discriminate|].
    intros l [<-|[]]. split.
    - replace (hd 0 (last_column N tab)) with (nth 0 (last_column N tab) 0) by (destruct (last_column N tab); reflexivity). rewrite nth_last_column by lia.
      eapply Rle_trans; [|apply Hx]. apply P'. lia.
    - rewrite last_nth by (intros E; rewrite E in LT; cbn in LT; lia). rewrite nth_last_column by lia. eapply Rle_trans; [apply Hx|]. apply P'. lia. }
  destruct j as [|j]; [lia|].
  destruct (hermite_pieces N tab grad j c Hi HL ltac:(lia) Hc) as (p & p' & C1 & A1 & A2 & A3 & A4 & A5).
  destruct (hermite_pieces N tab grad (S j) c Hi HL ltac:(lia) Hc) as (q & q' & C2 & B1 & B2 & B3 & B4 & B5).
  assert (W1 : forall x, row tab j (N - 1)%nat <= x <= row tab (S j) (N - 1)%nat -> f x = p x).
  { intros x Hx. assert (OK : hermite_interp N tab grad [x] = Ok (map (hermite_row N tab grad) [x])).
    { apply hermite_ok; [exact Hi|lia|exact Hg|discriminate|]. intros l [<-|[]]. split.
      - replace (hd 0 (last_column N tab)) with (nth 0 (last_column N tab) 0) by (destruct (last_column N tab); reflexivity). rewrite nth_last_column by lia. eapply Rle_trans; [|apply Hx]. apply P'. lia.
      - rewrite last_nth by (intros E; rewrite E in LT; cbn in LT; lia). rewrite nth_last_column by lia. eapply Rle_trans; [apply Hx|]. apply P'. lia. }
    rewrite (Hf x _ OK). destruct (A5 _ _ OK) as [_ Q]. apply (Q 0%nat ltac:(cbn; lia)). exact Hx. }
  assert (W2 : forall x, row tab (S j) (N - 1)%nat <= x <= row tab (S (S j)) (N - 1)%nat -> f x = q x).
  { intros x Hx. assert (OK : hermite_interp N tab grad [x] = Ok (map (hermite_row N tab grad) [x])).
    { apply hermite_ok; [exact Hi|lia|exact Hg|discriminate|]. intros l [<-|[]]. split.
      - replace (hd 0 (last_column N tab)) with (nth 0 (last_column N tab) 0) by (destruct (last_column N tab); reflexivity). rewrite nth_last_column by lia. eapply Rle_trans; [|apply Hx]. apply P'. lia.
      - rewrite last_nth by (intros E; rewrite E in LT; cbn in LT; lia). rewrite nth_last_column by lia. eapply Rle_trans; [apply Hx|]. apply P'. lia. }
    rewrite (Hf x _ OK). destruct (B5 _ _ OK) as [_ Q]. apply (Q 0%nat ltac:(cbn; lia)). exact Hx. }
  pose proof (P j (S j) ltac:(lia)). pose proof (P (S j) (S (S j)) ltac:(lia)).
  split; [rewrite W2 by lra; exact B1|].
  apply (derivable_glue f p q (row tab j (N - 1)%nat) (row tab (S (S j)) (N - 1)%nat)); [lra|exact W1|exact W2| |].
  - rewrite <- A4. apply cubic_derivative. exact C1.
  - rewrite <- B3. apply cubic_derivative. exact C2.
Qed.

(** ---- upsampling ---- *)
Lemma linspace_length s n : List.length (linspace0 s n) = n.
Proof. unfold linspace0. rewrite map_length, seq_length. reflexivity. Qed.

Lemma linspace_nth M n i : (1 <= n)%nat -> (2 <= M)%nat -> (i < (M - 1) * n + 1)%nat -> nth i (linspace0 (INR (M - 1)) ((M - 1) * n + 1)) 0 = INR i / INR n.
Proof.
  intros Hn HM Hi. unfold linspace0.
  match goal with |- nth i (map ?f _) 0 = _ => rewrite (nth_indep _ 0 (f 0%nat)) by (rewrite map_length, seq_length; exact Hi); rewrite (map_nth f) end.
  rewrite seq_nth by exact Hi. cbn [Nat.add]. assert (L : (1 < (M - 1) * n + 1)%nat) by nia. rewrite (proj2 (Nat.ltb_lt _ _) L). cbn [andb].
  assert (N0 : INR n <> 0) by (apply not_0_INR; lia). assert (M0 : INR (M - 1) <> 0) by (apply not_0_INR; lia).
  destruct (Nat.eqb_spec i ((M - 1) * n + 1 - 1)) as [->|Ne]; replace ((M - 1) * n + 1 - 1)%nat with ((M - 1) * n)%nat by lia; rewrite mult_INR; field; try split; assumption.
Qed.

Lemma iota_increasing M : increasing (map INR (seq 0 M)).
Proof. intros i j H. rewrite map_length, seq_length in H. rewrite !nth_iota by lia. apply lt_INR. lia. Qed.

Lemma upsample_spec N tab grad n out : (1 <= n)%nat -> (1 <= N)%nat -> List.length grad = List.length tab -> hermite_upsample N tab grad n = Ok out ->
  List.length out = ((List.length tab - 1) * n + 1)%nat /\
  forall j, (j < List.length tab)%nat -> forall c, (c < N)%nat -> row out (j * n) c = row tab j c.
Proof.
  intros Hn HN HG H. unfold hermite_upsample in H. destruct tab as [|r0 tab'] eqn:Et; [discriminate|]. rewrite <- Et in *.
  set (steps := linspace0 (INR (List.length tab - 1)) ((List.length tab - 1) * n + 1)) in H.
  set (g := fun s => match np_interp s (map INR (seq 0 (List.length tab))) (last_column N tab) with Some l => l | None => 0 end) in H.
  destruct (hermite_unfold _ _ _ _ _ H) as (Hi & H2 & Hg & Hr & Ho).
  assert (LO : List.length out = ((List.length tab - 1) * n + 1)%nat) by (rewrite Ho, !map_length; apply linspace_length).
  split; [exact LO|]. intros j Hj c Hc.
  assert (Hq : (j * n < List.length steps)%nat) by (unfold steps; rewrite linspace_length; nia).
  assert (LT : List.length (last_column N tab) = List.length tab) by apply map_length.
  assert (G : nth (j * n) (map g steps) 0 = row tab j (N - 1)%nat).
  { rewrite (nth_indep _ 0 (g 0)) by (rewrite map_length; exact Hq). rewrite map_nth. unfold steps. rewrite linspace_nth by (try assumption; unfold steps in Hq; rewrite linspace_length in Hq; exact Hq).
    rewrite mult_INR. replace (INR j * INR n / INR n) with (INR j) by (field; apply not_0_INR; lia). unfold g.
    destruct (Nat.eq_dec j (List.length tab - 1)) as [->|Ne].
    - rewrite (interp_last (map INR (seq 0 (List.length tab))) (last_column N tab)); rewrite ?map_length, ?seq_length; [|apply iota_increasing|exact LT|destruct tab; [cbn in Hj; lia|discriminate]|rewrite nth_iota by lia; reflexivity].
      apply nth_last_column. lia.
    - rewrite (interp_in (map INR (seq 0 (List.length tab))) (last_column N tab) j); rewrite ?map_length, ?seq_length; [|apply iota_increasing|exact LT|lia|rewrite !nth_iota by lia; split; [lra|apply lt_INR; lia]].
      rewrite !nth_iota by lia. replace (INR j - INR j) with 0 by ring. rewrite Rmult_0_r, Rplus_0_r. apply nth_last_column. lia. }
  assert (P : forall i k, (i <= k < List.length tab)%nat -> row tab i (N - 1)%nat <= row tab k (N - 1)%nat) by (intros i k Hik; rewrite <- !nth_last_column by lia; apply increasing_le; [exact Hi|lia]).
  set (i := if Nat.eqb (S j) (List.length tab) then (j - 1)%nat else j).
  assert (Hii : (S i < List.length tab)%nat /\ (i = j \/ S i = j)) by (unfold i; destruct (Nat.eqb_spec (S j) (List.length tab)); lia). clearbody i.
  assert (Hq' : (j * n < List.length (map g steps))%nat) by (rewrite map_length; exact Hq).
  destruct (Nat.eq_dec c (N - 1)) as [->|Ne].
  - assert (E : row out (j * n) = hermite_row N tab grad (nth (j * n) (map g steps) 0)).
    { rewrite Ho. unfold row. rewrite (nth_indep _ vzero (hermite_row N tab grad 0)) by (rewrite map_length; exact Hq'). apply map_nth. }
    rewrite E, G. unfold hermite_row. cbv zeta. rewrite (proj2 (Nat.ltb_ge _ _)) by lia. reflexivity.
  - destruct (hermite_pieces N tab grad i c Hi HG (proj1 Hii) ltac:(lia)) as (p & p' & _ & A1 & A2 & _ & _ & A5).
    destruct (A5 _ _ H) as [_ Q]. destruct (Q (j * n)%nat Hq') as [_ Q2]. rewrite Q2; rewrite G.
    + destruct (proj2 Hii) as [E|E]; rewrite <- E; assumption.
    + destruct (proj2 Hii) as [E|E]; rewrite <- E; split; apply P; lia.
Qed.

(** ---- saving ---- *)
Lemma savez_npz t : savez_name (t ++ ".npz")%string = (t ++ ".npz")%string.
Proof.
  unfold savez_name, ends_with.
  assert (L : String.length (t ++ ".npz") = (String.length t + 4)%nat) by (induction t; [reflexivity|cbn; rewrite IHt; reflexivity]).
  rewrite L. cbn [String.length]. replace (String.length t + 4 - 4)%nat with (String.length t) by lia.
  rewrite (proj2 (Nat.leb_le 4 (String.length t + 4))) by lia. cbn [andb].
  assert (S : substring (String.length t) 4 (t ++ ".npz") = ".npz"%string) by (clear; induction t; [reflexivity|cbn; exact IHt]).
  rewrite S. destruct (string_dec ".npz" ".npz"); [reflexivity|contradiction].
Qed.

Lemma vstack_ok rows r : Forall (fun q => List.length q = List.length r) rows -> vstack rows r = Ok (rows ++ [r]).
Proof.
  intros H. unfold vstack. rewrite (proj2 (forallb_forall _ rows)); [reflexivity|]. intros q Hq. apply Nat.eqb_eq. rewrite Forall_forall in H. exact (H q Hq).
Qed.

Lemma saves_from fname w : savez_name fname = fname -> forall calls fs xs ds, fs fname = Some (Whole xs ds) ->
  Forall (fun q => List.length q = w) xs -> Forall (fun q => List.length q = w) ds ->
  Forall (fun c => List.length (fst c) = w /\ List.length (snd c) = w) calls ->
  exists fs', continuation_saves fs calls fname = Ok fs' /\ fs' fname = Some (Whole (xs ++ map fst calls) (ds ++ map snd calls)) /\ (forall g, g <> fname -> fs' g = fs g).
Proof.
  intros Hn. induction calls as [|[x d] calls IH]; intros fs xs ds Hf Hx Hd Hc.
  - exists fs. cbn. rewrite !app_nil_r. repeat split; assumption.
  - inversion_clear Hc as [|? ? [H1 H2] H3]. cbn [fst snd] in *. cbn [continuation_saves]. unfold continuation_save, save_data. rewrite Hf.
    rewrite (vstack_ok xs x) by (eapply Forall_impl; [|exact Hx]; cbv beta; intros; congruence). cbn [bind].
    rewrite (vstack_ok ds d) by (eapply Forall_impl; [|exact Hd]; cbv beta; intros; congruence). cbn [bind]. rewrite Hn.
    destruct (IH (set_file fs fname (Whole (xs ++ [x]) (ds ++ [d]))) (xs ++ [x]) (ds ++ [d])) as (fs' & E & F & G).
    + unfold set_file. destruct (string_dec fname fname); [reflexivity|contradiction].
    + apply Forall_app. split; [exact Hx|constructor; [exact H1|constructor]].
    + apply Forall_app. split; [exact Hd|constructor; [exact H2|constructor]].
    + exact H3.
    + exists fs'. split; [exact E|]. split; [rewrite F; cbn [map fst snd]; rewrite <- !app_assoc; reflexivity|].
      intros g Hg. rewrite (G g Hg). unfold set_file. destruct (string_dec g fname); [contradiction|reflexivity].
Qed.

Lemma saves_new t w calls fs : let fname := (t ++ ".npz")%string in fs fname = None -> calls <> [] ->
  Forall (fun c => List.length (fst c) = w /\ List.length (snd c) = w) calls ->
  exists fs', continuation_saves fs calls fname = Ok fs' /\ fs' fname = Some (Whole (map fst calls) (map snd calls)) /\ (forall g, g <> fname -> fs' g = fs g).
Proof.
  intros fname Hf Hn Hc. destruct calls as [|[x d] calls]; [contradiction|]. inversion_clear Hc as [|? ? [H1 H2] H3]. cbn [fst snd] in *.
  cbn [continuation_saves]. unfold continuation_save, save_data. rewrite Hf. cbn [bind]. unfold fname at 1. rewrite savez_npz. fold fname.
  destruct (saves_from fname w (savez_npz t) calls (set_file fs fname (Whole [x] [d])) [x] [d]) as (fs' & E & F & G).
  - unfold set_file. destruct (string_dec fname fname); [reflexivity|contradiction].
  - constructor; [exact H1|constructor].
  - constructor; [exact H2|constructor].
  - exact H3.
  - exists fs'. split; [exact E|]. split; [exact F|]. intros g Hg. rewrite (G g Hg). unfold set_file. destruct (string_dec g fname); [contradiction|reflexivity].
Qed.

Lemma saves_no_suffix : exists fname calls fs', continuation_saves (fun _ => None) calls fname = Ok fs' /\ List.length calls = 2%nat /\
  fs' fname = None /\ fs' (savez_name fname) = Some (Whole [fst (nth 1 calls ([], []))] [snd (nth 1 calls ([], []))]).
Proof. exists "run"%string, [([1], [2]); ([3], [4])]. eexists. split; [reflexivity|]. repeat split. Qed.

Lemma killed_loses : exists t calls x d fs fs', let fname := (t ++ ".npz")%string in
  continuation_saves (fun _ => None) calls fname = Ok fs /\ fs fname = Some (Whole (map fst calls) (map snd calls)) /\ calls <> [] /\
  In fs' (save_killed fs x d fname) /\ fs' fname = Some Torn /\ forall y e, continuation_save fs' y e fname = Err ValueError.
Proof.
  exists "run"%string, [([1], [2])], [3], [4]. eexists _, _. cbv zeta. split; [reflexivity|]. split; [reflexivity|]. split; [discriminate|].
  split; [right; left; reflexivity|]. split; [reflexivity|]. intros; reflexivity.
Qed.

Lemma find_interval : forall l x, l <> [] -> nth 0 l 0 <= x -> x <= nth (List.length l - 1) l 0 ->
  x = nth (List.length l - 1) l 0 \/ exists j, (S j < List.length l)%nat /\ nth j l 0 <= x < nth (S j) l 0.
Proof.
  induction l as [|a l IH]; intros x Hn H1 H2; [contradiction|]. destruct l as [|b l].
  - left. cbn in *. lra.
  - assert (E : nth (List.length (a :: b :: l) - 1) (a :: b :: l) 0 = nth (List.length (b :: l) - 1) (b :: l) 0) by (cbn; rewrite Nat.sub_0_r; reflexivity).
    rewrite E in *. destruct (Rlt_le_dec x b) as [L|L].
    + right. exists 0%nat. split; [cbn; lia|]. cbn in *. lra.
    + destruct (IH x ltac:(discriminate) L H2) as [Q|(j & J1 & J2)]; [left; exact Q|]. right. exists (S j). split; [cbn in *; lia|exact J2].
Qed.

Lemma interp_bounds xp fp x : increasing xp -> increasing fp -> List.length fp = List.length xp -> xp <> [] ->
  nth 0 xp 0 <= x <= nth (List.length xp - 1) xp 0 -> exists v, np_interp x xp fp = Some v /\ nth 0 fp 0 <= v <= nth (List.length xp - 1) fp 0.
Proof.
  intros Hx Hf Hl Hn [L1 L2]. assert (P : (0 < List.length xp)%nat) by (destruct xp; [contradiction|cbn; lia]).
  destruct (find_interval xp x Hn L1 L2) as [E|(j & J1 & J2)].
  - eexists. split; [apply interp_last; assumption|]. split; [apply increasing_le; [exact Hf|lia]|lra].
  - eexists. split; [apply (interp_in xp fp j); assumption|].
    pose proof (increasing_le fp 0 j Hf ltac:(lia)). pose proof (increasing_le fp (S j) (List.length xp - 1) Hf ltac:(lia)). pose proof (Hf j (S j) ltac:(lia)).
    set (t := (x - nth j xp 0) / (nth (S j) xp 0 - nth j xp 0)).
    assert (D : 0 < nth (S j) xp 0 - nth j xp 0) by lra.
    assert (Ht : 0 <= t <= 1).
    { unfold t. split; [apply Rmult_le_pos; [lra|left; apply Rinv_0_lt_compat; exact D]|]. apply (Rmult_le_reg_r (nth (S j) xp 0 - nth j xp 0)); [exact D|].
      unfold Rdiv. rewrite Rmult_assoc, Rinv_l, Rmult_1_r by lra. lra. }
    replace (nth j fp 0 + (nth (S j) fp 0 - nth j fp 0) / (nth (S j) xp 0 - nth j xp 0) * (x - nth j xp 0)) with (nth j fp 0 + (nth (S j) fp 0 - nth j fp 0) * t) by (unfold t; field; lra).
    nra.
Qed.

Lemma upsample_ok N tab grad n : (1 <= n)%nat -> increasing (last_column N tab) -> (2 <= List.length tab)%nat -> (forall d, In d (last_column N grad) -> 0 < d) ->
  exists out, hermite_upsample N tab grad n = Ok out.
Proof.
  intros Hn Hi H2 Hg. unfold hermite_upsample. destruct tab as [|r0 tab'] eqn:Et; [cbn in H2; lia|]. rewrite <- Et in *. cbv zeta.
  eexists. apply hermite_ok; [exact Hi|exact H2|exact Hg| |].
  - intros E. apply (f_equal (@List.length R)) in E. rewrite map_length, linspace_length in E. rewrite Nat.add_comm in E. discriminate E.
  - assert (LT : List.length (last_column N tab) = List.length tab) by apply map_length.
    intros l Hl. apply in_map_iff in Hl. destruct Hl as (s & <- & Hs). apply (In_nth _ _ 0) in Hs. destruct Hs as (i & Hil & <-). rewrite linspace_length in Hil.
    rewrite linspace_nth by assumption.
    destruct (interp_bounds (map INR (seq 0 (List.length tab))) (last_column N tab) (INR i / INR n)) as (v & E & V).
    + apply iota_increasing.
    + exact Hi.
    + rewrite map_length, seq_length. exact LT.
    + intros E. apply (f_equal (@List.length R)) in E. rewrite map_length, seq_length in E. cbn in E. lia.
    + rewrite map_length, seq_length, !nth_iota by lia. assert (0 < INR n) by (apply lt_0_INR; lia). cbn [INR]. split.
      * apply Rmult_le_pos; [apply pos_INR|left; apply Rinv_0_lt_compat; assumption].
      * apply (Rmult_le_reg_r (INR n)); [assumption|]. unfold Rdiv. rewrite Rmult_assoc, Rinv_l, Rmult_1_r, <- mult_INR by lra. apply le_INR. lia.
    + rewrite E. rewrite map_length, seq_length in V. rewrite last_nth by (intros Q; rewrite Q in LT; cbn [List.length] in LT; lia). rewrite LT.
      replace (hd 0 (last_column N tab)) with (nth 0 (last_column N tab) 0) by (destruct (last_column N tab); reflexivity). exact V.
Qed.
