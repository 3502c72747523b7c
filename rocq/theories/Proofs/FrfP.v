From Coq Require Import Reals List Arith Bool ZArith Lia Lra Psatz FunctionalExtensionality.
From Verif.Lib Require Import RSum Calc LinAlg Py.
From Verif.Spec Require Import Calculus Harmonic Elements System.
From Verif.Model Require Import Jenkins Harmonic LocalForces Aft VibSys.
From Verif.Proofs Require Import HarmonicP FourierP HarmonicOpsP AftP ElementsP VibSysP VibControlP VprnmP BaseP.
Import ListNotations.
Open Scope R_scope.

Lemma modes_complete N K M wnsq V : all_modes N K M wnsq V ->
  forall f i, (i < N)%nat -> rsum N (fun m => matvec N M (fun j => V j m) i * vecmat N f V m) = f i.
Proof.
  intros (_ & _ & Nrm) f i Hi.
  assert (I : is_inverse N (transpose V) (fun i l => matvec N M (fun j => V j l) i)).
  { intros m l Hm Hl. unfold matmul, transpose. specialize (Nrm m l Hm Hl). unfold mid. rewrite <- Nrm. reflexivity. }
  apply inverse_comm in I.
  rewrite <- (matvec_inverse N (fun i l => matvec N M (fun j => V j l) i) (transpose V) f i I Hi).
  unfold matvec at 2. apply rsum_ext. intros m Hm. f_equal. unfold vecmat, matvec, transpose. apply rsum_ext. intros; ring.
Qed.

(** the modal sums solve the harmonic equations *)
Lemma modal_solution N K M wnsq V a b w fc fs : all_modes N K M wnsq V -> no_resonance N a b w wnsq ->
  let z := fun m => modal_zeta (a, b) (sqrt (wnsq m)) in
  let xc := matvec N V (fun m => modal_cos (sqrt (wnsq m)) w (z m) (vecmat N fc V m) (vecmat N fs V m)) in
  let xs := matvec N V (fun m => modal_sin (sqrt (wnsq m)) w (z m) (vecmat N fc V m) (vecmat N fs V m)) in
  forall i, (i < N)%nat ->
    matvec N K xc i - w ^ 2 * matvec N M xc i + w * (a * matvec N M xs i + b * matvec N K xs i) = fc i /\
    matvec N K xs i - w ^ 2 * matvec N M xs i - w * (a * matvec N M xc i + b * matvec N K xc i) = fs i.
Proof.
  intros HA HR z xc xs i Hi. pose proof HA as (Pos & Eig & _).
  set (qc := fun m => modal_cos (sqrt (wnsq m)) w (z m) (vecmat N fc V m) (vecmat N fs V m)) in *.
  set (qs := fun m => modal_sin (sqrt (wnsq m)) w (z m) (vecmat N fc V m) (vecmat N fs V m)) in *.
  assert (AV : forall (A : mat) q, matvec N A (matvec N V q) i = rsum N (fun m => matvec N A (fun j => V j m) i * q m)).
  { intros A q. rewrite <- matvec_matmul. unfold matvec, matmul. reflexivity. }
  assert (KV : forall q, matvec N K (matvec N V q) i = rsum N (fun m => matvec N M (fun j => V j m) i * (wnsq m * q m))).
  { intros q. rewrite AV. apply rsum_ext. intros m Hm. unfold matvec at 1. rewrite Eig by assumption. unfold matvec. ring. }
  assert (Mod : forall m, (m < N)%nat ->
     (wnsq m - w ^ 2) * qc m + w * (a + b * wnsq m) * qs m = vecmat N fc V m /\
     (wnsq m - w ^ 2) * qs m - w * (a + b * wnsq m) * qc m = vecmat N fs V m).
  { intros m Hm. specialize (HR m Hm). unfold qc, qs, modal_cos, modal_sin, z, modal_zeta. cbn [fst snd].
    set (f := vecmat N fc V m). set (g := vecmat N fs V m).
    assert (S2 : sqrt (wnsq m) ^ 2 = wnsq m) by (rewrite <- Rsqr_pow2; apply Rsqr_sqrt; specialize (Pos m Hm); lra).
    assert (S0 : sqrt (wnsq m) <> 0) by (apply sqrt_nz; specialize (Pos m Hm); lra).
    replace (2 * sqrt (wnsq m) * w * (a / sqrt (wnsq m) / 2 + b * sqrt (wnsq m) / 2)) with (w * (a + b * sqrt (wnsq m) ^ 2)) by (field; exact S0).
    rewrite !S2. set (p := wnsq m - w ^ 2) in *. set (q := w * (a + b * wnsq m)) in *. split; field; exact HR. }
  unfold xc, xs. split.
  - rewrite !KV, !AV. rewrite <- (modes_complete N K M wnsq V HA fc i Hi).
    rewrite <- !rsum_scal_l. rewrite <- rsum_minus, <- rsum_plus, <- rsum_scal_l, <- rsum_plus. apply rsum_ext. intros m Hm.
    rewrite <- (proj1 (Mod m Hm)). ring.
  - rewrite !KV, !AV. rewrite <- (modes_complete N K M wnsq V HA fs i Hi).
    rewrite <- !rsum_scal_l. rewrite <- rsum_minus, <- rsum_plus, <- rsum_scal_l, <- rsum_minus. apply rsum_ext. intros m Hm.
    rewrite <- (proj2 (Mod m Hm)). ring.
Qed.

(** ---- motion with one harmonic ---- *)
Lemma motion_1 N U w j t : motion N [1%nat] U w j t = U j * cos (w * t) + U (N + j)%nat * sin (w * t).
Proof.
  unfold motion, series, dof_coefs, basis. cbn [components flat_map app length rsum nth comp_fun]. change (INR 1) with 1.
  rewrite !Rmult_1_l. cbn [Nat.mul Nat.add]. rewrite Nat.add_0_r. ring.
Qed.

Lemma motion_1_cs N xc xs w j t : (j < N)%nat -> motion N [1%nat] (cos_sin N xc xs) w j t = xc j * cos (w * t) + xs j * sin (w * t).
Proof. intros Hj. rewrite motion_1. unfold cos_sin. rewrite ltb_t, ltb_f by lia. replace (N + j - N)%nat with j by lia. reflexivity. Qed.

Lemma eom_1 N M C K xc xs w (g : nat -> R -> R) :
  (forall i t, (i < N)%nat -> g i t =
     (matvec N K xc i - w ^ 2 * matvec N M xc i + w * matvec N C xs i) * cos (w * t)
     + (matvec N K xs i - w ^ 2 * matvec N M xs i - w * matvec N C xc i) * sin (w * t)) ->
  equation_of_motion N [1%nat] M C K (cos_sin N xc xs) w (fun _ _ => 0) g.
Proof.
  intros H.
  assert (D1 : forall t, derivable_pt_lim (fun s => w * s) t w) by (intros t; eapply dlim_eq; [apply dlim_scal; apply dlim_id|ring]).
  assert (DC : forall t, derivable_pt_lim (fun s => cos (w * s)) t (- sin (w * t) * w)) by (intros t; apply (dlim_comp (fun s => w * s) cos t w); [apply D1|apply derivable_pt_lim_cos]).
  assert (DS : forall t, derivable_pt_lim (fun s => sin (w * s)) t (cos (w * t) * w)) by (intros t; apply (dlim_comp (fun s => w * s) sin t w); [apply D1|apply derivable_pt_lim_sin]).
  exists (fun j t => w * (- xc j * sin (w * t) + xs j * cos (w * t))), (fun j t => - w ^ 2 * (xc j * cos (w * t) + xs j * sin (w * t))).
  split; [|split].
  - intros j t Hj. apply (dlim_ext (fun t => xc j * cos (w * t) + xs j * sin (w * t))); [intros; symmetry; apply motion_1_cs; exact Hj|].
    eapply dlim_eq; [apply dlim_plus; apply dlim_scal; [apply DC|apply DS]|ring].
  - intros j t Hj. eapply dlim_eq; [apply dlim_scal; apply dlim_plus; apply dlim_scal; [apply DS|apply DC]|ring].
  - intros i t Hi. rewrite Rplus_0_r, H by exact Hi. unfold matvec.
    transitivity (rsum N (fun j => (K i j * xc j - w ^ 2 * (M i j * xc j) + w * (C i j * xs j)) * cos (w * t)
      + (K i j * xs j - w ^ 2 * (M i j * xs j) - w * (C i j * xc j)) * sin (w * t))).
    2: { rewrite (rsum_plus N (fun j => (K i j * xc j - w ^ 2 * (M i j * xc j) + w * (C i j * xs j)) * cos (w * t))).
      rewrite !rsum_scal_r. rewrite rsum_plus, !rsum_minus, !rsum_scal_l. reflexivity. }
    apply rsum_ext. intros j Hj. rewrite motion_1_cs by exact Hj. ring.
Qed.

Lemma linear_frf_solves s w Fl eigs neigs Flsin a b : vs_ab s = Some (a, b) -> (vs_N s <= neigs)%nat ->
  let N := vs_N s in
  let fs := match Flsin with Some v => v | None => vzero end in
  all_modes N (vs_K s) (vs_M s) (fst (eigs (vs_K s) (vs_M s) N)) (snd (eigs (vs_K s) (vs_M s) N)) ->
  no_resonance N a b w (fst (eigs (vs_K s) (vs_M s) N)) ->
  exists xc xs, linear_frf s w Fl eigs neigs Flsin = Ok (xc, xs) /\
    equation_of_motion N [1%nat] (vs_M s) (fun i j => a * vs_M s i j + b * vs_K s i j) (vs_K s) (cos_sin N xc xs) w
      (fun _ _ => 0) (fun i t => Fl i * cos (w * t) + fs i * sin (w * t)).
Proof.
  intros Hab Hk N fs HA HR. unfold linear_frf. rewrite Hab, Nat.min_r by exact Hk. fold N fs.
  destruct (eigs (vs_K s) (vs_M s) N) as [wnsq V] eqn:EE. cbn [fst snd] in HA, HR.
  eexists _, _. split; [reflexivity|]. apply eom_1. intros i t Hi.
  assert (CC : forall x, matvec N (fun i j => a * vs_M s i j + b * vs_K s i j) x i = a * matvec N (vs_M s) x i + b * matvec N (vs_K s) x i).
  { intros x. unfold matvec. rewrite <- !rsum_scal_l, <- rsum_plus. apply rsum_ext. intros; ring. }
  rewrite !CC. destruct (modal_solution N (vs_K s) (vs_M s) wnsq V a b w Fl fs HA HR i Hi) as [A B].
  rewrite A, B. reflexivity.
Qed.

(** ---- base excitation ---- *)
Lemma mask_index_selected p n k : mask_index p n k = nth k (selected p n) O. Proof. reflexivity. Qed.

Lemma rsum_free_base N (bf : nat -> bool) b (f : vec) : selected bf N = [b] ->
  rsum N f = rsum (length (selected (fun d => negb (bf d)) N)) (fun l => f (nth l (selected (fun d => negb (bf d)) N) O)) + f b.
Proof.
  intros Hb. rewrite <- (rsum_selected (fun d => negb (bf d)) N (fun j _ => f j)).
  transitivity (rsum N (fun j => if negb (bf j) then f j else 0) + rsum N (fun j => if bf j then f j else 0)).
  - rewrite <- rsum_plus. apply rsum_ext. intros j Hj. destruct (bf j); cbn [negb]; ring.
  - f_equal. rewrite (rsum_selected bf N (fun j _ => f j)), Hb. cbn. ring.
Qed.

Lemma linear_frf_base_solves s w Ub bf eigs neigs a b ib :
  let N := vs_N s in
  let free := selected (fun d => negb (bf d)) N in
  let nf := length free in
  let fr := fun i => nth i free O in
  let Kf := fun i j => vs_K s (fr i) (fr j) in
  let Mf := fun i j => vs_M s (fr i) (fr j) in
  vs_ab s = Some (a, b) -> (nf <= neigs)%nat ->
  selected bf N = [ib] ->
  (forall i j, (i < N)%nat -> (j < N)%nat -> vs_C s i j = a * vs_M s i j + b * vs_K s i j) ->
  (forall i, (i < N)%nat -> bf i = false -> vs_M s i ib = 0) ->
  all_modes nf Kf Mf (fst (eigs Kf Mf nf)) (snd (eigs Kf Mf nf)) ->
  no_resonance nf a b w (fst (eigs Kf Mf nf)) ->
  exists xc xs, linear_frf_base s w Ub bf eigs neigs = Ok (xc, xs) /\
    forall yc ys, yc ib = Ub O -> ys ib = Ub 1%nat ->
      (forall l, (l < nf)%nat -> yc (fr l) = xc l /\ ys (fr l) = xs l) ->
      base_motion_equation N bf (vs_M s) (vs_C s) (vs_K s) yc ys w.
Proof.
  intros N free nf fr Kf Mf Hab Hk Hb HC HM HA HR. unfold linear_frf_base, frf_base_column. fold N.
  change (mask_rank (fun d => negb (bf d)) N) with nf. rewrite Nat.min_r by exact Hk.
  change (fun i j => vs_K s (mask_index (fun d => negb (bf d)) N i) (mask_index (fun d => negb (bf d)) N j)) with Kf.
  change (fun i j => vs_M s (mask_index (fun d => negb (bf d)) N i) (mask_index (fun d => negb (bf d)) N j)) with Mf.
  destruct (eigs Kf Mf nf) as [wnsq V] eqn:EE. cbn [fst snd] in HA, HR. rewrite Hab.
  rewrite mask_index_selected, Hb. cbn [nth].
  set (fc := fun i : nat => - vs_K s (mask_index (fun d => negb (bf d)) N i) ib * Ub 0%nat - vs_C s (mask_index (fun d => negb (bf d)) N i) ib * Ub 1%nat * w).
  set (fs := fun i : nat => - vs_K s (mask_index (fun d => negb (bf d)) N i) ib * Ub 1%nat + vs_C s (mask_index (fun d => negb (bf d)) N i) ib * Ub 0%nat * w).
  eexists _, _. split; [reflexivity|]. intros yc ys Hc Hs Hl.
  pose proof (modal_solution nf Kf Mf wnsq V a b w fc fs HA HR) as MS. cbv zeta in MS. cbv beta in Hl.
  match type of MS with forall i, _ -> matvec nf Kf ?x i - _ + _ = _ /\ matvec nf Kf ?y i - _ - _ = _ => set (xc := x) in *; set (xs := y) in * end.
  unfold base_motion_equation.
  exists (fun i t => if bf i then (matvec N (vs_K s) yc i - w ^ 2 * matvec N (vs_M s) yc i + w * matvec N (vs_C s) ys i) * cos (w * t)
     + (matvec N (vs_K s) ys i - w ^ 2 * matvec N (vs_M s) ys i - w * matvec N (vs_C s) yc i) * sin (w * t) else 0).
  split; [intros i t Hi E; rewrite E; reflexivity|]. apply eom_1. intros i t Hi. destruct (bf i) eqn:E; [reflexivity|].
  assert (Hib : (ib < N)%nat).
  { assert (L : (0 < length (selected bf N))%nat) by (rewrite Hb; cbn; lia). destruct (selected_in bf N 0 L) as [P _]. rewrite Hb in P. exact P. }
  set (p := fun d => negb (bf d)). assert (Pi : p i = true) by (unfold p; rewrite E; reflexivity).
  set (r := mask_rank p i). assert (Hr : (r < nf)%nat) by (exact (rank_lt p i N Hi Pi)).
  assert (Fr : fr r = i) by (exact (nth_selected_rank p N i Hi Pi)).
  assert (SPL : forall (A : mat) y x, (forall l, (l < nf)%nat -> y (fr l) = x l) ->
     matvec N A y i = matvec nf (fun i j => A (fr i) (fr j)) x r + A i ib * y ib).
  { intros A y x Hy. unfold matvec. rewrite (rsum_free_base N bf ib _ Hb). f_equal. fold free. fold nf. apply rsum_ext. intros l Hl'.
    change (nth l free O) with (fr l). rewrite Hy by exact Hl'. rewrite Fr. reflexivity. }
  assert (Xc : forall l, (l < nf)%nat -> yc (fr l) = xc l) by (intros l Hl'; apply Hl; exact Hl').
  assert (Xs : forall l, (l < nf)%nat -> ys (fr l) = xs l) by (intros l Hl'; apply Hl; exact Hl').
  rewrite !(SPL _ yc xc Xc), !(SPL _ ys xs Xs), Hc, Hs. rewrite (HM i Hi E).
  assert (CC : forall x, matvec nf (fun i j => vs_C s (fr i) (fr j)) x r = a * matvec nf Mf x r + b * matvec nf Kf x r).
  { intros x. unfold matvec. rewrite <- !rsum_scal_l, <- rsum_plus. apply rsum_ext. intros j Hj.
    rewrite HC; [unfold Mf, Kf; ring|apply (proj1 (selected_in _ _ _ Hr))|apply (proj1 (selected_in _ _ _ Hj))]. }
  fold Kf. fold Mf. rewrite !CC. destruct (MS r Hr) as [A B].
  assert (F1 : fc r = - vs_K s i ib * Ub 0%nat - vs_C s i ib * Ub 1%nat * w) by (unfold fc; change (mask_index (fun d => negb (bf d)) N r) with (fr r); rewrite Fr; reflexivity).
  assert (F2 : fs r = - vs_K s i ib * Ub 1%nat + vs_C s i ib * Ub 0%nat * w) by (unfold fs; change (mask_index (fun d => negb (bf d)) N r) with (fr r); rewrite Fr; reflexivity).
  rewrite F1 in A. rewrite F2 in B.
  set (k1 := matvec nf Kf xc r) in *. set (k2 := matvec nf Kf xs r) in *. set (m1 := matvec nf Mf xc r) in *. set (m2 := matvec nf Mf xs r) in *.
  replace (k1 + vs_K s i ib * Ub 0%nat - w ^ 2 * (m1 + 0 * Ub 0%nat) + w * (a * m2 + b * k2 + vs_C s i ib * Ub 1%nat)) with 0 by lra.
  replace (k2 + vs_K s i ib * Ub 1%nat - w ^ 2 * (m2 + 0 * Ub 1%nat) - w * (a * m1 + b * k1 + vs_C s i ib * Ub 0%nat)) with 0 by lra.
  ring.
Qed.

Lemma eom_1_inv N M C K xc xs w (g : nat -> R -> R) :
  equation_of_motion N [1%nat] M C K (cos_sin N xc xs) w (fun _ _ => 0) g ->
  forall i t, (i < N)%nat -> g i t =
     (matvec N K xc i - w ^ 2 * matvec N M xc i + w * matvec N C xs i) * cos (w * t)
     + (matvec N K xs i - w ^ 2 * matvec N M xs i - w * matvec N C xc i) * sin (w * t).
Proof.
  intros (v & a & Hv & Ha & H).
  destruct (eom_1 N M C K xc xs w _ (fun i t _ => eq_refl)) as (v' & a' & Hv' & Ha' & H').
  assert (Ev : forall j s, (j < N)%nat -> v j s = v' j s) by (intros j s Hj; eapply uniqueness_limite; [apply Hv; exact Hj|apply Hv'; exact Hj]).
  assert (Ea : forall j s, (j < N)%nat -> a j s = a' j s).
  { intros j s Hj. eapply uniqueness_limite; [apply Ha; exact Hj|]. eapply dlim_ext; [|apply Ha'; exact Hj]. intros; symmetry; apply Ev. exact Hj. }
  intros i t Hi. rewrite <- H, <- H' by exact Hi. f_equal. apply rsum_ext. intros j Hj. rewrite Ev, Ea by exact Hj. reflexivity.
Qed.

(** two masses with an inertial coupling, the second one moved by the base *)
Definition coupled_M : mat := fun i j => if Nat.eqb i j then 1 else 1 / 2.
Definition coupled_K : mat := fun i j => match i, j with O, O => 2 | 1%nat, 1%nat => 1 | _, _ => -1 end.
Definition coupled_sys : vibsys := vs_new 2 coupled_M coupled_K None (Some (0, 0)).

Lemma linear_frf_base_wrong : exists s w Ub bf eigs xc xs,
  let N := vs_N s in
  let free := selected (fun d => negb (bf d)) N in
  let nf := length free in
  let fr := fun i => nth i free O in
  let Kf := fun i j => vs_K s (fr i) (fr j) in
  let Mf := fun i j => vs_M s (fr i) (fr j) in
  exists ib, selected bf N = [ib] /\
  all_modes nf Kf Mf (fst (eigs Kf Mf nf)) (snd (eigs Kf Mf nf)) /\
  no_resonance nf 0 0 w (fst (eigs Kf Mf nf)) /\ vs_ab s = Some (0, 0) /\
  linear_frf_base s w Ub bf eigs nf = Ok (xc, xs) /\
  forall yc ys, yc ib = Ub O -> ys ib = Ub 1%nat ->
    (forall l, (l < nf)%nat -> yc (fr l) = xc l /\ ys (fr l) = xs l) ->
    ~ base_motion_equation N bf (vs_M s) (vs_C s) (vs_K s) yc ys w.
Proof.
  exists coupled_sys, 1, (fun i => match i with O => 1 | _ => 0 end), (fun d => Nat.eqb d 1), (fun _ _ _ => ((fun _ => 2), fun _ _ => 1)).
  eexists _, _. cbv zeta. exists 1%nat. split; [reflexivity|]. cbn [vs_N coupled_sys vs_new fst snd].
  change (selected (fun d => negb (Nat.eqb d 1)) 2) with [O]. cbn [length].
  split; [|split; [|split; [reflexivity|split; [reflexivity|]]]].
  - split; [intros; lra|]. split.
    + intros m i Hm Hi. assert (m = O) by lia. assert (i = O) by lia. subst. cbn. unfold coupled_M. cbn. lra.
    + intros m l Hm Hl. assert (m = O) by lia. assert (l = O) by lia. subst. cbn. unfold coupled_M. cbn. lra.
  - intros m Hm. cbn. lra.
  - intros yc ys Hc Hs Hl (g & G0 & E). pose proof (eom_1_inv _ _ _ _ _ _ _ _ E O 0 ltac:(lia)) as X.
    rewrite (G0 O 0 ltac:(lia) eq_refl) in X. rewrite Rmult_0_r, cos_0, sin_0, Rmult_0_r, Rplus_0_r, Rmult_1_r in X.
    destruct (Hl O ltac:(lia)) as [L0 _]. cbn [nth] in L0.
    cbn [vs_N coupled_sys vs_new] in L0. change (mask_rank (fun d => negb (Nat.eqb d 1)) 2) with 1%nat in L0.
    unfold matvec, vecmat in L0. cbn [rsum Nat.min] in L0.
    change (mask_index (fun d => negb (Nat.eqb d 1)) 2 0) with O in L0. change (mask_index (fun d => (Nat.eqb d 1)) 2 0) with 1%nat in L0.
    cbn [coupled_sys vs_new vs_K vs_C] in L0.
    unfold modal_cos, modal_zeta, prop_damping, coupled_M, coupled_K in L0. cbn [fst snd Nat.eqb] in L0.
    assert (S2 : sqrt 2 * sqrt 2 = 2) by (apply sqrt_sqrt; lra). assert (S0 : sqrt 2 <> 0) by (apply Rgt_not_eq, sqrt_lt_R0; lra).
    assert (Z : 0 / sqrt 2 / 2 + 0 * sqrt 2 / 2 = 0) by (field; exact S0). rewrite Z in L0.
    replace (sqrt 2 ^ 2) with 2 in L0 by (simpl; lra).
    assert (Y : yc O = 1) by (rewrite L0; field). clear L0.
    unfold matvec in X. cbn [rsum] in X. rewrite Hc, Y in X. cbn [coupled_sys vs_new vs_K vs_C vs_M] in X.
    unfold prop_damping, coupled_M, coupled_K in X. cbn [fst snd Nat.eqb] in X. lra.
Qed.

(** ---- damping ---- *)
Lemma set_all_fields calls : forall s, vs_N (set_all s calls) = vs_N s /\ vs_M (set_all s calls) = vs_M s /\ vs_K (set_all s calls) = vs_K s /\ vs_forces (set_all s calls) = vs_forces s.
Proof.
  unfold set_all. induction calls as [|[C ab] calls IH]; intros s; cbn [fold_left fst snd]; [auto|].
  destruct (IH (vs_set_new_C s C ab)) as (A & B & D & E). rewrite A, B, D, E. destruct ab; auto.
Qed.

Lemma damping_tracked calls : forall s,
  Forall (fun c => fst c <> None \/ snd c <> None) calls ->
  vs_C (set_all s calls) = fold_left (intended_damping (vs_M s) (vs_K s)) calls (vs_C s).
Proof.
  unfold set_all. induction calls as [|[C ab] calls IH]; intros s H; cbn [fold_left fst snd]; [reflexivity|].
  inversion_clear H as [|? ? H1 H2]. rewrite IH by exact H2. cbn [fst snd] in H1.
  destruct ab as [[a b]|]; [reflexivity|]. destruct C as [C|]; [reflexivity|]. destruct H1 as [H1|H1]; contradiction H1; reflexivity.
Qed.

Lemma damping_lost : exists s calls, vs_C (set_all s calls) <> fold_left (intended_damping (vs_M s) (vs_K s)) calls (vs_C s).
Proof.
  exists (vs_new 1 mid mid (Some (fun _ _ => 3)) None), [(None, None)]. cbn. intros E. apply (f_equal (fun f => f O O)) in E. unfold mzero in E. lra.
Qed.

Lemma frf_uses_last_ab s calls C a b w Fl eigs neigs Flsin : (vs_N s <= neigs)%nat ->
  let s' := set_all s (calls ++ [(C, Some (a, b))]) in
  let N := vs_N s in
  let fs := match Flsin with Some v => v | None => vzero end in
  all_modes N (vs_K s) (vs_M s) (fst (eigs (vs_K s) (vs_M s) N)) (snd (eigs (vs_K s) (vs_M s) N)) ->
  no_resonance N a b w (fst (eigs (vs_K s) (vs_M s) N)) ->
  exists xc xs, linear_frf s' w Fl eigs neigs Flsin = Ok (xc, xs) /\
    equation_of_motion N [1%nat] (vs_M s') (vs_C s') (vs_K s') (cos_sin N xc xs) w
      (fun _ _ => 0) (fun i t => Fl i * cos (w * t) + fs i * sin (w * t)).
Proof.
  intros Hk s' N fs HA HR. destruct (set_all_fields (calls ++ [(C, Some (a, b))]) s) as (A & B & D & _). fold s' in A, B, D.
  assert (E : vs_ab s' = Some (a, b) /\ vs_C s' = fun i j => a * vs_M s' i j + b * vs_K s' i j).
  { rewrite B, D. unfold s', set_all. rewrite fold_left_app. cbn [fold_left fst snd vs_set_new_C vs_ab vs_C].
    destruct (set_all_fields calls s) as (_ & B' & D' & _). unfold set_all in B', D'. rewrite B', D'. split; reflexivity. }
  destruct E as [E1 E2].
  pose proof (linear_frf_solves s' w Fl eigs neigs Flsin a b E1) as L. rewrite A, B, D in L. rewrite E2, B, D. exact (L Hk HA HR).
Qed.

Lemma frf_stale_ab : exists s C w Fl eigs xc xs,
  let s' := vs_set_new_C s (Some C) None in
  all_modes (vs_N s) (vs_K s) (vs_M s) (fst (eigs (vs_K s) (vs_M s) (vs_N s))) (snd (eigs (vs_K s) (vs_M s) (vs_N s))) /\
  linear_frf s' w Fl eigs (vs_N s) None = Ok (xc, xs) /\
  ~ equation_of_motion (vs_N s) [1%nat] (vs_M s') (vs_C s') (vs_K s') (cos_sin (vs_N s) xc xs) w (fun _ _ => 0) (fun i t => Fl i * cos (w * t)).
Proof.
  exists (vs_new 1 (fun _ _ => 1) (fun _ _ => 2) None (Some (0, 0))), (fun _ _ => 1), 1, (fun _ => 1), (fun _ _ _ => ((fun _ => 2), fun _ _ => 1)).
  eexists _, _. split; [|split; [reflexivity|]].
  - split; [intros; cbn; lra|]. cbn [vs_N vs_new vs_M vs_K fst snd]. split; intros m l Hm Hl; assert (m = O) by lia; assert (l = O) by lia; subst; cbn; lra.
  - cbn [vs_N vs_new]. intros E. pose proof (eom_1_inv _ _ _ _ _ _ _ _ E O (PI / 2) ltac:(lia)) as X. revert X.
    cbv beta. replace (1 * (PI / 2)) with (PI / 2) by ring. rewrite cos_PI2, sin_PI2. unfold matvec, vecmat. cbn [rsum Nat.min vs_N vs_ab vs_M vs_K vs_C vs_set_new_C vs_new].
    unfold modal_cos, modal_sin, modal_zeta, vzero. cbn [fst snd].
    assert (S2 : sqrt 2 * sqrt 2 = 2) by (apply sqrt_sqrt; lra). assert (S0 : sqrt 2 <> 0) by (apply Rgt_not_eq, sqrt_lt_R0; lra).
    assert (Z : 0 / sqrt 2 / 2 + 0 * sqrt 2 / 2 = 0) by (field; exact S0). rewrite Z.
    replace (sqrt 2 ^ 2) with 2 by (simpl; lra). intros X. field_simplify in X. lra.
Qed.
