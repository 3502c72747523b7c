(** The ring model of tangential contact: static call histories and harmonic evaluation. *)
From Coq Require Import Reals Lra Lia Arith List Bool FunctionalExtensionality.
From Verif.Lib Require Import RSum Calc Py.
From Verif.Spec Require Import Calculus Harmonic Slider Rough RoughCalls RoughMif.
From Verif.Model Require Import Harmonic LocalForces Aft JaxDual JaxFloat RoughContact.
From Verif.Proofs Require Import HarmonicP AftP JaxDualP JaxFloatP RoughNormalP RoughStaticP RoughCallsP RoughHistoryP RoughAftP RoughInterpP SliderP.
Import ListNotations.
Open Scope R_scope.

Lemma rings_memory s g n mvs st : fst (fold_left (remember_rings s g n) mvs st) = fold_left (remember s g) mvs (fst st).
Proof. revert st. induction mvs as [|mv mvs IH]; intros st; [reflexivity|]. cbn [fold_left]. rewrite IH. reflexivity. Qed.

Lemma rings_snoc s g n mvs mv : let M := memory_after s g mvs in let G := rings_after s g n mvs in
  rings_after s g n (mvs ++ [mv]) = snd (remember_rings s g n (M, G) mv).
Proof.
  cbv zeta. unfold rings_after. rewrite fold_left_app. cbn [fold_left]. set (st := fold_left (remember_rings s g n) mvs _).
  assert (E : fst st = memory_after s g mvs) by (unfold st; rewrite rings_memory; reflexivity). rewrite <- E. destruct st as [A B]. reflexivity.
Qed.

Lemma traction_none s mu n fn a a0 t du j : fn <= 0 -> ring_traction s mu n fn a a0 t du j = 0.
Proof. intros H. unfold ring_traction. destruct (Rlt_dec 0 fn); [lra|reflexivity]. Qed.

Section Static.
  Variables (s : solid) (r : rough) (N : nat) (Q : mat) (n : nat).
  Hypothesis Hs : physical s.
  Hypothesis Hmat : r_mat r = mat_of s.
  Hypothesis Hgap : forall i, (i < r_n r)%nat -> 0 <= r_meso r + r_gaps r i.
  Hypothesis Hmu : 0 <= r_mu r.
  Hypothesis Hmodel : r_model r = MIF n.
  Hypothesis Hn : (1 < n)%nat.
  Let g := fun i => r_meso r + r_gaps r i.
  Let Hok : model_ok (r_model r). Proof. rewrite Hmodel. cbn. lia. Qed.
  Let Gm : m_Gstar (r_mat r) = mindlin_modulus s. Proof. rewrite Hmat. apply (mat_spec s Hs). Qed.

  Definition keeps (st : rough_state) (i : nat) (G : rings) : Prop :=
    forall d, stored_rings n (rg_a G) (fun j => rg_t G j d) (fun j => fstored (rs_radii st i j)) (fun j => fstored (rs_fxy st i j d)).

  Lemma ring_values st uxyn u (M : nat -> memory) (G : nat -> rings) : 0 <= rs_mu st -> (forall d, fv (uxyn d) (u d)) -> (forall i, (i < r_n r)%nat -> holds s r st i (M i)) ->
    let res := static_force r st uxyn in
    let x := fun i => u 2%nat - g i in
    let fn := fun i => asperity_force s (mem_d (M i)) (mem_F (M i)) (x i) in
    let a := fun i => asperity_radius s (mem_d (M i)) (mem_F (M i)) (x i) in
    let t := fun i d => ring_traction s (rs_mu st) n (fn i) (a i) (rg_a (G i)) (fun j => rg_t (G i) j d) (u d - mem_u (M i) d) in
    (forall i, (i < r_n r)%nat -> keeps st i (G i) ->
       fv (st_a res i) (a i) /\ 0 <= a i /\ (0 < fn i -> 0 < a i) /\ 0 <= fn i /\
       (forall j d, (j < n)%nat -> fv (st_fxy res i j d) (t i d j)) /\ forall j, (j < n)%nat -> fv (st_radii res i j) (ring n j * a i)) /\
    ((forall i, (i < r_n r)%nat -> keeps st i (G i)) -> forall d, (d < 2)%nat -> fv (st_f res d) (rsum (r_n r) (fun i => r_weights r i * disc_force n (a i) (t i d)))).
  Proof.
    intros Hm Hu HM. cbv zeta. destruct (static_values s r Hs Hmat Hok st uxyn u M Hm Hu HM) as (A & _ & _). cbv zeta in A. set (res := static_force r st uxyn) in *.
    assert (K : forall i, (i < r_n r)%nat -> keeps st i (G i) ->
      let a := asperity_radius s (mem_d (M i)) (mem_F (M i)) (u 2%nat - g i) in let fn := asperity_force s (mem_d (M i)) (mem_F (M i)) (u 2%nat - g i) in
      fv (st_a res i) a /\ 0 <= a /\ (0 < fn -> 0 < a) /\ 0 <= fn /\
       (forall j d, (j < n)%nat -> fv (st_fxy res i j d) (ring_traction s (rs_mu st) n fn a (rg_a (G i)) (fun j => rg_t (G i) j d) (u d - mem_u (M i) d) j)) /\ forall j, (j < n)%nat -> fv (st_radii res i j) (ring n j * a)).
    { intros i Hi HG. cbv zeta. destruct (A i Hi) as (A1 & A2 & _ & _). destruct (HM i Hi) as (_ & _ & H3 & H4 & _).
      pose proof (force_nonneg s Hs _ _ (u 2%nat - g i) H4) as P1. destruct (radius_pos s Hs _ _ (u 2%nat - g i) H4) as [P2 P3].
      split; [exact A2|]. split; [exact P2|]. split; [exact P3|]. split; [exact P1|]. split.
      - intros j d Hj. assert (E : st_fxy res i j d = mif_traction (r_mat r) (rs_mu st) n (quad_radii n) (uxyn d) (fconst (rs_u0 st d)) (fun j => fstored (rs_fxy st i j d)) (st_fn res i) (st_a res i) (fun j => fstored (rs_radii st i j)) j).
        { unfold res, static_force, tangential_part. rewrite Hmodel. reflexivity. }
        rewrite E. apply ring_value; try assumption; [apply Hu|rewrite H3; apply fv_const|apply HG].
      - intros j Hj. assert (E : st_radii res i j = mif_radii (st_a res i) (quad_radii n) j) by (unfold res, static_force, tangential_part; rewrite Hmodel; reflexivity).
        rewrite E. unfold mif_radii. rewrite quad_ring by exact Hn. apply fv_scal. exact A2. }
    split; [exact K|]. intros HG d Hd.
    assert (Ef : st_f res d = JaxFloat.fsum (r_n r) (fun i => fscal (r_weights r i) (mif_force n (quad_radii n) (weight_radii n) (st_a res i) (fun j => st_fxy res i j d)))).
    { unfold res, static_force, tangential_part. rewrite Hmodel. cbn [st_f st_fxy st_a]. rewrite (proj2 (Nat.ltb_lt d 2)) by exact Hd. reflexivity. }
    rewrite Ef. apply fv_sum. intros i Hi. destruct (K i Hi (HG i Hi)) as (K1 & _ & _ & _ & K2 & _). apply fv_scal. apply disc_value; [exact Hn|exact K1|]. intros j Hj. apply K2. exact Hj.
  Qed.

  Lemma keeps_start st i G : (forall j d, rg_t G j d = 0) -> keeps (init_history st) i G.
  Proof.
    intros H d. split; [intros j _; rewrite H; reflexivity|]. left. split; [intros; apply H|]. intros j _. exists 0. reflexivity.
  Qed.

  Lemma keeps_update st X i (M : nat -> memory) (G : nat -> rings) : 0 <= rs_mu st -> (forall i, (i < r_n r)%nat -> holds s r st i (M i)) -> (i < r_n r)%nat -> keeps st i (G i) ->
    let G' := snd (remember_rings s (g i) n (M i, G i) (rs_mu st, matvec N Q X)) in resolved n (rg_a G') ->
    keeps (update_history st (matvec N Q X) (static_force r st (seeded_local N Q X))) i G'.
  Proof.
    intros Hm HM Hi HG. cbv zeta. intros HR d. destruct (ring_values st (seeded_local N Q X) (matvec N Q X) M G Hm (fun d => eq_refl) HM) as [K _]. cbv zeta in K. destruct (K i Hi HG) as (K1 & K2 & K3 & K4 & K5 & K6). clear K.
    cbn [remember_rings fst snd rg_a rg_t] in *. set (a := asperity_radius _ _ _ _) in *. set (fn := asperity_force _ _ _ _) in *.
    cbn [update_history rs_radii rs_fxy]. split; [intros j Hj; unfold fv, fstored; rewrite (K5 j d Hj); reflexivity|].
    destruct (Rlt_dec 0 a) as [Ha|Ha].
    - right. split; [exact Ha|]. split; [apply HR; exact Ha|]. intros j Hj. unfold fv, fstored. rewrite (K6 j Hj). reflexivity.
    - left. split; [intros j Hj; apply traction_none; destruct (Rlt_le_dec 0 fn); [exfalso; apply Ha; apply K3; assumption|assumption]|].
      intros j Hj. eexists. unfold fv, fstored. rewrite (K6 j Hj). reflexivity.
  Qed.

  Definition history_resolved (i : nat) (mvs : list (R * vec)) : Prop :=
    forall before after, mvs = before ++ after -> resolved n (rg_a (rings_after s (g i) n before)).

  Lemma keeps_run u0 st cs : rough_new r u0 = Ok st -> forall i, (i < r_n r)%nat -> history_resolved i (rough_moves (r_mu r) N Q cs) ->
    keeps (rough_run r N Q st cs) i (rings_after s (g i) n (rough_moves (r_mu r) N Q cs)).
  Proof.
    intros Hnew. unfold rough_run, rough_moves.
    set (f := fun (st : R * list (R * vec)) c => match c with RInitHistory => (fst st, []) | RSetPrestressMu => (0, snd st) | RResetRealMu => (r_mu r, snd st)
                              | RForce X true => (fst st, snd st ++ [(fst st, fun d => rsum N (fun j => Q d j * X j))]) | _ => st end).
    assert (St : rs_mu st = r_mu r /\ (forall i, (i < r_n r)%nat -> holds s r st i (memory_after s (g i) [])) /\ forall i, keeps st i (rings_after s (g i) n [])).
    { unfold rough_new in Hnew. destruct (new_u0 u0); cbn in Hnew; [|discriminate]. injection Hnew as <-. split; [reflexivity|]. split; intros i.
      - intros Hi. apply (holds_start s r Hgap Hok (mkRS (r_mu r) 0 (fun _ => Some 0) (fun _ => 0) (fun _ _ _ => Some 0) (fun _ _ => Some 0) a)). exact Hi.
      - apply (keeps_start (mkRS (r_mu r) 0 (fun _ => Some 0) (fun _ => 0) (fun _ _ _ => Some 0) (fun _ _ => Some 0) a)). reflexivity. }
    assert (Gen : forall cs st p, rs_mu st = fst p -> 0 <= fst p -> (forall i, (i < r_n r)%nat -> holds s r st i (memory_after s (g i) (snd p))) ->
      (forall i, (i < r_n r)%nat -> history_resolved i (snd p) -> keeps st i (rings_after s (g i) n (snd p))) ->
      let st' := fold_left (rough_step r N Q) cs st in let p' := fold_left f cs p in
      forall i, (i < r_n r)%nat -> history_resolved i (snd p') -> keeps st' i (rings_after s (g i) n (snd p'))).
    { clear st Hnew St cs. intros cs. induction cs as [|c cs0 IH]; intros st p H1 H3 H4 H5; cbv zeta; cbn [fold_left]; [exact H5|].
      destruct c as [X [|]| | | |X]; apply IH; cbn [f fst snd rough_step rough_force rs_mu update_history]; try assumption; try lra; try reflexivity.
      - intros i Hi. unfold memory_after. rewrite fold_left_app. cbn [fold_left].
        pose proof (holds_update s r N Q Hs Hmat Hok st X i (fun i => memory_after s (g i) (snd p)) ltac:(lra) H4 Hi) as K. rewrite H1 in K. exact K.
      - intros i Hi HR. rewrite rings_snoc. cbv zeta.
        pose proof (keeps_update st X i (fun i => memory_after s (g i) (snd p)) (fun i => rings_after s (g i) n (snd p)) ltac:(lra) H4 Hi) as K. cbv zeta in K. rewrite H1 in K. apply K.
        + apply H5; [exact Hi|]. intros before after E. apply (HR before (after ++ [(fst p, fun d => rsum N (fun j => Q d j * X j))])). transitivity (snd p ++ [(fst p, fun d => rsum N (fun j => Q d j * X j))]); [reflexivity|]. rewrite E, <- app_assoc. reflexivity.
        + pose proof (HR (snd p ++ [(fst p, fun d => rsum N (fun j => Q d j * X j))]) [] (eq_sym (app_nil_r _))) as HR'. rewrite rings_snoc in HR'. exact HR'.
      - intros i Hi. apply (holds_start s r Hgap Hok). exact Hi.
      - intros i Hi _. apply keeps_start. reflexivity. }
    destruct St as (S1 & S2 & S3). intros i Hi. apply (Gen cs st (r_mu r, []) S1 Hmu S2); [|exact Hi]. intros i' _ _. apply S3.
  Qed.
End Static.

Lemma static_rings s r N Q (T : mat) u0 st cs X upd n : physical s -> r_mat r = mat_of s -> (forall i, (i < r_n r)%nat -> 0 <= r_meso r + r_gaps r i) -> 0 <= r_mu r -> r_model r = MIF n -> (1 < n)%nat ->
  rough_new r u0 = Ok st ->
  let g := fun i => r_meso r + r_gaps r i in
  let moves := rough_moves (r_mu r) N Q cs in
  (forall i before after, (i < r_n r)%nat -> moves = before ++ after -> resolved n (rg_a (rings_after s (g i) n before))) ->
  let res := snd (rough_force r N Q (rough_run r N Q st cs) X upd) in
  let mu := rough_mu_after (r_mu r) cs in
  let u := fun d => rsum N (fun j => Q d j * X j) in
  let M := fun i => memory_after s (g i) moves in
  let G := fun i => rings_after s (g i) n moves in
  let fn := fun i => asperity_force s (mem_d (M i)) (mem_F (M i)) (u 2%nat - g i) in
  let a := fun i => asperity_radius s (mem_d (M i)) (mem_F (M i)) (u 2%nat - g i) in
  let t := fun i d => ring_traction s mu n (fn i) (a i) (rg_a (G i)) (fun j => rg_t (G i) j d) (u d - mem_u (M i) d) in
  (forall i j d, (i < r_n r)%nat -> (j < n)%nat -> fval (st_fxy res i j d) = Some (t i d j)) /\
  exists f : nat -> R, force_values T res = Some (fun p => rsum 3 (fun d => T p d * f d)) /\
    f 2%nat = rsum (r_n r) (fun i => r_weights r i * fn i) /\
    forall d, (d < 2)%nat -> f d = rsum (r_n r) (fun i => r_weights r i * disc_force n (a i) (t i d)).
Proof.
  intros Hs Hmat Hgap Hmu Hmodel Hn Hnew g moves HR res mu u M G fn a t. assert (Hok : model_ok (r_model r)) by (rewrite Hmodel; cbn; lia).
  destruct (tracks_run s r N Q Hs Hmat Hgap Hmu Hok u0 st cs Hnew) as (Em & Hm & HM).
  assert (HK : forall i, (i < r_n r)%nat -> keeps n (rough_run r N Q st cs) i (G i)).
  { intros i Hi. apply (keeps_run s r N Q n Hs Hmat Hgap Hmu Hmodel Hn u0 st cs Hnew i Hi). intros before after E. apply (HR i before after Hi E). }
  cbv zeta in *. unfold res. cbn [rough_force snd]. set (st' := rough_run r N Q st cs) in *.
  destruct (ring_values s r n Hs Hmat Hmodel Hn st' (seeded_local N Q X) (matvec N Q X) M G Hm (fun d => eq_refl) HM) as [K1 K2]. cbv zeta in K1, K2. rewrite Em in K1, K2.
  destruct (static_values s r Hs Hmat Hok st' (seeded_local N Q X) (matvec N Q X) M Hm (fun d => eq_refl) HM) as (_ & B & _). cbv zeta in B.
  split.
  - intros i j d Hi Hj. apply (K1 i Hi (HK i Hi)). exact Hj.
  - exists (fun d => getR (fval (st_f (static_force r st' (seeded_local N Q X)) d))). split; [|split].
    + unfold force_values. rewrite all_values_true; [reflexivity|]. intros d Hd. destruct (Nat.eq_dec d 2) as [->|]; [eexists; exact B|]. eexists. apply (K2 HK). lia.
    + apply (fv_get _ _ B).
    + intros d Hd. apply (fv_get _ _ (K2 HK d Hd)).
Qed.

(** ---- harmonic evaluation ---- *)
Section Mif.
  Variables (s : solid) (r : rough) (mu : R) (Nt : nat) (unlt : nat -> nat -> dual) (start : nat -> R) (n : nat).
  Hypothesis Hs : physical s.
  Hypothesis Hmat : r_mat r = mat_of s.
  Hypothesis Hgap : forall i, (i < r_n r)%nat -> 0 <= r_meso r + r_gaps r i.
  Hypothesis Hmu : 0 <= mu.
  Hypothesis Hmodel : r_model r = MIF n.
  Hypothesis Hn : (1 < n)%nat.
  Hypothesis HNt : (0 < Nt)%nat.
  Let g := fun i => r_meso r + r_gaps r i.
  Let u := fun d t => dv (unlt t d).
  Let um := vmax Nt (u 2%nat).
  Let peak := fun i => um - g i.
  Let x := fun i t => u 2%nat t - g i.
  Let a := fun i t => cycle_radius s (peak i) (x i t).
  Hypothesis Hres : forall i t, (i < r_n r)%nat -> (t < Nt)%nat -> resolved n (a i t).
  Let fun1 := fun t d => fdual_of (unlt t d).
  Let body := loop_body r mu (loop_max r Nt unlt) (loop_Fm r Nt unlt) fun1.
  Let st k := lsteps body (loop_start r start) Nt k.
  Let rings_at := fun i d => cycle_rings s mu n (peak i) (repeat_samples Nt (x i)) (repeat_samples Nt (u d)) (start d).
  Let Hok : model_ok (r_model r). Proof. rewrite Hmodel. cbn. lia. Qed.
  Let Gm : m_Gstar (r_mat r) = mindlin_modulus s. Proof. rewrite Hmat. apply (mat_spec s Hs). Qed.

  Definition prev_a (i k : nat) : R := match k with O => 0 | S j => a i (j mod Nt) end.
  Definition prev_t (i d k : nat) : nat -> R := match k with O => fun _ => 0 | S j => rings_at i d j end.
  Definition loop_keeps (k : nat) (st : loop_state) : Prop :=
    (forall d, fv (lp_u0 st d) (prev_position Nt unlt start d k)) /\
    forall i d, (i < r_n r)%nat -> stored_rings n (prev_a i k) (prev_t i d k) (lp_radii st i) (fun j => lp_fxy st i j d).

  Lemma keeps_begin : loop_keeps 0 (loop_start r start).
  Proof.
    split; [intros d; apply fv_const|]. intros i d Hi. split; [intros j Hj; apply fv_const|]. left. split; [reflexivity|]. intros j Hj. cbn [loop_start lp_radii]. rewrite Hmodel. apply finite_const.
  Qed.

  Lemma keeps_step k st0 : loop_keeps k st0 -> let t := (k mod Nt)%nat in loop_keeps (S k) (body t st0) /\
    forall d, (d < 2)%nat -> fv (lp_f (body t st0) t d) (rsum (r_n r) (fun i => r_weights r i * disc_force n (a i t) (rings_at i d k))).
  Proof.
    intros [Hu0 Hf]. cbv zeta. assert (Ht : (k mod Nt < Nt)%nat) by (apply Nat.mod_upper_bound; lia). set (t := (k mod Nt)%nat) in *.
    assert (In : forall i, (i < r_n r)%nat -> let nr := normal_un (r_mat r) (loop_un r fun1 t i) (loop_max r Nt unlt i) (loop_Fm r Nt unlt i) in
      fv (n_fn nr) (cycle_force s (peak i) (x i t)) /\ fv (n_a nr) (a i t)) by (intros i Hi; apply (instant s r Nt unlt Hs Hmat Hgap HNt); assumption). cbv zeta in In.
    set (nr := fun i => normal_un (r_mat r) (loop_un r fun1 t i) (loop_max r Nt unlt i) (loop_Fm r Nt unlt i)) in *.
    assert (Tr : forall i j d, (i < r_n r)%nat -> (j < n)%nat -> fv (lp_fxy (body t st0) i j d) (rings_at i d k j)).
    { intros i j d Hi Hj. destruct (In i Hi) as [A B]. destruct (cycle_radius_pos s Hs (peak i) (x i t)) as [C D].
      assert (E : lp_fxy (body t st0) i j d = mif_traction (r_mat r) mu n (quad_radii n) (fun1 t d) (lp_u0 st0 d) (fun j => lp_fxy st0 i j d) (n_fn (nr i)) (n_a (nr i)) (lp_radii st0 i) j).
      { unfold body, loop_body, tangential_part. rewrite Hmodel. reflexivity. }
      assert (V : rings_at i d k j = ring_traction s mu n (cycle_force s (peak i) (x i t)) (a i t) (prev_a i k) (prev_t i d k) (u d t - prev_position Nt unlt start d k) j).
      { unfold rings_at, t. destruct k; reflexivity. }
      rewrite E, V. apply ring_value; try assumption; [reflexivity|apply Hu0|apply cycle_nonneg; exact Hs|apply Hf; exact Hi]. }
    assert (U0 : lp_u0 (body t st0) = fun1 t) by (unfold body, loop_body; destruct (tangential_part _ _ _ _ _ _ _ _) as [[? ?] ?]; reflexivity).
    split; [split|].
    - intros d. rewrite U0. reflexivity.
    - intros i d Hi. cbn [prev_a prev_t]. split; [intros j Hj; apply Tr; assumption|]. fold t.
      assert (Er : forall j, (j < n)%nat -> fv (lp_radii (body t st0) i j) (ring n j * a i t)).
      { intros j Hj. assert (E : lp_radii (body t st0) i j = mif_radii (n_a (nr i)) (quad_radii n) j) by (unfold body, loop_body, tangential_part; rewrite Hmodel; reflexivity).
        rewrite E. unfold mif_radii. rewrite quad_ring by exact Hn. apply fv_scal. apply (In i Hi). }
      destruct (cycle_radius_pos s Hs (peak i) (x i t)) as [C D]. destruct (Rlt_dec 0 (a i t)) as [Ha|Ha].
      + right. split; [exact Ha|]. split; [apply Hres; assumption|exact Er].
      + left. split; [|intros j Hj; eexists; apply Er; exact Hj]. intros j Hj.
        assert (V : rings_at i d k j = ring_traction s mu n (cycle_force s (peak i) (x i t)) (a i t) (prev_a i k) (prev_t i d k) (u d t - prev_position Nt unlt start d k) j) by (unfold rings_at, t; destruct k; reflexivity).
        rewrite V. apply traction_none. destruct (Rlt_le_dec 0 (cycle_force s (peak i) (x i t))); [exfalso; apply Ha; apply D; assumption|assumption].
    - intros d Hd.
      assert (Ef : lp_f (body t st0) t d = JaxFloat.fsum (r_n r) (fun i => fscal (r_weights r i) (mif_force n (quad_radii n) (weight_radii n) (n_a (nr i)) (fun j => lp_fxy (body t st0) i j d)))).
      { unfold body, loop_body, tangential_part. rewrite Hmodel. cbn [lp_f lp_fxy]. rewrite Nat.eqb_refl, (proj2 (Nat.ltb_lt d 2)) by exact Hd. reflexivity. }
      rewrite Ef. apply fv_sum. intros i Hi. apply fv_scal. apply disc_value; [exact Hn|apply (In i Hi)|]. intros j Hj. apply Tr; assumption.
  Qed.

  Lemma keeps_all k : loop_keeps k (st k).
  Proof. induction k as [|k IH]; [apply keeps_begin|]. unfold st. cbn [lsteps]. apply (keeps_step k). exact IH. Qed.

  Lemma history_rings p t : (t < Nt)%nat -> forall d, (d < 2)%nat ->
    fv (rough_history r mu Nt unlt start (S p) t d) (rsum (r_n r) (fun i => r_weights r i * disc_force n (a i t) (rings_at i d (p * Nt + t)))).
  Proof.
    intros Ht d Hd. unfold rough_history. fold fun1. fold body.
    assert (W : forall i st t, t <> i -> lp_f (body i st) t = lp_f st t).
    { intros i st' t' Hne. unfold body, loop_body. destruct (tangential_part _ _ _ _ _ _ _ _) as [[? ?] ?]. cbn [lp_f]. apply functional_extensionality. intros d'. rewrite (proj2 (Nat.eqb_neq t' i)) by exact Hne. reflexivity. }
    rewrite (last_pass body (loop_start r start) Nt HNt W p t Ht).
    assert (Em : ((p * Nt + t) mod Nt = t)%nat) by (rewrite Nat.add_comm, Nat.mod_add by lia; apply Nat.mod_small; exact Ht).
    pose proof (keeps_step (p * Nt + t) (st (p * Nt + t)) (keeps_all _)) as [_ H]. cbv zeta in H. rewrite Em in H. apply H. exact Hd.
  Qed.
End Mif.

Lemma aft_rings s r N Q (T : mat) st h Nt U w p n : physical s -> r_mat r = mat_of s -> (forall i, (i < r_n r)%nat -> 0 <= r_meso r + r_gaps r i) -> 0 <= rs_mu st -> r_model r = MIF n -> (1 < n)%nat ->
  admissible h -> (2 * list_max h + 1 < Nt)%nat -> Nat.even Nt = true -> (1 < length (components h))%nat ->
  let u := fun d t => local_motion N Q h U d (sample_phase Nt t) in
  let g := fun i => r_meso r + r_gaps r i in
  forall um, largest Nt (u 2%nat) um ->
  (forall i t, (i < r_n r)%nat -> (t < Nt)%nat -> resolved n (cycle_radius s (um - g i) (u 2%nat t - g i))) ->
  exists F J, rough_aft r N Q T st U w h Nt (S p) = Ok (Some F, J) /\
  exists f : nat -> nat -> R,
    (forall c i, (c < length (components h))%nat -> (i < N)%nat ->
       F (c * N + i)%nat = rsum 3 (fun d => T i d * fourier_coef Nt (f d) (nth c (components h) (Cos O)))) /\
    forall t, (t < Nt)%nat ->
      f 2%nat t = rsum (r_n r) (fun i => r_weights r i * cycle_force s (um - g i) (u 2%nat t - g i)) /\
      forall d, (d < 2)%nat -> f d t = rsum (r_n r) (fun i => r_weights r i *
        disc_force n (cycle_radius s (um - g i) (u 2%nat t - g i))
          (cycle_rings s (rs_mu st) n (um - g i) (repeat_samples Nt (fun t => u 2%nat t - g i)) (repeat_samples Nt (u d)) (rs_aft_u0 st d) (p * Nt + t))).
Proof.
  intros Hs Hmat Hgap Hmu Hmodel Hn Ha HN Hev Htwo u g um Hum HR. assert (HNt : (0 < Nt)%nat) by lia. assert (Hok : model_ok (r_model r)) by (rewrite Hmodel; cbn; lia).
  destruct (aft_rows s r N Q T st h Nt Hs Hmat Hgap Hmu Hok Ha HN Hev Htwo U w p) as (F & J & unlt & E & EU & EF). exists F, J. split; [exact E|].
  exists (fun d t => getR (fval (rough_history r (rs_mu st) Nt unlt (rs_aft_u0 st) (S p) t d))). split; [exact EF|].
  assert (Eum : vmax Nt (fun t => dv (unlt t 2%nat)) = um).
  { destruct (vmax_spec Nt (fun t => dv (unlt t 2%nat)) HNt) as [M1 (t' & Ht' & M2)]. destruct Hum as [L1 (t'' & Ht'' & L2)]. apply Rle_antisym.
    - rewrite M2. rewrite EU by lia. apply L1. exact Ht'.
    - rewrite <- L2. unfold u. rewrite <- EU by lia. apply (M1 t'' Ht''). }
  intros t Ht.
  destruct (history_value s r (rs_mu st) Nt unlt (rs_aft_u0 st) Hs Hmat Hgap Hmu Hok HNt p t Ht) as [A _]. rewrite (fv_get _ _ A). rewrite Eum, EU by lia. split; [reflexivity|].
  intros d Hd. assert (HR' : forall i t, (i < r_n r)%nat -> (t < Nt)%nat -> resolved n (cycle_radius s (vmax Nt (fun t => dv (unlt t 2%nat)) - (r_meso r + r_gaps r i)) (dv (unlt t 2%nat) - (r_meso r + r_gaps r i)))).
  { intros i t' Hi Ht'. rewrite Eum, EU by lia. apply HR; assumption. }
  rewrite (fv_get _ _ (history_rings s r (rs_mu st) Nt unlt (rs_aft_u0 st) n Hs Hmat Hgap Hmu Hmodel Hn HNt HR' p t Ht d Hd)). rewrite Eum, EU by lia.
  apply rsum_ext. intros i Hi. f_equal. f_equal. unfold g, u. f_equal.
  - extensionality k. unfold repeat_samples. rewrite EU; [reflexivity|apply Nat.mod_upper_bound; lia|lia].
  - extensionality k. unfold repeat_samples. rewrite EU; [reflexivity|apply Nat.mod_upper_bound; lia|lia].
Qed.
