(** Call histories of a rough contact object. *)
From Coq Require Import Reals Lra Lia Arith List Bool FunctionalExtensionality.
From Verif.Lib Require Import RSum Calc Py.
From Verif.Spec Require Import Calculus Slider Rough RoughCalls.
From Verif.Model Require Import Harmonic JaxDual JaxFloat RoughContact.
From Verif.Proofs Require Import JaxDualP JaxFloatP RoughNormalP RoughStaticP SliderP.
Import ListNotations.
Open Scope R_scope.

Lemma weighted_abs n w a b mu : (forall i, (i < n)%nat -> 0 <= w i) -> (forall i, (i < n)%nat -> Rabs (a i) <= mu * b i) ->
  Rabs (rsum n (fun i => w i * a i)) <= mu * rsum n (fun i => w i * b i).
Proof.
  intros Hw H. rewrite <- rsum_scal_l. eapply Rle_trans; [apply rsum_abs|]. apply rsum_le. intros i Hi. rewrite Rabs_mult, Rabs_right by (apply Rle_ge; apply Hw; exact Hi).
  specialize (H i Hi). specialize (Hw i Hi). nra.
Qed.

Definition model_ok (t : tangent_model) : Prop := match t with TAN => True | MIF n => (0 < n)%nat end.

Section Calls.
  Variables (s : solid) (r : rough) (N : nat) (Q : mat).
  Hypothesis Hs : physical s.
  Hypothesis Hmat : r_mat r = mat_of s.
  Hypothesis Hgap : forall i, (i < r_n r)%nat -> 0 <= r_meso r + r_gaps r i.
  Hypothesis Hmu : 0 <= r_mu r.
  Hypothesis Hmodel : model_ok (r_model r).
  Let g := fun i => r_meso r + r_gaps r i.

  Definition holds (st : rough_state) (i : nat) (M : memory) : Prop :=
    rs_unmax st - g i = mem_d M /\ rs_Fm st i = Some (mem_F M) /\ rs_u0 st = mem_u M /\ mem_ok s (mem_d M) (mem_F M) /\
    match r_model r with
    | TAN => forall d, rs_fxy st i O d = Some (mem_f M d)
    | MIF k => (forall j d, (j < k)%nat -> exists v, rs_fxy st i j d = Some v) /\ (forall j, (j < k)%nat -> exists v, rs_radii st i j = Some v)
    end.

  Lemma stored_v o v : o = Some v -> fv (fstored o) v. Proof. intros ->. reflexivity. Qed.
  Lemma stored_finite o : (exists v, o = Some v) -> finite (fstored o). Proof. intros [v ->]. exists v. reflexivity. Qed.

  Lemma static_values st uxyn u (M : nat -> memory) : 0 <= rs_mu st -> (forall d, fv (uxyn d) (u d)) -> (forall i, (i < r_n r)%nat -> holds st i (M i)) ->
    let res := static_force r st uxyn in
    let x := fun i => u 2%nat - g i in
    let fn := fun i => asperity_force s (mem_d (M i)) (mem_F (M i)) (x i) in
    let ft := fun i d => asperity_friction s (rs_mu st) (mem_d (M i)) (mem_F (M i)) (x i) (u d - mem_u (M i) d) (mem_f (M i) d) in
    (forall i, (i < r_n r)%nat -> fv (st_fn res i) (fn i) /\ fv (st_a res i) (asperity_radius s (mem_d (M i)) (mem_F (M i)) (x i)) /\ fv (st_Fm res i) (Rmax (mem_F (M i)) (fn i)) /\
       match r_model r with
       | TAN => forall d, fv (st_fxy res i O d) (ft i d)
       | MIF k => (forall j d, (j < k)%nat -> finite (st_fxy res i j d)) /\ (forall j, (j < k)%nat -> finite (st_radii res i j))
       end) /\
    fv (st_f res 2) (rsum (r_n r) (fun i => r_weights r i * fn i)) /\
    (forall d, (d < 2)%nat -> exists f, fv (st_f res d) f /\
       (r_model r = TAN -> f = rsum (r_n r) (fun i => r_weights r i * ft i d)) /\
       ((forall i, (i < r_n r)%nat -> 0 <= r_weights r i) -> Rabs f <= rs_mu st * rsum (r_n r) (fun i => r_weights r i * fn i))).
  Proof.
    intros Hm Hu HM res x fn ft.
    assert (Gn : forall i, (i < r_n r)%nat ->
      let un := fsub (fsub (uxyn 2%nat) (fconst (r_meso r))) (fconst (r_gaps r i)) in
      let nr := normal_general (r_mat r) un (fconst (rs_unmax st - r_meso r - r_gaps r i)) (fstored (rs_Fm st i)) in
      fv (n_fn nr) (fn i) /\ fv (n_a nr) (asperity_radius s (mem_d (M i)) (mem_F (M i)) (x i)) /\ 0 <= fn i /\ (0 < fn i -> 0 < asperity_radius s (mem_d (M i)) (mem_F (M i)) (x i))).
    { intros i Hi. cbv zeta. destruct (HM i Hi) as (H1 & H2 & H3 & H4 & _). rewrite Hmat.
      destruct (general_value s Hs (fsub (fsub (uxyn 2%nat) (fconst (r_meso r))) (fconst (r_gaps r i))) (fconst (rs_unmax st - r_meso r - r_gaps r i)) (fstored (rs_Fm st i)) (x i) (mem_d (M i)) (mem_F (M i))) as [A B].
      - eapply fv_eq; [apply fv_sub; [apply fv_sub; [apply Hu|apply fv_const]|apply fv_const]|unfold x, g; ring].
      - eapply fv_eq; [apply fv_const|]. rewrite <- H1. unfold g. ring.
      - apply stored_v. exact H2.
      - exact H4.
      - split; [exact A|]. split; [exact B|]. split; [apply (force_nonneg s Hs); exact H4|apply (radius_pos s Hs); exact H4]. }
    assert (Fx : forall i, (i < r_n r)%nat -> Rabs (rs_mu st * fn i) = rs_mu st * fn i) by (intros i Hi; apply Rabs_right; apply Rle_ge; apply Rmult_le_pos; [exact Hm|apply (Gn i Hi)]).
    assert (Gm : m_Gstar (r_mat r) = mindlin_modulus s) by (rewrite Hmat; apply (mat_spec s Hs)).
    assert (St : forall i, (i < r_n r)%nat -> fv (st_fn res i) (fn i) /\ fv (st_a res i) (asperity_radius s (mem_d (M i)) (mem_F (M i)) (x i)) /\ fv (st_Fm res i) (Rmax (mem_F (M i)) (fn i))).
    { intros i Hi. destruct (Gn i Hi) as (A & B & _). destruct (HM i Hi) as (_ & H2 & _). unfold res, static_force. destruct (tangential_part _ _ _ _ _ _ _ _) as [[fxy fc] rad]. cbn [st_fn st_a st_Fm].
      split; [exact A|]. split; [exact B|]. rewrite Rmax_comm. apply fv_max; [exact A|apply stored_v; exact H2]. }
    assert (Nf : fv (st_f res 2) (rsum (r_n r) (fun i => r_weights r i * fn i))).
    { unfold res, static_force. destruct (tangential_part _ _ _ _ _ _ _ _) as [[fxy fc] rad]. cbn [st_f Nat.ltb Nat.leb]. apply fv_sum. intros i Hi. apply fv_scal. apply (Gn i Hi). }
    destruct (r_model r) as [|k] eqn:Em.
    - assert (Ft : forall i d, (i < r_n r)%nat -> fv (st_fxy res i O d) (ft i d)).
      { intros i d Hi. destruct (Gn i Hi) as (A & B & C & D). destruct (HM i Hi) as (_ & _ & H3 & _ & H5). rewrite Em in H5. unfold res, static_force, tangential_part. rewrite Em. cbn [st_fxy]. unfold ft, asperity_friction. cbv zeta. fold (fn i).
        rewrite <- Gm. apply tangential_value; [apply Hu| |apply stored_v; apply H5|exact A|exact B|apply Rmult_le_pos; assumption]. rewrite H3. apply fv_const. }
      split; [|split].
      + intros i Hi. destruct (St i Hi) as (A & B & C). split; [exact A|]. split; [exact B|]. split; [exact C|]. intros d. apply Ft. exact Hi.
      + exact Nf.
      + intros d Hd. exists (rsum (r_n r) (fun i => r_weights r i * ft i d)). split; [|split].
        * assert (Ef : st_f res d = fsum (r_n r) (fun i => fscal (r_weights r i) (st_fxy res i O d))).
          { unfold res, static_force, tangential_part. rewrite Em. cbn [st_f st_fxy]. rewrite (proj2 (Nat.ltb_lt d 2)) by exact Hd. reflexivity. }
          rewrite Ef. apply fv_sum. intros i Hi. apply fv_scal. apply Ft. exact Hi.
        * intros _. reflexivity.
        * intros Hw. apply weighted_abs; [exact Hw|]. intros i Hi. unfold ft, asperity_friction. cbv zeta. fold (fn i). apply Rabs_le. apply clamp_range. pose proof (Rmult_le_pos (rs_mu st) (fn i) Hm ltac:(apply (Gn i Hi))). lra.
    - assert (Tr : forall i d, (i < r_n r)%nat -> (forall j, (j < k)%nat -> finite (st_fxy res i j d)) /\
        exists f, fv (mif_force k (quad_radii k) (weight_radii k) (st_a res i) (fun j => st_fxy res i j d)) f /\ Rabs f <= rs_mu st * fn i).
      { intros i d Hi. destruct (Gn i Hi) as (A & B & C & D). destruct (HM i Hi) as (_ & _ & H3 & _ & H5). rewrite Em in H5. destruct H5 as [H5 H6].
        assert (T : forall j, (j < k)%nat -> exists t, fv (st_fxy res i j d) t /\ Rabs t <= rs_mu st * pressure (fn i) (asperity_radius s (mem_d (M i)) (mem_F (M i)) (x i)) (quad_radii k j)).
        { intros j Hj. unfold res, static_force, tangential_part. rewrite Em. cbn [st_fxy].
          eapply traction_value; [exact Hmodel|apply Hu| |exact A|exact B|exact C|exact D|exact Hm| |].
          - apply fv_const.
          - intros j' Hj'. apply stored_finite. apply H5. exact Hj'.
          - intros j' Hj'. apply stored_finite. apply H6. exact Hj'. }
        split; [intros j Hj; destruct (T j Hj) as (t & Ht & _); exists t; exact Ht|].
        assert (Ch : forall n, (n <= k)%nat -> exists t, forall j, (j < n)%nat -> fv (st_fxy res i j d) (t j) /\ Rabs (t j) <= rs_mu st * pressure (fn i) (asperity_radius s (mem_d (M i)) (mem_F (M i)) (x i)) (quad_radii k j)).
        { induction n as [|n IH]; intros Hn; [exists (fun _ => 0); intros; lia|]. destruct (IH ltac:(lia)) as [t Ht]. destruct (T n ltac:(lia)) as [t' Ht']. exists (fun j => if Nat.eqb j n then t' else t j). intros j Hj.
          destruct (Nat.eqb_spec j n) as [->|]; [exact Ht'|apply Ht; lia]. }
        destruct (Ch k (le_n k)) as [t Ht]. destruct (St i Hi) as (_ & B' & _).
        eapply mif_force_value; [exact B'| |exact C|exact D|exact Hm|]; intros j Hj; apply (Ht j Hj). }
      split; [|split].
      + intros i Hi. destruct (St i Hi) as (A & B & C). split; [exact A|]. split; [exact B|]. split; [exact C|]. split; [intros j d Hj; apply (Tr i d Hi); exact Hj|].
        intros j Hj. assert (Er : st_radii res i j = mif_radii (st_a res i) (quad_radii k) j) by (unfold res, static_force, tangential_part; rewrite Em; reflexivity). rewrite Er. apply finite_scal. eexists. exact B.
      + exact Nf.
      + intros d Hd.
        assert (Ch : forall n, (n <= r_n r)%nat -> exists t, forall i, (i < n)%nat -> fv (mif_force k (quad_radii k) (weight_radii k) (st_a res i) (fun j => st_fxy res i j d)) (t i) /\ Rabs (t i) <= rs_mu st * fn i).
        { induction n as [|n IH]; intros Hn; [exists (fun _ => 0); intros; lia|]. destruct (IH ltac:(lia)) as [t Ht]. destruct (Tr n d ltac:(lia)) as [_ [t' Ht']]. exists (fun j => if Nat.eqb j n then t' else t j). intros j Hj.
          destruct (Nat.eqb_spec j n) as [->|]; [exact Ht'|apply Ht; lia]. }
        destruct (Ch (r_n r) (le_n _)) as [t Ht]. exists (rsum (r_n r) (fun i => r_weights r i * t i)). split; [|split].
        * assert (Ef : st_f res d = fsum (r_n r) (fun i => fscal (r_weights r i) (mif_force k (quad_radii k) (weight_radii k) (st_a res i) (fun j => st_fxy res i j d)))).
          { unfold res, static_force, tangential_part. rewrite Em. cbn [st_f st_fxy st_a]. rewrite (proj2 (Nat.ltb_lt d 2)) by exact Hd. reflexivity. }
          rewrite Ef. apply fv_sum. intros i Hi. apply fv_scal. apply (Ht i Hi).
        * discriminate.
        * intros Hw. apply weighted_abs; [exact Hw|]. intros i Hi. apply (Ht i Hi).
  Qed.

  Lemma holds_start st i : (i < r_n r)%nat -> holds (init_history st) i (memory_after s (g i) []).
  Proof.
    intros Hi. unfold holds, memory_after. cbn [init_history rs_unmax rs_Fm rs_u0 rs_fxy rs_radii fold_left mem_d mem_F mem_u mem_f].
    split; [reflexivity|]. split; [reflexivity|]. split; [reflexivity|]. split; [apply (mem_ok_start s); apply Hgap; exact Hi|].
    destruct (r_model r); [reflexivity|]. split; intros; exists 0; reflexivity.
  Qed.

  Lemma holds_update st X i (M : nat -> memory) : 0 <= rs_mu st -> (forall i, (i < r_n r)%nat -> holds st i (M i)) -> (i < r_n r)%nat ->
    holds (update_history st (matvec N Q X) (static_force r st (seeded_local N Q X))) i (remember s (g i) (M i) (rs_mu st, matvec N Q X)).
  Proof.
    intros Hm HM Hi. destruct (static_values st (seeded_local N Q X) (matvec N Q X) M Hm (fun d => eq_refl) HM) as [A _]. destruct (A i Hi) as (A1 & A2 & A3 & A4). clear A. destruct (HM i Hi) as (H1 & H2 & H3 & H4 & _).
    unfold holds, remember. cbn [update_history rs_unmax rs_Fm rs_u0 rs_fxy rs_radii mem_d mem_F mem_u mem_f fst snd].
    split; [|split; [exact A3|split; [reflexivity|split]]].
    - rewrite <- H1. unfold Rmax. repeat destruct (Rle_dec _ _); lra.
    - apply (mem_ok_step s Hs). exact H4.
    - destruct (r_model r); [intros d; apply A4|]. destruct A4 as [A4 A5]. split; [intros j d Hj; apply (A4 j d Hj)|intros j Hj; apply (A5 j Hj)].
  Qed.

  Definition tracks (st : rough_state) (p : R * list (R * vec)) : Prop :=
    rs_mu st = fst p /\ 0 <= fst p /\ forall i, (i < r_n r)%nat -> holds st i (memory_after s (g i) (snd p)).

  Lemma tracks_run u0 st cs : rough_new r u0 = Ok st ->
    let st' := rough_run r N Q st cs in
    rs_mu st' = rough_mu_after (r_mu r) cs /\ 0 <= rs_mu st' /\ forall i, (i < r_n r)%nat -> holds st' i (memory_after s (g i) (rough_moves (r_mu r) N Q cs)).
  Proof.
    intros Hnew. cbv zeta. unfold rough_run, rough_mu_after, rough_moves.
    set (f := fun (st : R * list (R * vec)) c => match c with RInitHistory => (fst st, []) | RSetPrestressMu => (0, snd st) | RResetRealMu => (r_mu r, snd st)
                              | RForce X true => (fst st, snd st ++ [(fst st, fun d => rsum N (fun j => Q d j * X j))]) | _ => st end).
    assert (St : rs_mu st = r_mu r /\ forall i, (i < r_n r)%nat -> holds st i (memory_after s (g i) [])).
    { unfold rough_new in Hnew. destruct (new_u0 u0); cbn in Hnew; [|discriminate]. injection Hnew as <-. split; [reflexivity|]. intros i Hi. apply (holds_start (mkRS (r_mu r) 0 (fun _ => Some 0) (fun _ => 0) (fun _ _ _ => Some 0) (fun _ _ => Some 0) a)). exact Hi. }
    assert (Gen : forall cs st p mu, rs_mu st = fst p -> mu = fst p -> 0 <= fst p -> (forall i, (i < r_n r)%nat -> holds st i (memory_after s (g i) (snd p))) ->
      let st' := fold_left (rough_step r N Q) cs st in let p' := fold_left f cs p in
      rs_mu st' = fold_left (fun m c => match c with RSetPrestressMu => 0 | RResetRealMu => r_mu r | _ => m end) cs mu /\ 0 <= rs_mu st' /\ forall i, (i < r_n r)%nat -> holds st' i (memory_after s (g i) (snd p'))).
    { clear st Hnew St cs. intros cs. induction cs as [|c cs0 IH]; intros st p mu H1 H2 H3 H4; cbv zeta; cbn [fold_left].
      - split; [rewrite H1, H2; reflexivity|]. split; [rewrite H1; exact H3|exact H4].
      - destruct c as [X [|]| | | |X]; apply IH; cbn [f fst snd rough_step rough_force rs_mu update_history]; try assumption; try lra; try reflexivity.
        + intros i Hi. unfold memory_after. rewrite fold_left_app. cbn [fold_left].
          pose proof (holds_update st X i (fun i => memory_after s (g i) (snd p)) ltac:(lra) H4 Hi) as K. rewrite H1 in K. exact K.
        + intros i Hi. apply holds_start. exact Hi. }
    destruct St as [S1 S2]. apply (Gen cs st (r_mu r, []) (r_mu r)); [exact S1|reflexivity|exact Hmu|exact S2].
  Qed.
End Calls.

(** * The start of the harmonic evaluation *)
Lemma run_start r N Q cs : forall st (p : vec), (forall d, (d < 3)%nat -> rs_aft_u0 st d = p d) -> forall d, (d < 3)%nat ->
  rs_aft_u0 (rough_run r N Q st cs) d = fold_left (fun p c => match c with RSetAftInitialize X => fun d => rsum N (fun j => Q d j * X j) | _ => p end) cs p d.
Proof.
  induction cs as [|c cs IH]; intros st p Hp d Hd; [apply Hp; exact Hd|]. unfold rough_run. cbn [fold_left]. apply IH; [|exact Hd]. clear d Hd. intros d Hd.
  destruct c as [X [|]| | | |X]; cbn; try (apply Hp; exact Hd). reflexivity.
Qed.

Lemma aft_start r N Q u0 cs :
  (start_allowed u0 -> exists st, rough_new r u0 = Ok st /\ forall d, (d < 3)%nat -> rs_aft_u0 (rough_run r N Q st cs) d = aft_start_after N Q u0 cs d) /\
  (~ start_allowed u0 -> rough_new r u0 = Err AssertionError).
Proof.
  assert (S : forall v, new_u0 u0 = Ok v -> (forall d, (d < 3)%nat -> v d = start_of u0 d) ->
    exists st, rough_new r u0 = Ok st /\ forall d, (d < 3)%nat -> rs_aft_u0 (rough_run r N Q st cs) d = aft_start_after N Q u0 cs d).
  { intros v E Hv. unfold rough_new. rewrite E. cbn [bind]. eexists. split; [reflexivity|]. intros d Hd. apply run_start; [exact Hv|exact Hd]. }
  split.
  - intros H. destruct u0 as [x|len v].
    + apply (S _ eq_refl). intros d Hd. destruct d as [|[|[|d]]]; [reflexivity|reflexivity|reflexivity|lia].
    + cbn in H. destruct len as [|[|[|[|len]]]]; try lia; apply (S _ eq_refl); intros d Hd; destruct d as [|[|[|d]]]; try reflexivity; lia.
  - intros H. destruct u0 as [x|len v]; [exfalso; apply H; exact I|]. cbn in H. unfold rough_new. destruct len as [|[|[|[|len]]]]; try reflexivity; exfalso; apply H; lia.
Qed.
