(** Blocks of sorted harmonic lists: placement, rotation and assembly of the rows of the VPRNM reduced model. *)
From Coq Require Import Reals Lra Lia Arith List Bool Sorting.Sorted.
From Verif.Lib Require Import RSum Calc Py.
From Verif.Spec Require Import Calculus Harmonic System Postprocess Rom VprnmRom.
From Verif.Model Require Import Harmonic Postprocess EpmcRom Predict VprnmRom.
From Verif.Proofs Require Import HarmonicP HarmonicOpsP VibSysP VibControlP EpmcP VprnmP.
Import ListNotations.
Open Scope R_scope.

Lemma low_index_len h k : low_index h k = low_len k h.
Proof. unfold low_index, low_len. rewrite length_components. reflexivity. Qed.

(** ---- sorted lists ---- *)
Lemma sorted_app (l m : list nat) : StronglySorted lt (l ++ m) -> StronglySorted lt l /\ StronglySorted lt m /\ forall x y, In x l -> In y m -> (x < y)%nat.
Proof.
  induction l as [|a l IH]; cbn; intros H; [split; [constructor|split; [exact H|intros x y []]]|].
  inversion H as [|? ? H1 H2]; subst. destruct (IH H1) as (A & B & D). rewrite Forall_forall in H2. split; [|split; [exact B|]].
  - constructor; [exact A|]. apply Forall_forall. intros x Hx. apply H2. apply in_or_app. left. exact Hx.
  - intros x y [<-|Hx] Hy; [apply H2, in_or_app; right; exact Hy|exact (D x y Hx Hy)].
Qed.

Lemma sorted_nodup l : StronglySorted lt l -> NoDup l.
Proof. induction 1 as [|a l H IH F]; constructor; [|exact IH]. intros I. rewrite Forall_forall in F. specialize (F a I). lia. Qed.

Lemma sorted_adm h : h <> [] -> StronglySorted lt h -> admissible h.
Proof.
  intros Hne H. split; [exact Hne|]. split; [apply sorted_nodup; exact H|]. destruct H as [|a l H F]; [contradiction|]. cbn [tl]. intros I. rewrite Forall_forall in F. specialize (F _ I). lia.
Qed.

Lemma sorted_ordered h k : StronglySorted lt h -> In k h -> (0 < k)%nat -> ordered_at k h.
Proof.
  intros H I Hk. apply in_split in I. destruct I as (low & high & ->). exists low, high. split; [reflexivity|]. split; [exact Hk|].
  destruct (sorted_app _ _ H) as (_ & B & D). split.
  - intros x Hx. apply D; [exact Hx|left; reflexivity].
  - intros x Hx. inversion B as [|? ? _ F]; subst. rewrite Forall_forall in F. apply F. exact Hx.
Qed.

Lemma low_len_step h k k' : StronglySorted lt h -> In k h -> (0 < k < k')%nat -> (low_len k h + 2 <= low_len k' h)%nat.
Proof.
  intros H I Hk. pose proof I as I'. apply in_split in I'. destruct I' as (low & high & ->). destruct (sorted_app _ _ H) as (_ & B & D).
  assert (Hl : forall x, In x low -> (x < k)%nat) by (intros x Hx; apply D; [exact Hx|left; reflexivity]).
  assert (Hh : forall x, In x high -> (k < x)%nat) by (inversion B as [|? ? _ F]; subst; rewrite Forall_forall in F; exact F).
  unfold low_len at 1. rewrite filter_low by assumption. unfold low_len. rewrite filter_app. cbn [filter]. rewrite (ltb_t k k') by lia.
  replace (filter (fun x => Nat.ltb x k') low) with low.
  - rewrite components_app, app_length, components_pos by lia. cbn [length]. lia.
  - clear -Hl Hk. induction low as [|x l IH]; [reflexivity|]. cbn [filter]. rewrite ltb_t by (specialize (Hl x (or_introl eq_refl)); lia). f_equal. apply IH. intros y Hy. apply Hl. right. exact Hy.
Qed.

Lemma low_len_zero h k : In O h -> (0 < k)%nat -> (1 <= low_len k h)%nat.
Proof.
  intros I Hk. unfold low_len. assert (I2 : In O (filter (fun x => Nat.ltb x k) h)) by (apply filter_In; split; [exact I|apply Nat.ltb_lt; exact Hk]).
  destruct (in_split _ _ I2) as (l1 & l2 & E). rewrite E, components_app, app_length. cbn. lia.
Qed.

(** ---- np.unique ---- *)
Lemma insert_unique_in k l x : In x (insert_unique k l) <-> x = k \/ In x l.
Proof.
  induction l as [|y l IH]; cbn [insert_unique]; [cbn; intuition|]. destruct (Nat.ltb k y); [cbn; intuition|]. destruct (Nat.eqb_spec k y) as [->|]; [cbn; intuition|]. cbn [In]. rewrite IH. intuition.
Qed.
Lemma insert_unique_sorted k l : StronglySorted lt l -> StronglySorted lt (insert_unique k l).
Proof.
  induction 1 as [|y l H IH F]; cbn [insert_unique]; [repeat constructor|]. destruct (Nat.ltb_spec k y) as [L|L].
  - constructor; [constructor; assumption|]. constructor; [exact L|]. rewrite Forall_forall in F |- *. intros x Hx. specialize (F x Hx). lia.
  - destruct (Nat.eqb_spec k y) as [->|E]; [constructor; assumption|]. constructor; [exact IH|]. apply Forall_forall. intros x Hx. apply insert_unique_in in Hx. rewrite Forall_forall in F. destruct Hx as [->|Hx]; [lia|apply F; exact Hx].
Qed.
Lemma unique_spec l : StronglySorted lt (np_unique l) /\ forall x, In x (np_unique l) <-> In x l.
Proof.
  induction l as [|k l [A B]]; [split; [constructor|reflexivity]|]. split; [apply insert_unique_sorted; exact A|]. intros x. unfold np_unique. cbn [fold_right]. rewrite insert_unique_in. fold (np_unique l). rewrite B. cbn. intuition.
Qed.

(** ---- harmonic parts ---- *)
Lemma harmonic_part_none k N h U w j t : ~ In k h -> harmonic_part k N h U w j t = 0.
Proof. intros H. unfold harmonic_part. apply (harm_zero k h (fun c => U (c * N + j)%nat)). exact H. Qed.

Lemma harmonic_part_0 N h U w j t : admissible h -> harmonic_part 0 N h U w j t = static_part h U j.
Proof.
  intros Ha. unfold static_part. destruct (in_dec Nat.eq_dec O h) as [I|I]; [|apply harmonic_part_none; exact I].
  destruct Ha as (_ & _ & Hz). destruct h as [|k h]; [destruct I|]. cbn [tl] in Hz. destruct I as [->|I]; [|contradiction].
  unfold harmonic_part. cbn [components flat_map app length]. rewrite rsum_S_l. cbn [nth Nat.eqb Nat.mul Nat.add].
  rewrite (rsum_ext _ _ (fun c => match nth c (components h) (Cos 0) with Cos m | Sin m => if Nat.eqb m 0 then U (S c * N + j)%nat * basis (0%nat :: h) (S c) (w * t) else 0 end)) by reflexivity.
  rewrite (harm_zero 0 h (fun c => U (S c * N + j)%nat)) by exact Hz. unfold basis. cbn [components flat_map app nth comp_fun]. change (INR 0) with 0. rewrite Rmult_0_l, cos_0. ring.
Qed.

Lemma low_len_index h p : StronglySorted lt h -> (p < length h - zi h)%nat -> low_len (nth (p + zi h) h O) h = (2 * p + zi h)%nat /\ (0 < nth (p + zi h) h O)%nat.
Proof.
  intros H Hp. set (k := nth (p + zi h) h O).
  assert (Hne : h <> []) by (intros ->; cbn in Hp; lia). pose proof (sorted_adm h Hne H) as (_ & _ & Hz).
  assert (Hk : (0 < k)%nat).
  { destruct h as [|x h]; [contradiction|]. unfold k, zi in *. cbn [hd tl] in *. destruct x as [|x]; cbn [Nat.eqb] in *.
    - rewrite Nat.add_1_r. cbn [nth]. assert (I : In (nth p h O) h) by (apply nth_In; cbn in Hp; lia). destruct (nth p h O); [contradiction|lia].
    - rewrite Nat.add_0_r. destruct p; [cbn; lia|]. cbn [nth]. assert (I : In (nth p h O) h) by (apply nth_In; cbn in Hp; lia). destruct (nth p h O); [contradiction|lia]. }
  split; [|exact Hk].
  assert (E : h = firstn (p + zi h) h ++ k :: skipn (S (p + zi h)) h).
  { rewrite <- (firstn_skipn (p + zi h) h) at 1. f_equal. clear -Hp. assert (L : (p + zi h < length h)%nat) by lia. revert k. generalize (zi h) L. intros z0 L0 k. unfold k. clear k. revert L0. generalize (p + z0)%nat. clear. induction h as [|x h IH]; intros [|m] Hm; cbn in *; try lia; [reflexivity|]. apply IH. lia. }
  destruct (sorted_app _ _ (eq_ind _ (StronglySorted lt) H _ E)) as (_ & B & D).
  unfold low_len. rewrite E at 1. rewrite filter_low.
  - rewrite length_components. pose proof (sorted_nodup h H) as ND. set (f := firstn (p + zi h) h).
    assert (Lf : length f = (p + zi h)%nat) by (unfold f; rewrite firstn_length; lia).
    assert (CZ : (count_zero f = zi h /\ count_nonzero f = p)%nat).
    { assert (S : (count_zero f + count_nonzero f = p + zi h)%nat).
      { rewrite <- Lf. unfold count_zero, count_nonzero. clear. induction f as [|x f IH]; [reflexivity|]. cbn [filter]. destruct x; cbn [Nat.eqb negb]; cbn [length]; lia. }
      assert (Z : count_zero f = zi h).
      { unfold f. clear -Hz Hp Hne. destruct h as [|x h]; [contradiction|]. cbn [tl] in Hz. unfold zi in *. cbn [hd] in *. 
        assert (Z0 : forall m, count_zero (firstn m h) = 0%nat).
        { clear -Hz. intros m. unfold count_zero. revert m. induction h as [|y h IH]; intros [|m]; cbn; try reflexivity. destruct y; [exfalso; apply Hz; left; reflexivity|]. cbn. apply IH. intros I. apply Hz. right. exact I. }
        destruct x as [|x]; cbn [Nat.eqb] in *.
        - rewrite Nat.add_1_r. cbn [firstn]. unfold count_zero in *. cbn. f_equal. apply Z0.
        - rewrite Nat.add_0_r. destruct p; [reflexivity|]. cbn [firstn]. unfold count_zero in *. cbn. apply Z0. }
      lia. }
    lia.
  - intros x Hx. apply D; [exact Hx|left; reflexivity].
  - intros x Hx. inversion B as [|? ? _ F]; subst. rewrite Forall_forall in F. apply F. exact Hx.
Qed.

Lemma index_of h k : In k h -> (0 < k)%nat -> StronglySorted lt h -> exists p, (p < length h - zi h)%nat /\ nth (p + zi h) h O = k.
Proof.
  intros I Hk H. destruct (In_nth h k O I) as (m & Hm & E). exists (m - zi h)%nat.
  assert (Z : (zi h <= m)%nat).
  { unfold zi. destruct h as [|x h]; [destruct I|]. cbn [hd]. destruct (Nat.eqb_spec x 0) as [->|]; [|lia]. destruct m; [cbn in E; lia|lia]. }
  split; [lia|]. rewrite Nat.sub_add by exact Z. exact E.
Qed.

Lemma rotated_part k N h U p d tau : StronglySorted lt h -> h <> [] -> (0 < k)%nat -> (d < N)%nat ->
  harmonic_part k N h (rotate_subtract_phase U N h p 1) 1 d tau = harmonic_part k N h U 1 d (tau - p).
Proof.
  intros H Hne Hk Hd. destruct (in_dec Nat.eq_dec k h) as [I|I]; [|rewrite !harmonic_part_none by exact I; reflexivity].
  pose proof (sorted_ordered h k H I Hk) as Ho. rewrite !harmonic_part_k by exact Ho.
  destruct (index_of h k I Hk H) as (m & Hm & E). destruct (low_len_index h m H Hm) as [L _]. rewrite E in L. rewrite L.
  pose proof (sorted_adm h Hne H) as (_ & _ & Hz).
  destruct (rot_inv N h Hz U (p / INR 1) _ (le_n _)) as [A _]. cbv zeta in A. specialize (A m d Hm Hd). rewrite E in A. destruct A as [A B].
  replace (2 * m + zi h + 1)%nat with (2 * m + 1 + zi h)%nat by lia.
  unfold rotate_subtract_phase. rewrite A, B. change (INR 1) with 1. replace (p / 1) with p by field.
  replace (INR k * (1 * (tau - p))) with (INR k * (1 * tau) - INR k * p) by ring. rewrite cos_minus, sin_minus. ring.
Qed.
Lemma rotated_static N h U p d : StronglySorted lt h -> h <> [] -> (d < N)%nat -> In O h -> rotate_subtract_phase U N h p 1 d = U d.
Proof.
  intros H Hne Hd I. pose proof (sorted_adm h Hne H) as Ha. pose proof (zi_in h Ha) as Z. destruct (in_dec _ _ _); [|contradiction]. 
  exact (proj1 (proj2 (rot_inv N h (proj2 (proj2 Ha)) U (p / INR 1) _ (le_n _))) (eq_sym Z) d Hd).
Qed.

(** ---- assembly ---- *)
Section Assemble.
  Context (N : nat) (hout : list nat) (Hs : StronglySorted lt hout).

  Lemma set_at a m x v r : (a <= r < a + m)%nat -> set_slice a m x v r = x (r - a)%nat.
  Proof. intros H. unfold set_slice. rewrite in_block_true by lia. reflexivity. Qed.
  Lemma set_out a m x v r : (r < a \/ a + m <= r)%nat -> set_slice a m x v r = v r.
  Proof. intros H. unfold set_slice. rewrite in_block_false by lia. reflexivity. Qed.
  Lemma add_at a m x v r : (a <= r < a + m)%nat -> add_slice a m x v r = v r + x (r - a)%nat.
  Proof. intros [A B]. unfold add_slice. rewrite (proj2 (Nat.leb_le _ _) A), (proj2 (Nat.ltb_lt _ _) B). reflexivity. Qed.
  Lemma add_out a m x v r : (r < a \/ a + m <= r)%nat -> add_slice a m x v r = v r.
  Proof.
    intros H. unfold add_slice. destruct (Nat.leb_spec a r); [|reflexivity]. destruct (Nat.ltb_spec r (a + m)); [lia|reflexivity].
  Qed.

  (** the blocks of two harmonics are disjoint *)
  Lemma apart k k' i : In k hout -> In k' hout -> (0 < k)%nat -> (0 < k')%nat -> k <> k' -> (i < 2 * N)%nat ->
    (low_len k' hout * N + i < low_len k hout * N \/ low_len k hout * N + 2 * N <= low_len k' hout * N + i)%nat.
  Proof.
    intros I I' P P' Hd Hi. destruct (Nat.lt_ge_cases k k') as [L|L].
    - pose proof (low_len_step hout k k' Hs I ltac:(lia)). right. nia.
    - pose proof (low_len_step hout k' k Hs I' ltac:(lia)). left. nia.
  Qed.
  Lemma static_apart k d : In O hout -> In k hout -> (0 < k)%nat -> (d < N)%nat -> (d < low_len k hout * N)%nat.
  Proof. intros I I' P Hd. pose proof (low_len_zero hout k I P). nia. Qed.

  Definition set_blocks (hf : list nat) (P base : vec) (ks : list nat) : vec :=
    fold_left (fun acc k => set_slice (low_index hout k * N) (2 * N) (fun i => P (low_index hf k * N + i)%nat) acc) ks base.
  Definition add_blocks (hr : list nat) (rhi : nat) (r base : vec) (ks : list nat) : vec :=
    fold_left (fun acc k => add_slice (low_index hout (k * rhi) * N) (2 * N) (fun i => r (low_index hr k * N + i)%nat) acc) ks base.

  Lemma set_blocks_at hf P ks base k i : (forall x, In x ks -> In x hout /\ (0 < x)%nat) -> In k hout -> (0 < k)%nat -> (i < 2 * N)%nat ->
    set_blocks hf P base ks (low_len k hout * N + i)%nat = if in_dec Nat.eq_dec k ks then P (low_len k hf * N + i)%nat else base (low_len k hout * N + i)%nat.
  Proof.
    intros Hk I P0 Hi. unfold set_blocks. revert base. induction ks as [|x ks IH]; intros base; cbn [fold_left]; [reflexivity|].
    rewrite IH by (intros y Hy; apply Hk; right; exact Hy). rewrite !low_index_len.
    destruct (in_dec Nat.eq_dec k ks) as [Y|Y]; destruct (in_dec Nat.eq_dec k (x :: ks)) as [Z|Z]; try reflexivity.
    - exfalso. apply Z. right. exact Y.
    - destruct Z as [->|Z]; [|contradiction]. rewrite set_at by lia. do 2 f_equal. lia.
    - destruct (Hk x (or_introl eq_refl)) as [Ix Px]. rewrite set_out; [reflexivity|]. apply apart; auto. intros ->. apply Z. left. reflexivity.
  Qed.
  Lemma set_blocks_static hf P ks base d : (forall x, In x ks -> In x hout /\ (0 < x)%nat) -> In O hout -> (d < N)%nat -> set_blocks hf P base ks d = base d.
  Proof.
    intros Hk I Hd. unfold set_blocks. revert base. induction ks as [|x ks IH]; intros base; cbn [fold_left]; [reflexivity|].
    rewrite IH by (intros y Hy; apply Hk; right; exact Hy). destruct (Hk x (or_introl eq_refl)) as [Ix Px]. rewrite low_index_len. apply set_out. left. apply static_apart; assumption.
  Qed.

  Lemma add_blocks_at hr rhi r ks base j i : (0 < rhi)%nat -> NoDup ks -> (forall x, In x ks -> In (x * rhi)%nat hout /\ (0 < x)%nat) -> In j ks -> (i < 2 * N)%nat ->
    add_blocks hr rhi r base ks (low_len (j * rhi) hout * N + i)%nat = base (low_len (j * rhi) hout * N + i)%nat + r (low_len j hr * N + i)%nat.
  Proof.
    intros Hr ND Hk I Hi. unfold add_blocks. revert base. induction ks as [|x ks IH]; intros base; cbn [fold_left]; [destruct I|]. inversion ND as [|? ? Nx ND']; subst.
    destruct (Hk j I) as [Ij Pj]. destruct (Hk x (or_introl eq_refl)) as [Ix Px]. destruct (Nat.eq_dec j x) as [->|D].
    - clear IH. rewrite <- (Rplus_0_r (r _)).
      assert (Q : forall b, fold_left (fun acc k => add_slice (low_index hout (k * rhi) * N) (2 * N) (fun i0 => r (low_index hr k * N + i0)%nat) acc) ks b (low_len (x * rhi) hout * N + i)%nat = b (low_len (x * rhi) hout * N + i)%nat).
      { assert (Hk' : forall y, In y ks -> In (y * rhi)%nat hout /\ (0 < y)%nat) by (intros y Hy; apply Hk; right; exact Hy). clear Hk I ND ND'. revert Nx Hk'.
        induction ks as [|y ks IH]; intros Nx Hk' b; cbn [fold_left]; [reflexivity|]. rewrite IH; [|intros Y; apply Nx; right; exact Y|intros z Hz; apply Hk'; right; exact Hz].
        destruct (Hk' y (or_introl eq_refl)) as [Iy Py]. rewrite low_index_len. apply add_out. apply apart; auto; try nia.
        intros E. apply Nat.mul_cancel_r in E; [|lia]. apply Nx. left. exact E. }
      rewrite Q. rewrite !low_index_len. rewrite add_at by lia. rewrite Rplus_0_r. do 3 f_equal. lia.
    - destruct I as [E|I]; [congruence|]. rewrite IH; [|exact ND'|intros y Hy; apply Hk; right; exact Hy|exact I]. f_equal. rewrite low_index_len. apply add_out. apply apart; auto; try nia.
  Qed.
  Lemma add_blocks_out hr rhi r ks base k i : (0 < rhi)%nat -> (forall x, In x ks -> In (x * rhi)%nat hout /\ (0 < x)%nat) -> In k hout -> (0 < k)%nat ->
    (forall x, In x ks -> k <> (x * rhi)%nat) -> (i < 2 * N)%nat ->
    add_blocks hr rhi r base ks (low_len k hout * N + i)%nat = base (low_len k hout * N + i)%nat.
  Proof.
    intros Hr Hk I P Hn Hi. unfold add_blocks. revert base. induction ks as [|x ks IH]; intros base; cbn [fold_left]; [reflexivity|].
    rewrite IH; [|intros y Hy; apply Hk; right; exact Hy|intros y Hy; apply Hn; right; exact Hy].
    destruct (Hk x (or_introl eq_refl)) as [Ix Px]. rewrite low_index_len. apply add_out. apply apart; auto; try nia. intros E. apply (Hn x (or_introl eq_refl)). congruence.
  Qed.
  Lemma add_blocks_static hr rhi r ks base d : (0 < rhi)%nat -> (forall x, In x ks -> In (x * rhi)%nat hout /\ (0 < x)%nat) -> In O hout -> (d < N)%nat -> add_blocks hr rhi r base ks d = base d.
  Proof.
    intros Hr Hk I Hd. unfold add_blocks. revert base. induction ks as [|x ks IH]; intros base; cbn [fold_left]; [reflexivity|].
    rewrite IH by (intros y Hy; apply Hk; right; exact Hy). destruct (Hk x (or_introl eq_refl)) as [Ix Px]. rewrite low_index_len. apply add_out. left. apply static_apart; auto. nia.
  Qed.
End Assemble.

Lemma skip_spec h : StronglySorted lt h -> h <> [] -> forall x, In x (skipn (zi h) h) <-> In x h /\ (0 < x)%nat.
Proof.
  intros H Hne x. pose proof (sorted_adm h Hne H) as (_ & _ & Hz). destruct h as [|k h]; [contradiction|]. cbn [tl] in Hz. unfold zi. cbn [hd]. destruct k as [|k]; cbn [Nat.eqb skipn].
  - split; [intros I; split; [right; exact I|]; destruct x; [contradiction|lia]|]. intros [[E|I] P]; [lia|exact I].
  - split; [intros I; split; [exact I|]; destruct I as [<-|I]; [lia|destruct x; [contradiction|lia]]|]. intros [I _]. exact I.
Qed.

Lemma skip_nodup (h : list nat) : NoDup h -> NoDup (skipn (zi h) h).
Proof.
  intros H. unfold zi. destruct (Nat.eqb _ _); [|exact H]. destruct h as [|x l]; [exact H|]. cbn [skipn]. inversion H; assumption.
Qed.

Section Row.
  Context (N : nat) (h_vprnm h_fund h_rhi : list nat) (rhi : nat) (v P r : vec) (Om : R).
  Context (Sv : StronglySorted lt h_vprnm) (Sf : StronglySorted lt h_fund) (Sr : StronglySorted lt h_rhi).
  Context (Nv : h_vprnm <> []) (Nf : h_fund <> []) (Nr : h_rhi <> []) (Hr : (0 < rhi)%nat).
  Let hout := np_unique (hd O h_vprnm :: h_fund ++ map (fun k => k * rhi)%nat h_rhi).
  Let u := assemble_row N h_vprnm h_fund h_rhi hout rhi v P r Om.

  Lemma out_sorted : StronglySorted lt hout. Proof. apply unique_spec. Qed.
  Lemma out_in k : In k hout <-> k = hd O h_vprnm \/ In k h_fund \/ exists j, In j h_rhi /\ k = (j * rhi)%nat.
  Proof.
    unfold hout. rewrite (proj2 (unique_spec _)). cbn [In]. rewrite in_app_iff, in_map_iff. split.
    - intros [E|[I|[j [E I]]]]; auto. right. right. exists j. auto.
    - intros [E|[I|[j [I E]]]]; auto. right. right. exists j. auto.
  Qed.
  Lemma out_ne : hout <> [].
  Proof. intros E. assert (I : In (hd O h_vprnm) hout) by (apply out_in; left; reflexivity). rewrite E in I. destruct I. Qed.

  Lemma row_low i : (i < length (components hout) * N)%nat ->
    u i = add_blocks N hout h_rhi rhi r (set_blocks N hout h_fund P (if Nat.eqb (zi h_vprnm) 1 then set_slice 0 N v vzero else vzero) (skipn (zi h_fund) h_fund)) (skipn (zi h_rhi) h_rhi) i.
  Proof. intros Hi. unfold u, assemble_row. cbv zeta. rewrite <- length_components. rewrite (proj2 (Nat.eqb_neq _ _)) by lia. reflexivity. Qed.
  Lemma row_frequency : u (length (components hout) * N)%nat = Om.
  Proof. unfold u, assemble_row. cbv zeta. rewrite <- length_components. rewrite Nat.eqb_refl. reflexivity. Qed.

  Lemma fund_in x : In x (skipn (zi h_fund) h_fund) -> In x hout /\ (0 < x)%nat.
  Proof. intros H. apply skip_spec in H; try assumption. split; [|apply H]. apply out_in. right. left. apply H. Qed.
  Lemma super_in x : In x (skipn (zi h_rhi) h_rhi) -> In (x * rhi)%nat hout /\ (0 < x)%nat.
  Proof. intros H. apply skip_spec in H; try assumption. split; [|apply H]. apply out_in. right. right. exists x. split; [apply H|reflexivity]. Qed.

  Lemma base_block k i : In k hout -> (0 < k)%nat -> (i < 2 * N)%nat -> (if Nat.eqb (zi h_vprnm) 1 then set_slice 0 N v vzero else vzero) (low_len k hout * N + i)%nat = 0.
  Proof.
    intros I P0 Hi. destruct (Nat.eqb_spec (zi h_vprnm) 1) as [E|]; [|reflexivity]. unfold zi in E. destruct (Nat.eqb_spec (hd 1%nat h_vprnm) 0) as [E0|]; [|discriminate].
    assert (I0 : In O hout) by (apply out_in; left; destruct h_vprnm; [contradiction|symmetry; exact E0]).
    rewrite set_out; [reflexivity|]. right. pose proof (low_len_zero hout k I0 P0). nia.
  Qed.

  Lemma row_block k i : In k hout -> (0 < k)%nat -> (i < 2 * N)%nat ->
    u (low_len k hout * N + i)%nat = (if in_dec Nat.eq_dec k h_fund then P (low_len k h_fund * N + i)%nat else 0)
      + (if Nat.eqb (k mod rhi)%nat 0 then (if in_dec Nat.eq_dec (k / rhi)%nat h_rhi then r (low_len (k / rhi)%nat h_rhi * N + i)%nat else 0) else 0).
  Proof.
    intros I P0 Hi. pose proof (low_len_bound k hout (sorted_ordered hout k out_sorted I P0)) as LB. rewrite row_low by nia.
    assert (SB : set_blocks N hout h_fund P (if Nat.eqb (zi h_vprnm) 1 then set_slice 0 N v vzero else vzero) (skipn (zi h_fund) h_fund) (low_len k hout * N + i)%nat
      = if in_dec Nat.eq_dec k h_fund then P (low_len k h_fund * N + i)%nat else 0).
    { rewrite set_blocks_at by (auto using out_sorted, fund_in). rewrite base_block by assumption. pose proof (skip_spec h_fund Sf Nf k) as Q.
      destruct (in_dec Nat.eq_dec k (skipn (zi h_fund) h_fund)) as [Y|Y]; destruct (in_dec Nat.eq_dec k h_fund) as [Z|Z]; try reflexivity; exfalso; tauto. }
    set (B := set_blocks _ _ _ _ _ _) in *. clearbody B.
    destruct (Nat.eqb_spec (k mod rhi)%nat 0) as [E|E].
    - assert (Ek : k = (k / rhi * rhi)%nat) by (pose proof (Nat.div_mod k rhi ltac:(lia)); lia). set (j := (k / rhi)%nat) in *. clearbody j.
      assert (Pj : (0 < j)%nat) by (destruct j; lia). pose proof (skip_spec h_rhi Sr Nr j) as Q.
      destruct (in_dec Nat.eq_dec j h_rhi) as [Y|Y].
      + rewrite Ek. rewrite add_blocks_at.
        * rewrite <- Ek. rewrite SB. reflexivity.
        * apply out_sorted.
        * exact Hr.
        * apply skip_nodup, sorted_nodup, Sr.
        * exact super_in.
        * apply Q. auto.
        * exact Hi.
      + rewrite add_blocks_out by (auto using out_sorted, super_in; intros x Hx Ex; apply Y; apply skip_spec in Hx; auto; replace j with x by nia; apply Hx). rewrite SB. ring.
    - rewrite add_blocks_out by (auto using out_sorted, super_in; intros x Hx Ex; apply E; rewrite Ex; apply Nat.mod_mul; lia). rewrite SB. ring.
  Qed.

  (** harmonic k > 0 of an assembled row *)
  Lemma row_part k d tau : (0 < k)%nat -> (d < N)%nat ->
    harmonic_part k N hout u 1 d tau = harmonic_part k N h_fund P 1 d tau + (if Nat.eqb (k mod rhi)%nat 0 then harmonic_part (k / rhi)%nat N h_rhi r 1 d (INR rhi * tau) else 0).
  Proof.
    intros P0 Hd. destruct (in_dec Nat.eq_dec k hout) as [I|I].
    - rewrite (harmonic_part_k k N hout) by (apply sorted_ordered; auto using out_sorted).
      replace ((low_len k hout + 1) * N + d)%nat with (low_len k hout * N + (N + d))%nat by lia. rewrite !row_block by (auto; lia).
      assert (F : (if in_dec Nat.eq_dec k h_fund then P (low_len k h_fund * N + d)%nat else 0) * cos (INR k * (1 * tau)) + (if in_dec Nat.eq_dec k h_fund then P (low_len k h_fund * N + (N + d))%nat else 0) * sin (INR k * (1 * tau)) = harmonic_part k N h_fund P 1 d tau).
      { destruct (in_dec Nat.eq_dec k h_fund) as [Y|Y]; [|rewrite harmonic_part_none by exact Y; ring]. rewrite harmonic_part_k by (apply sorted_ordered; assumption). f_equal. f_equal. f_equal. lia. }
      rewrite <- F. clear F. destruct (Nat.eqb_spec (k mod rhi)%nat 0) as [E|E]; [|ring].
      assert (Ek : k = (k / rhi * rhi)%nat) by (pose proof (Nat.div_mod k rhi ltac:(lia)); lia). assert (Pj : (0 < k / rhi)%nat) by (destruct (k / rhi)%nat; lia).
      destruct (in_dec Nat.eq_dec (k / rhi)%nat h_rhi) as [Y|Y].
      + rewrite (harmonic_part_k (k / rhi)%nat) by (apply sorted_ordered; assumption). replace (INR (k / rhi)%nat * (1 * (INR rhi * tau))) with (INR k * (1 * tau)) by (rewrite Ek at 1; rewrite mult_INR; ring).
        replace ((low_len (k / rhi)%nat h_rhi + 1) * N + d)%nat with (low_len (k / rhi)%nat h_rhi * N + (N + d))%nat by lia. ring.
      + rewrite (harmonic_part_none (k / rhi)%nat) by exact Y. ring.
    - rewrite (harmonic_part_none k N hout) by exact I. rewrite harmonic_part_none by (intros Y; apply I, out_in; auto).
      destruct (Nat.eqb_spec (k mod rhi)%nat 0) as [E|E]; [|ring]. rewrite harmonic_part_none; [ring|]. intros Y. apply I, out_in. right. right. exists (k / rhi)%nat. split; [exact Y|]. pose proof (Nat.div_mod k rhi ltac:(lia)). lia.
  Qed.

  Lemma row_static d tau : (d < N)%nat -> harmonic_part 0 N hout u 1 d tau = static_part h_vprnm v d.
  Proof.
    intros Hd. rewrite harmonic_part_0 by (apply sorted_adm; auto using out_ne, out_sorted). pose proof (EpmcP.zi_in h_vprnm (sorted_adm _ Nv Sv)) as Z. unfold static_part.
    destruct (in_dec Nat.eq_dec O hout) as [I|I]; destruct (in_dec Nat.eq_dec O h_vprnm) as [J|J].
    - rewrite row_low by (pose proof (low_len_zero hout 1 I ltac:(lia)); assert (L1 : (1 <= length (components hout))%nat) by (destruct (in_split _ _ I) as (l1 & l2 & E); rewrite E, components_app, app_length; cbn; lia); nia).
      rewrite add_blocks_static, set_blocks_static by (auto using out_sorted, fund_in, super_in). rewrite <- Z. cbn [Nat.eqb]. rewrite set_at by lia. f_equal. lia.
    - rewrite row_low by (assert (L1 : (1 <= length (components hout))%nat) by (destruct (in_split _ _ I) as (l1 & l2 & E); rewrite E, components_app, app_length; cbn; lia); nia).
      rewrite add_blocks_static, set_blocks_static by (auto using out_sorted, fund_in, super_in). rewrite <- Z. reflexivity.
    - exfalso. apply I, out_in. left. unfold zi in Z. destruct h_vprnm as [|x l]; [destruct J|]. cbn in *. destruct (Nat.eqb_spec x 0); [auto|discriminate].
    - reflexivity.
  Qed.
End Row.

(** ---- which entries belong to which harmonic ---- *)
Lemma component_index h p : ~ In O (tl h) -> (p < length h - zi h)%nat ->
  nth (2 * p + zi h) (components h) (Cos O) = Cos (nth (p + zi h) h O) /\ nth (2 * p + 1 + zi h) (components h) (Cos O) = Sin (nth (p + zi h) h O).
Proof.
  intros H Hp. rewrite components_zi by exact H. rewrite <- hs_nth. rewrite <- hs_length in Hp.
  destruct (nth_components_pos (hs h) p (Cos O) (hs_nonzero h H) Hp) as [A B]. pose proof (zi_le h) as Z. destruct (Nat.eqb_spec (zi h) 1) as [E|E].
  - rewrite E. replace (2 * p + 1 + 1)%nat with (S (2 * p + 1)) by lia. replace (2 * p + 1)%nat with (S (2 * p)) at 1 by lia. cbn [app nth]. split; assumption.
  - assert (zi h = 0)%nat as -> by lia. rewrite !Nat.add_0_r. cbn [app]. split; assumption.
Qed.

Lemma block_component N h k i : StronglySorted lt h -> In k h -> (0 < k)%nat -> (i < 2 * N)%nat ->
  nth ((low_len k h * N + i) / N) (components h) (Cos O) = if Nat.ltb i N then Cos k else Sin k.
Proof.
  intros H I Hk Hi. destruct (index_of h k I Hk H) as (p & Hp & <-). assert (Hne : h <> []) by (intros ->; destruct I).
  destruct (low_len_index h p H Hp) as [L _]. rewrite L. destruct (component_index h p (proj2 (proj2 (sorted_adm h Hne H))) Hp) as [A B]. destruct (Nat.ltb_spec i N) as [Q|Q].
  - replace (((2 * p + zi h) * N + i) / N)%nat with (2 * p + zi h)%nat; [exact A|]. apply (Nat.div_unique _ N _ i); lia.
  - replace (((2 * p + zi h) * N + i) / N)%nat with (2 * p + 1 + zi h)%nat; [exact B|]. apply (Nat.div_unique _ N _ (i - N)); nia.
Qed.

Lemma block_cover N h c : StronglySorted lt h -> h <> [] -> (c < length (components h) * N)%nat ->
  (In O h /\ (c < N)%nat /\ nth (c / N) (components h) (Cos O) = Cos O) \/
  exists k i, In k h /\ (0 < k)%nat /\ (i < 2 * N)%nat /\ c = (low_len k h * N + i)%nat.
Proof.
  intros H Hne Hc. pose proof (sorted_adm h Hne H) as Ha. pose proof (proj2 (proj2 Ha)) as Hz. rewrite nhc_zi in Hc by exact Hz. rewrite hs_length in Hc.
  assert (HN : (0 < N)%nat) by (destruct N; [lia|lia]). pose proof (zi_le h) as Z. set (q := (c / N)%nat). pose proof (Nat.div_mod c N ltac:(lia)) as D. fold q in D. pose proof (Nat.mod_upper_bound c N ltac:(lia)) as M.
  destruct (Nat.lt_ge_cases q (zi h)) as [L|L].
  - left. assert (Z1 : zi h = 1%nat) by lia. assert (q = 0)%nat as -> by lia. pose proof (EpmcP.zi_in h Ha) as ZI. destruct (in_dec Nat.eq_dec O h) as [J|J]; [|rewrite Z1 in ZI; discriminate].
    split; [exact J|]. split; [lia|]. rewrite components_zi by exact Hz. rewrite Z1. reflexivity.
  - right. set (p := ((q - zi h) / 2)%nat). pose proof (Nat.div_mod (q - zi h) 2 ltac:(lia)) as D2. fold p in D2. pose proof (Nat.mod_upper_bound (q - zi h) 2 ltac:(lia)) as M2.
    assert (Hp : (p < length h - zi h)%nat) by nia. destruct (low_len_index h p H Hp) as [Lp Pp]. exists (nth (p + zi h) h O), (((q - zi h) mod 2) * N + c mod N)%nat. split; [apply nth_In; lia|]. split; [exact Pp|]. split; [nia|]. rewrite Lp. nia.
Qed.

Lemma of_block N h k k' i : StronglySorted lt h -> In k h -> (0 < k)%nat -> (i < 2 * N)%nat -> of_harmonic N h k' (low_len k h * N + i)%nat <-> k' = k.
Proof.
  intros H I Hk Hi. unfold of_harmonic. rewrite block_component by assumption. destruct (Nat.ltb i N); split; intros Q; [destruct Q as [Q|Q]; inversion Q; reflexivity|subst; auto|destruct Q as [Q|Q]; inversion Q; reflexivity|subst; auto].
Qed.

Lemma inside_spec N h k c : StronglySorted lt h -> h <> [] -> In k h -> (0 < k)%nat -> (c < length (components h) * N)%nat ->
  Nat.leb (low_index h k * N) c && Nat.ltb c (low_index h k * N + 2 * N) = true <-> of_harmonic N h k c.
Proof.
  intros H Hne I Hk Hc. rewrite low_index_len, andb_true_iff, Nat.leb_le, Nat.ltb_lt. split.
  - intros Q. replace c with (low_len k h * N + (c - low_len k h * N))%nat by lia. apply of_block; auto. lia.
  - intros Q. destruct (block_cover N h c H Hne Hc) as [(_ & _ & E)|(k' & i & I' & Hk' & Hi & ->)].
    + unfold of_harmonic in Q. rewrite E in Q. destruct Q as [Q|Q]; inversion Q. lia.
    + apply of_block in Q; auto. subst k'. lia.
Qed.
