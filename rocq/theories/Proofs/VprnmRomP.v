(** Proofs about the VPRNM reduced order model (roms/vprnm.py). *)
From Coq Require Import Reals Lra Lia Arith List Bool Sorting.Sorted Sorting.Permutation.
From Verif.Lib Require Import RSum Calc Py.
From Verif.Spec Require Import Calculus Harmonic System Postprocess Rom VprnmRom.
From Verif.Model Require Import Harmonic Postprocess EpmcRom Predict VprnmRom.
From Verif.Proofs Require Import HarmonicP FourierP HarmonicOpsP VibSysP VibControlP EpmcP VprnmP PostP EpmcRomP VprnmBlocksP.
Import ListNotations.
Open Scope R_scope.

(** ---- interpolation ---- *)
Lemma interp_some cols tab news ref out : linear_interp cols tab news ref = Ok out ->
  let refs := match ref with None => last_column cols tab | Some r => r end in
  length out = length news /\ increasing refs /\ refs <> [] /\
  (forall q r, nth q out None = Some r -> interpolated tab refs (nth q news 0) r) /\
  (forall q, (q < length news)%nat -> nth q out None = None -> nth q news 0 < nth 0 refs 0 \/ nth (length refs - 1) refs 0 < nth q news 0) /\
  (forall q j, (q < length news)%nat -> (j < length refs)%nat -> nth q news 0 = nth j refs 0 -> exists r, nth q out None = Some r /\ forall c, r c = nth j tab vzero c).
Proof.
  intros E refs. destruct (linear_unfold _ _ _ _ _ E) as (_ & Hne & _). fold refs in Hne. destruct (linear_interp_spec _ _ _ _ _ E) as (Hl & Hinc & Hs). fold refs in Hinc, Hs.
  split; [exact Hl|]. split; [exact Hinc|]. split; [exact Hne|].
  assert (D : forall q, (q < length news)%nat -> nth 0 refs 0 <= nth q news 0 <= nth (length refs - 1) refs 0 -> exists r, nth q out None = Some r /\ interpolated tab refs (nth q news 0) r).
  { intros q Hq Hr. destruct (Hs q Hq) as (_ & Hn & Hl'). destruct (bracket O [] refs _ Hne Hr) as [(j & Hj & Ej)|(j & Hj & Ej)].
    - destruct (Hn j Hj Ej) as (r & Er & Hr'). exists r. split; [exact Er|]. left. exists j. split; [exact Hj|]. split; [exact Ej|exact Hr'].
    - destruct (Hl' j Hj Ej) as (r & Er & Hr'). exists r. split; [exact Er|]. right. exists j. split; [exact Hj|]. split; [apply Hinc; lia|]. split; [exact Ej|exact Hr']. }
  split; [|split].
  - intros q r Hr. destruct (Nat.lt_ge_cases q (length news)) as [L|L]; [|rewrite nth_overflow in Hr by lia; discriminate].
    destruct (Hs q L) as (Ho & _ & _). destruct (Rlt_dec (nth q news 0) (nth 0 refs 0)) as [A|A]; [rewrite Ho in Hr by auto; discriminate|].
    destruct (Rlt_dec (nth (length refs - 1) refs 0) (nth q news 0)) as [B|B]; [rewrite Ho in Hr by auto; discriminate|].
    destruct (D q L ltac:(lra)) as (r' & Er & Hr'). rewrite Er in Hr. inversion Hr; subst. exact Hr'.
  - intros q L Hr. destruct (Rlt_dec (nth q news 0) (nth 0 refs 0)) as [A|A]; [auto|]. destruct (Rlt_dec (nth (length refs - 1) refs 0) (nth q news 0)) as [B|B]; [auto|].
    destruct (D q L ltac:(lra)) as (r' & Er & Hr'). rewrite Er in Hr. discriminate.
  - intros q j L Hj Ej. destruct (Hs q L) as (_ & Hn & _). apply (Hn j Hj Ej).
Qed.

Lemma interpolated_pos tab refs x r c : interpolated tab refs x r -> length refs = length tab -> (forall u, In u tab -> 0 < u c) -> 0 < r c.
Proof.
  intros [(j & Hj & _ & E)|(j & Hj & L & Hx & E)] Hl Hp.
  - rewrite E. apply Hp, nth_In. lia.
  - refine (line_pos _ _ _ _ _ _ L Hx _ _ (E c)); apply Hp, nth_In; lia.
Qed.

Lemma extract_amp N h k recov u (Hs : StronglySorted lt h) last : In k h -> (0 < k)%nat -> extract_harmonic_amplitude N u h k recov false last = harmonic_amp k N h recov u.
Proof.
  intros I P. unfold extract_harmonic_amplitude, harmonic_amp. cbv zeta. rewrite low_index_len. pose proof (sorted_ordered h k Hs I P) as Ho.
  f_equal. f_equal; f_equal; unfold dot; apply rsum_ext; intros d Hd.
  - rewrite harm_cos_k by exact Ho. rewrite (Nat.mul_comm N). ring.
  - rewrite harm_sin_k by exact Ho. rewrite (Nat.mul_comm N). ring.
Qed.
Lemma harmonic_amp_1 N h recov u : harmonic_amp 1 N h recov u = control_amp N h recov u.
Proof.
  unfold harmonic_amp, control_amp, harm_cos, first_cos, harm_sin, first_sin. change (INR 1) with 1. replace (PI / 2 / 1) with (PI / 2) by field. reflexivity.
Qed.
Lemma starts_in h : starts_with_1 h -> In 1%nat h.
Proof. intros [r [->| ->]]; cbn; auto. Qed.
Lemma starts_ne h : starts_with_1 h -> h <> [].
Proof. intros [r [->| ->]]; discriminate. Qed.

Section Curve.
  Context (N : nat) (rhi_bb : list vec) (h_rhi : list nat) (vprnm_bb : list vec) (cols : nat) (h_vprnm : list nat) (rhi : nat) (cp1 : vec) (amp1 : R) (cpr : vec).
  Context (Sv : StronglySorted lt h_vprnm) (Sr : StronglySorted lt h_rhi) (Bv : starts_with_1 h_vprnm) (Br : starts_with_1 h_rhi).
  Context (Iv : In rhi h_vprnm) (Hr : (0 < rhi)%nat).
  Context (Pf : forall u, In u rhi_bb -> 0 < bb_frequency N h_rhi u) (Po : forall u, In u vprnm_bb -> 0 < vprnm_frequency cols u).
  Let n := bb_size N h_rhi.
  Let Ar : admissible h_rhi := sorted_adm h_rhi (starts_ne _ Br) Sr.

  Lemma delog_row u : (fun c : nat => if Nat.eqb c (n + 2) then Rpower 10 (u c) else u c) = delog N h_rhi u.
  Proof. apply vec_ext. intros c. unfold delog, bb_amp, bb_log_amp. fold n. destruct (Nat.eqb_spec c (n + 2)) as [->|]; reflexivity. Qed.
  Lemma log10_Rpower x : log10 (Rpower 10 x) = x.
  Proof. unfold log10, Rpower. rewrite ln_exp. field. assert (ln 1 < ln 10) by (apply ln_increasing; lra). rewrite ln_1 in H. lra. Qed.
  Lemma relog_row u : (fun c : nat => if Nat.eqb c (n + 2) then log10 (delog N h_rhi u c) else delog N h_rhi u c) = u.
  Proof. apply vec_ext. intros c. unfold delog, bb_amp, bb_log_amp. fold n. destruct (Nat.eqb_spec c (n + 2)) as [->|]; [apply log10_Rpower|reflexivity]. Qed.

  Lemma curve_unfold v p S a : superharmonic_curve N rhi_bb h_rhi vprnm_bb cols h_vprnm rhi cp1 amp1 cpr = Ok (v, p, S, a) ->
    let W := INR rhi * vprnm_frequency cols v in
    interpolated vprnm_bb (map (control_amp N h_vprnm cp1) vprnm_bb) amp1 v /\
    interpolated (map (delog N h_rhi) rhi_bb) (backbone_control N h_rhi cpr rhi_bb) (harmonic_amp rhi N h_vprnm cpr v) p /\
    increasing (map (control_amp N h_vprnm cp1) vprnm_bb) /\ increasing (backbone_control N h_rhi cpr rhi_bb) /\
    0 < vprnm_frequency cols v /\ 0 < bb_frequency N h_rhi p /\ 0 < p (n + 2)%nat /\
    let low := filter (fun u => Rltb (bb_amp N h_rhi u) (p (n + 2)%nat)) rhi_bb in
    exists P w zl ph, (forall c, delog N h_rhi P c = p c) /\ (forall u, usable N h_rhi rhi_bb p u <-> In u (low ++ [P])) /\
      constant_force N h_rhi (low ++ [P]) None (Some (fun j => nth j w 0)) (Some (fun j => nth j zl 0)) (Some (fun _ => resonance_force N h_rhi W p)) (Some (fun _ => 0)) = Ok (S, a, ph) /\
      (forall j, (j < length (low ++ [P]))%nat -> nth j w 0 = mode_frequency N h_rhi W p (nth j (low ++ [P]) vzero)) /\
      (forall j, (j < length (low ++ [P]))%nat -> nth j zl 0 = bb_damping N h_rhi (nth j (low ++ [P]) vzero)).
  Proof.
    unfold superharmonic_curve. rewrite (proj1 (Nhc_spec h_rhi) (sorted_nodup _ Sr)). cbn [bind]. fold (bb_size N h_rhi). fold n.
    assert (EL : map (fun u : vec => fun c : nat => if Nat.eqb c (n + 2) then Rpower 10 (u c) else u c) rhi_bb = map (delog N h_rhi) rhi_bb) by (apply map_ext; intros u; apply delog_row).
    rewrite EL. clear EL.
    assert (E1 : map (fun u => extract_harmonic_amplitude N u h_vprnm 1 cp1 false 0) vprnm_bb = map (control_amp N h_vprnm cp1) vprnm_bb).
    { apply map_ext. intros u. rewrite extract_amp by (auto using starts_in; lia). apply harmonic_amp_1. }
    rewrite E1. clear E1. destruct (linear_interp cols vprnm_bb [amp1] _) as [pv|] eqn:Ev; [|discriminate]. cbn [bind].
    assert (E2 : map (fun u => extract_harmonic_amplitude N u h_rhi 1 cpr true (n + 2)) rhi_bb = backbone_control N h_rhi cpr rhi_bb).
    { unfold backbone_control. apply map_ext. intros u. rewrite <- harmonic_amp_1. rewrite <- (extract_amp N h_rhi 1 cpr u Sr 0) by (auto using starts_in; lia). reflexivity. }
    rewrite E2. clear E2. destruct (hd None pv) as [v'|] eqn:Hv; [|intros E; destruct (linear_interp (n + 3) _ _ _); cbn [bind] in E; discriminate E].
    rewrite (extract_amp N h_vprnm rhi cpr v' Sv 0 Iv Hr). destruct (linear_interp (n + 3) _ _ _) as [pr|] eqn:Epr; [|discriminate]. cbn [bind].
    destruct (hd None pr) as [p'|] eqn:Hp; [|discriminate].
    set (lins := map (delog N h_rhi) rhi_bb). set (mask := map (fun u : vec => Rltb (u (n + 2)%nat) (p' (n + 2)%nat)) lins).
    set (W := INR rhi * v' (cols - 2)%nat). set (abbrev := bmask mask lins ++ [p']).
    set (w := bmask mask (map (fun u : vec => u n * W / p' n) lins) ++ [W]).
    set (zl := map (fun u : vec => u (n + 1)%nat / (2 * u n)) abbrev). set (bb := map (fun u : vec => fun c : nat => if Nat.eqb c (n + 2) then log10 (u c) else u c) abbrev).
    set (F := 2 * p' (n + 2)%nat * W ^ 2 * (p' (n + 1)%nat / (2 * p' n))).
    destruct (constant_force _ _ _ _ _ _ _ _) as [[[S' a'] ph]|] eqn:Ecf; [|discriminate]. cbn [bind fst snd]. intros E. inversion E; subst v' p' S' a'. clear E. cbv zeta.
    (* the two interpolated rows *)
    destruct (interp_some _ _ _ _ _ Ev) as (_ & Inc1 & _ & Iv1 & _). destruct (interp_some _ _ _ _ _ Epr) as (_ & Inc2 & _ & Ip1 & _). cbn [nth] in Iv1, Ip1.
    assert (H0 : forall (A : Type) (l : list (option A)), nth 0 l None = hd None l) by (intros A [|x l]; reflexivity).
    assert (Iv2 : interpolated vprnm_bb (map (control_amp N h_vprnm cp1) vprnm_bb) amp1 v) by (apply (Iv1 O); rewrite H0; exact Hv).
    assert (Ip2 : interpolated lins (backbone_control N h_rhi cpr rhi_bb) (harmonic_amp rhi N h_vprnm cpr v) p) by (apply (Ip1 O); rewrite H0; exact Hp).
    clear Iv1 Ip1. split; [exact Iv2|]. split; [exact Ip2|]. split; [exact Inc1|]. split; [exact Inc2|].
    assert (Ll : length (backbone_control N h_rhi cpr rhi_bb) = length lins) by (unfold lins, backbone_control; rewrite !map_length; reflexivity).
    assert (PO : 0 < vprnm_frequency cols v) by (apply (interpolated_pos _ _ _ _ (cols - 2)%nat Iv2); [apply map_length|exact Po]).
    assert (PF : 0 < p n).
    { apply (interpolated_pos _ _ _ _ n Ip2 Ll). intros u Hu. apply in_map_iff in Hu. destruct Hu as (x & <- & Hx). unfold delog. fold n.
      rewrite (proj2 (Nat.eqb_neq n (n + 2))) by lia. exact (Pf x Hx). }
    assert (PQ : 0 < p (n + 2)%nat).
    { apply (interpolated_pos _ _ _ _ (n + 2)%nat Ip2 Ll). intros u Hu. apply in_map_iff in Hu. destruct Hu as (x & <- & Hx). unfold delog. fold n.
      rewrite Nat.eqb_refl. apply bb_amp_pos. }
    split; [exact PO|]. split; [exact PF|]. split; [exact PQ|].
    (* the abbreviated backbone *)
    fold W. assert (PW : 0 < W) by (apply Rmult_lt_0_compat; [apply lt_0_INR; exact Hr|exact PO]).
    set (relog := fun u : vec => fun c : nat => if Nat.eqb c (n + 2) then log10 (u c) else u c) in *.
    set (low := filter (fun u => Rltb (bb_amp N h_rhi u) (p (n + 2)%nat)) rhi_bb).
    set (P := relog p).
    assert (dn2 : forall u, delog N h_rhi u (n + 2)%nat = bb_amp N h_rhi u) by (intros u; unfold delog; fold n; rewrite Nat.eqb_refl; reflexivity).
    assert (dn : forall u, delog N h_rhi u n = bb_frequency N h_rhi u) by (intros u; unfold delog; fold n; rewrite (proj2 (Nat.eqb_neq n (n + 2))) by lia; reflexivity).
    assert (dn1 : forall u, delog N h_rhi u (n + 1)%nat = u (n + 1)%nat) by (intros u; unfold delog; fold n; rewrite (proj2 (Nat.eqb_neq (n + 1) (n + 2))) by lia; reflexivity).
    assert (EM : mask = map (fun u => Rltb (bb_amp N h_rhi u) (p (n + 2)%nat)) rhi_bb).
    { unfold mask, lins. rewrite map_map. apply map_ext. intros u. rewrite dn2. reflexivity. }
    assert (DP : forall c, delog N h_rhi P c = p c).
    { intros c. unfold delog. fold n. unfold bb_amp, bb_log_amp, P, relog. fold n. rewrite Nat.eqb_refl. destruct (Nat.eqb_spec c (n + 2)) as [->|]; [apply log10_back; exact PQ|reflexivity]. }
    assert (EB : bb = low ++ [P]).
    { unfold bb, abbrev. rewrite map_app. f_equal. unfold lins. rewrite EM, bmask_map, map_map. rewrite <- (map_id low) at 1. unfold low. apply map_ext. intros u. unfold relog. apply relog_row. }
    assert (EW : w = map (fun u => mode_frequency N h_rhi W p u) (low ++ [P])).
    { unfold w. rewrite map_app. f_equal.
      - unfold lins. rewrite map_map, EM, bmask_map. apply map_ext. intros u. rewrite dn. unfold mode_frequency, bb_frequency. fold n. reflexivity.
      - cbn [map]. f_equal. unfold mode_frequency. rewrite <- dn, DP. unfold bb_frequency. fold n. field. lra. }
    assert (EZ : zl = map (bb_damping N h_rhi) (low ++ [P])).
    { unfold zl, abbrev. rewrite !map_app. f_equal.
      - unfold lins. rewrite EM, bmask_map, map_map. apply map_ext. intros u. rewrite dn, dn1. reflexivity.
      - cbn [map]. f_equal. unfold bb_damping. rewrite <- (dn P), DP. fold n. rewrite <- (dn1 P), DP. reflexivity. }
    assert (EF : F = resonance_force N h_rhi W p).
    { unfold F, resonance_force, bb_damping, bb_frequency. fold n. ring. }
    assert (US : forall u, usable N h_rhi rhi_bb p u <-> In u (low ++ [P])).
    { intros u. unfold usable. fold n. rewrite in_app_iff. unfold low. rewrite filter_In, Rltb_true. cbn [In]. split; (intros [A|A]; [left; exact A|right]).
      - left. rewrite <- (relog_row u). unfold P, relog. apply vec_ext. intros c. destruct (Nat.eqb c (n + 2)); rewrite A; reflexivity.
      - destruct A as [<-|[]]. exact DP. }
    change (constant_force N h_rhi bb None (Some (fun j => nth j w 0)) (Some (fun j => nth j zl 0)) (Some (fun _ => F)) (Some (fun _ => 0)) = Ok (S, a, ph)) in Ecf. rewrite EB in Ecf. set (B := low ++ [P]) in *.
    assert (nw : forall j, (j < length B)%nat -> nth j w 0 = mode_frequency N h_rhi W p (nth j B vzero)).
    { intros j Hj. rewrite EW. rewrite (nth_indep _ 0 (mode_frequency N h_rhi W p vzero)) by (rewrite map_length; exact Hj). apply (map_nth (mode_frequency N h_rhi W p)). }
    assert (nz : forall j, (j < length B)%nat -> nth j zl 0 = bb_damping N h_rhi (nth j B vzero)).
    { intros j Hj. rewrite EZ. rewrite (nth_indep _ 0 (bb_damping N h_rhi vzero)) by (rewrite map_length; exact Hj). apply (map_nth (bb_damping N h_rhi)). }
    exists P, w, zl, ph. rewrite EF in Ecf. split; [exact DP|]. split; [exact US|]. split; [exact Ecf|]. split; [exact nw|exact nz].
  Qed.

  Lemma curve_spec v p S a : superharmonic_curve N rhi_bb h_rhi vprnm_bb cols h_vprnm rhi cp1 amp1 cpr = Ok (v, p, S, a) ->
    let W := INR rhi * vprnm_frequency cols v in
    interpolated vprnm_bb (map (control_amp N h_vprnm cp1) vprnm_bb) amp1 v /\
    interpolated (map (delog N h_rhi) rhi_bb) (backbone_control N h_rhi cpr rhi_bb) (harmonic_amp rhi N h_vprnm cpr v) p /\
    increasing (map (control_amp N h_vprnm cp1) vprnm_bb) /\ increasing (backbone_control N h_rhi cpr rhi_bb) /\
    0 < vprnm_frequency cols v /\ 0 < bb_frequency N h_rhi p /\ 0 < p (n + 2)%nat /\
    response_curve N h_rhi rhi_bb W p S a.
  Proof.
    intros E. destruct (curve_unfold _ _ _ _ E) as (I1 & I2 & I3 & I4 & I5 & I6 & I7 & P & w & zl & ph & DP & US & Ecf & nw & nz). cbv zeta in *. do 7 (split; [assumption|]).
    set (W := INR rhi * vprnm_frequency cols v) in *. set (B := filter (fun u => Rltb (bb_amp N h_rhi u) (p (n + 2)%nat)) rhi_bb ++ [P]) in *.
    destruct (constant_force_spec N h_rhi B None _ _ _ _ Ar Br _ _ _ Ecf) as (lower & upper & H). cbv zeta in H. destruct H as (_ & _ & Hin & LS & La & _ & Hpt & Hc).
    unfold rom_frequency, rom_damping, rom_force in Hpt, Hc. split; [lia|]. split.
    - intros k Hk. rewrite LS in Hk. destruct (Hpt k Hk) as (Hrp & _). set (j := nth k (lower ++ rev upper) O) in *. assert (Hj : (j < length B)%nat) by (apply Hin, nth_In; exact Hk).
      rewrite nw, nz in Hrp by exact Hj. exists (nth j B vzero), (nth k ph 0). split; [apply US, nth_In; exact Hj|exact Hrp].
    - intros u Om q Hu HO Hst. apply US in Hu. destruct (In_nth _ _ vzero Hu) as (j & Hj & <-).
      destruct (Hc j Om q Hj HO) as (k & Hk & Ek & Eo & _); [rewrite nw, nz by exact Hj; exact Hst|].
      exists k. split; [lia|]. split; [exact Eo|]. destruct (Hpt k Hk) as ((_ & Ea & _) & _). rewrite Ea, Ek. reflexivity.
  Qed.
End Curve.

(** ---- lists ---- *)
Lemma argmin_spec l k : argmin l = Some k -> (k < length l)%nat /\ forall j, (j < length l)%nat -> nth k l 0 <= nth j l 0.
Proof.
  revert k. induction l as [|x t IH]; intros k; cbn [argmin]; [discriminate|]. destruct (argmin t) as [m|] eqn:E.
  - destruct (IH m eq_refl) as [A B]. destruct (Rleb x (nth m t 0)) eqn:L; intros H; inversion H; subst; clear H; cbn [length].
    + apply Rleb_true in L. split; [lia|]. intros [|j] Hj; cbn [nth]; [lra|]. specialize (B j ltac:(lia)). lra.
    + apply Rleb_false in L. split; [lia|]. intros [|j] Hj; cbn [nth]; [lra|]. apply B. lia.
  - intros H; inversion H; subst. destruct t as [|y t]; [cbn; split; [lia|]; intros [|j] Hj; [lra|lia]|]. cbn [argmin] in E. destruct (argmin t); [destruct (Rleb y _)|]; discriminate.
Qed.

Lemma nth_map {A B} (f : A -> B) l k (d : A) (e : B) : (k < length l)%nat -> nth k (map f l) e = f (nth k l d).
Proof. intros H. rewrite (nth_indep _ e (f d)) by (rewrite map_length; exact H). apply map_nth. Qed.
Lemma nth_map2 {A B C} (f : A -> B -> C) a b k (x : A) (y : B) (e : C) : (k < length a)%nat -> (k < length b)%nat -> nth k (map2 f a b) e = f (nth k a x) (nth k b y).
Proof.
  intros Ha Hb. unfold map2. rewrite (nth_map _ _ k (x, y)) by (rewrite combine_length; lia).
  revert b k Ha Hb. induction a as [|u a IH]; intros [|w b] k Ha Hb; cbn [length] in *; try lia. destruct k as [|k]; [reflexivity|]. cbn [combine nth]. apply IH; lia.
Qed.
Lemma map2_len {A B C} (f : A -> B -> C) a b : length (map2 f a b) = Nat.min (length a) (length b).
Proof. unfold map2. rewrite map_length, combine_length. reflexivity. Qed.

(** sorting *)
Lemma insert_perm x l : Permutation (insert_sorted x l) (x :: l).
Proof.
  induction l as [|y l IH]; cbn [insert_sorted]; [reflexivity|]. destruct (Rleb x y); [reflexivity|]. rewrite IH. apply perm_swap.
Qed.
Lemma sort_perm l : Permutation (np_sort l) l.
Proof. induction l as [|x l IH]; cbn; [reflexivity|]. rewrite insert_perm. constructor. exact IH. Qed.
Lemma insert_srt x l : StronglySorted Rle l -> StronglySorted Rle (insert_sorted x l).
Proof.
  induction 1 as [|y l H IH F]; cbn [insert_sorted]; [repeat constructor|]. destruct (Rleb x y) eqn:E.
  - apply Rleb_true in E. constructor; [constructor; assumption|]. constructor; [exact E|]. rewrite Forall_forall in F |- *. intros z Hz. specialize (F z Hz). lra.
  - apply Rleb_false in E. constructor; [exact IH|]. rewrite Forall_forall in F |- *. intros z Hz. apply (Permutation_in _ (insert_perm x l)) in Hz. destruct Hz as [<-|Hz]; [lra|exact (F z Hz)].
Qed.
Lemma sort_srt l : StronglySorted Rle (np_sort l).
Proof. induction l as [|x l IH]; cbn; [constructor|]. apply insert_srt. exact IH. Qed.
Lemma srt_nondecreasing l : StronglySorted Rle l -> nondecreasing l.
Proof.
  induction 1 as [|y l H IH F]; intros i j Hij; cbn [length] in Hij; [lia|]. destruct i as [|i]; destruct j as [|j]; cbn [nth]; try lia.
  - rewrite Forall_forall in F. apply F, nth_In. lia.
  - apply IH. lia.
Qed.
Lemma srt_count l x : StronglySorted Rle l -> In x l -> nth (length (filter (fun y => Rltb y x) l)) l 0 = x.
Proof.
  induction 1 as [|y l H IH F]; intros I; [destruct I|]. rewrite Forall_forall in F. cbn [filter]. destruct (Rltb y x) eqn:E.
  - apply Rltb_true in E. cbn [length nth]. apply IH. destruct I as [->|I]; [lra|exact I].
  - apply Rltb_false in E. assert (Z : filter (fun y => Rltb y x) l = []).
    { clear -F E. induction l as [|z l IH]; [reflexivity|]. cbn. rewrite (proj2 (Rltb_false z x)) by (specialize (F z (or_introl eq_refl)); lra). apply IH. intros w Hw. apply F. right. exact Hw. }
    rewrite Z. cbn [length nth]. destruct I as [->|I]; [reflexivity|]. specialize (F x I). lra.
Qed.
Lemma perm_count (f : R -> bool) l l' : Permutation l l' -> length (filter f l) = length (filter f l').
Proof.
  induction 1 as [|x l l' H IH|x y l|l1 l2 l3 H1 IH1 H2 IH2]; cbn [filter]; [reflexivity| | |lia].
  - destruct (f x); cbn [length]; lia.
  - destruct (f x), (f y); reflexivity.
Qed.
Lemma increasing_tl x l : increasing (x :: l) -> increasing l.
Proof. intros H i j Hij. apply (H (S i) (S j)). cbn. lia. Qed.
Lemma increasing_count l k : increasing l -> (k < length l)%nat -> length (filter (fun y => Rltb y (nth k l 0)) l) = k.
Proof.
  revert k. induction l as [|x l IH]; intros k H Hk; cbn [length] in Hk; [lia|]. destruct k as [|k]; cbn [nth filter].
  - rewrite (proj2 (Rltb_false x x)) by lra.
    assert (Z : filter (fun y => Rltb y x) l = []).
    { assert (F : forall z, In z l -> x <= z). { intros z Hz. destruct (In_nth _ _ 0 Hz) as (m & Hm & <-). left. apply (H O (S m)). cbn. lia. }
      clear -F. induction l as [|z l IH]; [reflexivity|]. cbn. rewrite (proj2 (Rltb_false z x)) by (specialize (F z (or_introl eq_refl)); lra). apply IH. intros w Hw. apply F. right. exact Hw. }
    rewrite Z. reflexivity.
  - rewrite (proj2 (Rltb_true x _)) by (apply (H O (S k)); cbn; lia). cbn [length]. f_equal. apply IH; [exact (increasing_tl _ _ H)|lia].
Qed.
Lemma filter_map_len {A B} (f : A -> B) (g : B -> bool) l : length (filter g (map f l)) = length (filter (fun x => g (f x)) l).
Proof. induction l as [|x l IH]; [reflexivity|]. cbn. destruct (g (f x)); cbn; rewrite IH; reflexivity. Qed.

(** largest entry *)
Lemma fold_max l x : x <= fold_left Rmax l x /\ (forall y, In y l -> y <= fold_left Rmax l x) /\ (fold_left Rmax l x = x \/ In (fold_left Rmax l x) l).
Proof.
  revert x. induction l as [|z l IH]; intros x; cbn [fold_left]; [split; [lra|]; split; [intros y []|left; reflexivity]|].
  destruct (IH (Rmax x z)) as (A & B & D). pose proof (Rmax_l x z). pose proof (Rmax_r x z). split; [lra|]. split.
  - intros y [<-|Hy]; [lra|exact (B y Hy)].
  - destruct D as [D|D]; [|right; right; exact D]. rewrite D. unfold Rmax. destruct (Rle_dec x z); [right; left; reflexivity|left; reflexivity].
Qed.
Lemma lmax_is l q : In q l -> (forall y, In y l -> y <= q) -> lmax l = q.
Proof.
  intros I H. destruct l as [|x l]; [destruct I|]. cbn [lmax]. destruct (fold_max l x) as (A & B & D). apply Rle_antisym.
  - destruct D as [->|D]; [apply H; left; reflexivity|apply H; right; exact D].
  - destruct I as [<-|I]; [exact A|exact (B q I)].
Qed.

(** np.interp at a node, and its range *)
Lemma interp_node xs fs k : increasing xs -> length fs = length xs -> (k < length xs)%nat -> np_interp (nth k xs 0) xs fs = Some (nth k fs 0).
Proof.
  revert fs k. induction xs as [|x xs IH]; intros fs k Hi Hl Hk; cbn [length] in *; [lia|]. destruct fs as [|f fs]; [discriminate|]. cbn [np_interp length] in *.
  destruct k as [|k]; cbn [nth].
  - rewrite (proj2 (Rltb_false x x)) by lra. destruct xs as [|x1 xs]; [|destruct fs as [|f1 fs]; [discriminate|]].
    + destruct fs; [|discriminate]. rewrite (proj2 (Reqb_true x x)) by reflexivity. reflexivity.
    + rewrite (proj2 (Rltb_true x x1)) by (apply (Hi O 1%nat); cbn; lia). f_equal. field. specialize (Hi O 1%nat ltac:(cbn; lia)). cbn in Hi. lra.
  - rewrite (proj2 (Rltb_false _ x)) by (left; apply (Hi O (S k)); cbn; lia). destruct xs as [|x1 xs]; [cbn in Hk; lia|]. destruct fs as [|f1 fs]; [discriminate|].
    rewrite (proj2 (Rltb_false _ x1)); [apply IH; [exact (increasing_tl _ _ Hi)|cbn in *; lia|cbn in *; lia]|].
    destruct k as [|k]; [cbn; lra|]. left. apply (Hi 1%nat (S (S k))). cbn in *. lia.
Qed.
Lemma interp_range x xs fs y (lo hi : R) : increasing xs -> (forall f, In f fs -> lo <= f <= hi) -> np_interp x xs fs = Some y -> lo <= y <= hi.
Proof.
  revert fs. induction xs as [|x0 xs IH]; intros fs Hi Hf E; cbn [np_interp] in E; [discriminate|]. destruct fs as [|f0 fs]; [discriminate|].
  destruct (Rltb x x0) eqn:L; [discriminate|]. apply Rltb_false in L. destruct xs as [|x1 xs].
  { destruct (Reqb x x0); [|discriminate]. inversion E; subst. apply Hf. left. reflexivity. }
  destruct fs as [|f1 fs]. { destruct (Reqb x x0); [|discriminate]. inversion E; subst. apply Hf. left. reflexivity. }
  destruct (Rltb x x1) eqn:L1.
  - apply Rltb_true in L1. inversion E; subst. pose proof (Hf f0 ltac:(cbn; auto)) as F0. pose proof (Hf f1 ltac:(cbn; auto)) as F1.
    assert (L2 : x0 < x1) by lra. set (t := (x - x0) / (x1 - x0)). assert (T : 0 <= t <= 1).
    { unfold t. split; [apply Rmult_le_pos; [lra|left; apply Rinv_0_lt_compat; lra]|]. apply (Rmult_le_reg_r (x1 - x0)); [lra|]. unfold Rdiv. rewrite Rmult_assoc, Rinv_l by lra. lra. }
    replace (f0 + (f1 - f0) / (x1 - x0) * (x - x0)) with ((1 - t) * f0 + t * f1) by (unfold t; field; lra). nra.
  - apply (IH (f1 :: fs)); [exact (increasing_tl _ _ Hi)| |exact E]. intros f Hin. apply Hf. right. exact Hin.
Qed.
Lemma interp_ends_range x xs fs (lo hi : R) : increasing xs -> fs <> [] -> (forall f, In f fs -> lo <= f <= hi) -> lo <= np_interp_ends x xs fs <= hi.
Proof.
  intros Hi Hn Hf. unfold np_interp_ends. destruct (Rltb x (hd 0 xs)); [destruct fs; [contradiction|apply Hf; left; reflexivity]|].
  destruct (np_interp x xs fs) as [y|] eqn:E; [exact (interp_range x xs fs y lo hi Hi Hf E)|]. apply Hf. destruct (exists_last Hn) as (l & z & ->). rewrite last_last. apply in_or_app. right. left. reflexivity.
Qed.
Lemma interp_ends_node xs fs k : increasing xs -> length fs = length xs -> (k < length xs)%nat -> np_interp_ends (nth k xs 0) xs fs = nth k fs 0.
Proof.
  intros Hi Hl Hk. unfold np_interp_ends. rewrite (proj2 (Rltb_false _ _)); [rewrite interp_node by assumption; reflexivity|].
  destruct xs as [|x xs]; [cbn in Hk; lia|]. cbn [hd]. destruct k as [|k]; [cbn; lra|]. left. apply (Hi O (S k)). lia.
Qed.

Lemma interp_ends_clamped xs fs x : increasing xs -> length fs = length xs -> xs <> [] -> clamped_at xs fs x (np_interp_ends x xs fs).
Proof.
  intros Hi Hl Hn. assert (H0 : nth 0 xs 0 = hd 0 xs) by (destruct xs; reflexivity).
  assert (HB : forall j, (j < length xs)%nat -> hd 0 xs <= nth j xs 0) by (intros [|j] Hj; rewrite <- H0; [lra|left; apply Hi; lia]).
  split; [|split; [|split]].
  - intros Q. unfold np_interp_ends. rewrite H0 in Q. rewrite (proj2 (Rltb_true _ _) Q). destruct fs; reflexivity.
  - intros Q. unfold np_interp_ends. rewrite (proj2 (Rltb_false _ _)).
    + rewrite interp_right by assumption. rewrite <- Hl. assert (Hf : fs <> []) by (intros ->; destruct xs; [contradiction|discriminate]). destruct (exists_last Hf) as (l & z & ->). rewrite last_last, app_length. cbn [length].
      rewrite app_nth2 by lia. replace (length l + 1 - 1 - length l)%nat with O by lia. reflexivity.
    + specialize (HB (length xs - 1)%nat ltac:(destruct xs; [contradiction|cbn; lia])). lra.
  - intros j Hj ->. apply interp_ends_node; assumption.
  - intros j Hj Hx. assert (L : nth j xs 0 < nth (S j) xs 0) by (apply Hi; lia). destruct (Req_dec x (nth (S j) xs 0)) as [->|Q].
    + rewrite interp_ends_node by (auto; lia). ring.
    + unfold np_interp_ends. rewrite (proj2 (Rltb_false _ _)) by (specialize (HB j ltac:(lia)); lra). rewrite (interp_in xs fs j x) by (auto; lia || lra). field. lra.
Qed.

  Lemma interpolated_node tab refs x r : increasing refs -> interpolated tab refs x r -> In x refs -> exists j, (j < length refs)%nat /\ x = nth j refs 0 /\ forall c, r c = nth j tab vzero c.
  Proof.
    intros Hi [H|(j & Hj & L & Hx & H)] I; [exact H|]. destruct (In_nth _ _ 0 I) as (i & Hii & Ei).
    assert (Q : i = j \/ i = S j).
    { destruct (Nat.lt_ge_cases i j) as [Q|Q]; [specialize (Hi i j ltac:(lia)); lra|]. destruct (Nat.lt_ge_cases (S j) i) as [Q'|Q']; [specialize (Hi (S j) i ltac:(lia)); lra|]. lia. }
    exists i. split; [exact Hii|]. split; [symmetry; exact Ei|]. intros c. specialize (H c). destruct Q as [->| ->]; rewrite <- Ei in H; apply (Rmult_eq_reg_l (nth (S j) refs 0 - nth j refs 0)); lra.
  Qed.

(** ---- the whole function ---- *)
Lemma hd_match {A} (h : list nat) (Hne : h <> []) (e : A) (f : nat -> A) : match h with [] => e | x :: _ => f x end = f (hd O h).
Proof. destruct h; [contradiction|reflexivity]. Qed.

Section H1.
  Context (N : nat) (fund_bb : list vec) (h_fund : list nat) (rhi_bb : list vec) (h_rhi : list nat) (vprnm_bb : list vec) (cols : nat) (h_vprnm : list nat) (rhi : nat)
    (cp1 : vec) (amp1 : R) (cpr Flcos : vec).
  Context (Sv : StronglySorted lt h_vprnm) (Sf : StronglySorted lt h_fund) (Sr : StronglySorted lt h_rhi).
  Context (Bv : starts_with_1 h_vprnm) (Bf : starts_with_1 h_fund) (Br : starts_with_1 h_rhi).
  Let nr := bb_size N h_rhi.
  Let nf := bb_size N h_fund.
  Let hout := np_unique (hd O h_vprnm :: h_fund ++ map (fun k => k * rhi)%nat h_rhi).

  Definition super_phase (v : vec) (S : list vec) (peak : nat) : R :=
    block_phase N cpr v (low_index h_vprnm rhi) - block_phase N cpr (nth peak S vzero) (zi h_rhi).
  Definition turned (ph : R) (S : list vec) : list vec := map (fun r => rotate_subtract_phase r N h_rhi ph 1) S.
  Definition resampled (extra : option (list R)) (T : list vec) (a : list R) (peak : nat) : result (list (option vec) * list R * list R * nat) :=
    match extra with
    | None => Ok (map Some T, map (fun r : vec => r nr) T, a, peak)
    | Some e =>
       let freqs := map (fun r : vec => r nr) T in
       let new_w := np_sort (map (fun x => INR rhi * x) e ++ freqs) in
       do U2 <- linear_interp (nr + 1) T new_w None;
       Ok (U2, new_w, map (fun x => np_interp_ends x freqs a) new_w, (peak + length (filter (fun x => Rltb (INR rhi * x) (nth peak freqs 0%R)) e))%nat)
    end.
  Definition fund_row (fund : option vec) : vec :=
    let P0 := match fund with Some P => P | None => vzero end in
    fun c => if Nat.leb (zi h_fund * N) c && Nat.ltb c nf then P0 c * Rpower 10 (P0 (nf + 2)%nat) else P0 c.
  Definition fund_phase (v : vec) (fund : option vec) : R := block_phase N cp1 v (zi h_vprnm) - block_phase N cp1 (fund_row fund) (zi h_fund).
  Definition isnone {A} (o : option A) : bool := match o with None => true | _ => false end.
  Definition out_row (v : vec) (fund : option vec) (Sr : option vec) (Om : R) : nat -> option R :=
    entries (nan_mask N h_fund h_rhi hout rhi (isnone fund) (isnone Sr))
      (assemble_row N h_vprnm h_fund h_rhi hout rhi v (rotate_subtract_phase (fund_row fund) N h_fund (fund_phase v fund) 1) (match Sr with None => vzero | Some r => r end) Om).
  Definition out_forces (correct : bool) (v : vec) (peak : nat) (f : list (option R)) (q : list R) : list (option R) :=
    if correct then match nth peak f None with
      | None => map (fun _ => None) f
      | Some fp => map2 (fun f0 q0 => match f0 with None => None | Some f0 => Some (f0 + (vprnm_force N h_vprnm cols v - fp) * q0 / lmax q) end) f q
      end else f.

  Lemma h1_unfold extra correct rows forces h_out :
    constant_h1_displacement N fund_bb h_fund rhi_bb h_rhi vprnm_bb cols h_vprnm rhi cp1 amp1 cpr Flcos extra correct = Ok (rows, forces, h_out) ->
    exists v p S a peak Ss ws qs peak' ffs fund,
      superharmonic_curve N rhi_bb h_rhi vprnm_bb cols h_vprnm rhi cp1 amp1 cpr = Ok (v, p, S, a) /\
      argmin (map (fun r : vec => Rabs (r nr - INR rhi * v (cols - 2)%nat)) S) = Some peak /\
      Rabs (nth peak a 0 - p (nr + 2)%nat) <= / 10 ^ 12 /\
      resampled extra (turned (super_phase v S peak) S) a peak = Ok (Ss, ws, qs, peak') /\
      constant_displacement fund_bb h_fund N Flcos (map (fun x => x / INR rhi) ws) cp1 amp1 None None = Ok (ffs, fund) /\
      rows = map2 (out_row v fund) Ss (map (fun x => x / INR rhi) ws) /\
      forces = out_forces correct v peak' ffs qs /\ h_out = hout.
  Proof.
    unfold constant_h1_displacement. rewrite (hd_match h_vprnm (starts_ne _ Bv)).
    rewrite (proj1 (Nhc_spec h_vprnm) (sorted_nodup _ Sv)). cbn [bind]. fold (bb_size N h_vprnm).
    destruct (negb _); [discriminate|]. destruct (superharmonic_curve _ _ _ _ _ _ _ _ _ _) as [[[[v p] S] a]|] eqn:Ec; [|discriminate].
    cbn [bind fst snd]. rewrite (proj1 (Nhc_spec h_rhi) (sorted_nodup _ Sr)). cbn [bind]. fold (bb_size N h_rhi). fold nr.
    destruct (argmin _) as [peak|] eqn:Ea; [|discriminate]. destruct (Rleb _ (/ 10 ^ 12)) eqn:Et; [|discriminate]. cbn [negb]. apply Rleb_true in Et.
    intros E.
    assert (Q : exists Ss ws qs peak', resampled extra (turned (super_phase v S peak) S) a peak = Ok (Ss, ws, qs, peak') /\
       exists ffs fund, constant_displacement fund_bb h_fund N Flcos (map (fun x => x / INR rhi) ws) cp1 amp1 None None = Ok (ffs, fund) /\
        rows = map2 (out_row v fund) Ss (map (fun x => x / INR rhi) ws) /\ forces = out_forces correct v peak' ffs qs /\ h_out = hout).
    { unfold resampled, turned, super_phase. destruct extra as [e|].
      - cbv zeta. destruct (linear_interp (nr + 1) _ _ None) as [U2|]; [|discriminate E]. cbn [bind fst snd] in E |- *. do 4 eexists. split; [reflexivity|].
        destruct (constant_displacement _ _ _ _ _ _ _ _ _) as [[ffs fund]|]; [|discriminate E]. cbn [bind fst snd] in E. rewrite (proj1 (Nhc_spec h_fund) (sorted_nodup _ Sf)) in E. cbn [bind] in E. fold (bb_size N h_fund) in E. fold nf in E.
        exists ffs, fund. split; [reflexivity|]. inversion E as [[E1 E2 E3]]. split; [|split].
        + unfold out_row, fund_phase, fund_row, isnone. fold hout. reflexivity.
        + reflexivity.
        + reflexivity.
      - cbn [bind fst snd] in E |- *. do 4 eexists. split; [reflexivity|].
        destruct (constant_displacement _ _ _ _ _ _ _ _ _) as [[ffs fund]|]; [|discriminate E]. cbn [bind fst snd] in E. rewrite (proj1 (Nhc_spec h_fund) (sorted_nodup _ Sf)) in E. cbn [bind] in E. fold (bb_size N h_fund) in E. fold nf in E.
        exists ffs, fund. split; [reflexivity|]. inversion E as [[E1 E2 E3]]. split; [|split].
        + unfold out_row, fund_phase, fund_row, isnone. fold hout. reflexivity.
        + reflexivity.
        + reflexivity. }
    destruct Q as (Ss & ws & qs & peak' & R1 & ffs & fund & R2 & R3 & R4 & R5). exists v, p, S, a, peak, Ss, ws, qs, peak', ffs, fund. split; [reflexivity|]. split; [exact Ea|]. split; [exact Et|].
    split; [exact R1|]. split; [exact R2|]. split; [exact R3|]. split; [exact R4|exact R5].
  Qed.

  (** ---- curve rows ---- *)
  Lemma series_same h U V : admissible h -> (forall tau, series h U tau = series h V tau) -> forall c, (c < length (components h))%nat -> U c = V c.
  Proof.
    intros Ha H c Hc. pose proof (series_coef (2 * list_max h + 1) h U c (proj1 (proj2 Ha)) ltac:(lia) Hc) as A. pose proof (series_coef (2 * list_max h + 1) h V c (proj1 (proj2 Ha)) ltac:(lia) Hc) as B.
    rewrite <- A, <- B. apply fourier_coef_ext. intros m Hm. apply H.
  Qed.
  Lemma part_ext k h U V w d tau : (forall c, (c < length (components h))%nat -> U (c * N + d)%nat = V (c * N + d)%nat) -> harmonic_part k N h U w d tau = harmonic_part k N h V w d tau.
  Proof. intros H. unfold harmonic_part. apply rsum_ext. intros c Hc. destruct (nth c (components h) (Cos 0)); destruct (Nat.eqb _ k); rewrite ?H by exact Hc; reflexivity. Qed.
  Lemma delayed_part k h r U p d tau : StronglySorted lt h -> h <> [] -> (0 < k)%nat -> (d < N)%nat ->
    (forall t, series h (dof_coefs N r d) t = series h (dof_coefs N U d) (t - p)) ->
    harmonic_part k N h r 1 d tau = harmonic_part k N h U 1 d (tau - p).
  Proof.
    intros Hs Hne Hk Hd H. rewrite <- rotated_part by assumption. apply part_ext. pose proof (sorted_adm h Hne Hs) as Ha.
    apply (series_same h (dof_coefs N r d) (dof_coefs N (rotate_subtract_phase U N h p 1) d) Ha). intros t. rewrite H.
    rewrite (rotate_series N h (proj2 (proj2 Ha)) U p 1 d t Hd). f_equal. change (INR 1) with 1. field.
  Qed.
  Lemma scaled_part k h U la d tau : StronglySorted lt h -> h <> [] -> (0 < k)%nat -> (d < N)%nat ->
    harmonic_part k N h (amplitude_scaled N h U la) 1 d tau = Rpower 10 la * harmonic_part k N h U 1 d tau.
  Proof.
    intros Hs Hne Hk Hd. destruct (in_dec Nat.eq_dec k h) as [I|I]; [|rewrite !harmonic_part_none by exact I; ring].
    pose proof (sorted_ordered h k Hs I Hk) as Ho. rewrite !harmonic_part_k by exact Ho. unfold amplitude_scaled.
    destruct (in_dec Nat.eq_dec O h) as [J|J]; [|ring]. pose proof (low_len_zero h k J Hk). rewrite !(proj2 (Nat.ltb_ge _ N)) by nia. ring.
  Qed.
  Lemma point_part k h recov u (tau : R) : StronglySorted lt h -> (0 < k)%nat ->
    exists th, (forall tau, point_motion k N h recov u tau = harmonic_amp k N h recov u * cos (INR k * tau - th)) /\
      (In k h -> th = block_phase N recov u (low_len k h)).
  Proof.
    intros Hs Hk. destruct (in_dec Nat.eq_dec k h) as [I|I].
    - exists (block_phase N recov u (low_len k h)). split; [|reflexivity]. intros t. pose proof (sorted_ordered h k Hs I Hk) as Ho. unfold point_motion, harmonic_amp, block_phase, dot.
      rewrite (rsum_ext N _ (fun d => (recov d * u (low_len k h * N + d)%nat) * cos (INR k * t) + (recov d * u ((low_len k h + 1) * N + d)%nat) * sin (INR k * t))) by (intros d Hd; rewrite harmonic_part_k by exact Ho; rewrite Rmult_1_l; ring).
      rewrite rsum_plus, !rsum_scal_r.
      rewrite (rsum_ext N (fun d => recov d * harm_cos k N h u d) (fun d => recov d * u (low_len k h * N + d)%nat)) by (intros d Hd; rewrite harm_cos_k by exact Ho; reflexivity).
      rewrite (rsum_ext N (fun d => recov d * harm_sin k N h u d) (fun d => recov d * u ((low_len k h + 1) * N + d)%nat)) by (intros d Hd; rewrite harm_sin_k by exact Ho; reflexivity).
      set (x := rsum N _). set (y := rsum N _). destruct (atan2_polar y x) as [A B]. rewrite cos_minus. set (r := sqrt _) in *. set (th := atan2 y x) in *. rewrite <- A at 1. rewrite <- B at 1. ring.
    - exists 0. split; [|intros J; contradiction]. intros t. unfold point_motion, harmonic_amp, harm_cos, harm_sin.
      assert (Z : forall t', rsum N (fun d => recov d * harmonic_part k N h u 1 d t') = 0).
      { intros t'. apply rsum_zero. intros d Hd. rewrite harmonic_part_none by exact I. ring. }
      rewrite !Z. replace (0 ^ 2 + 0 ^ 2) with 0 by ring. rewrite sqrt_0. ring.
  Qed.

  Lemma delayed_coefs h r U p d c : StronglySorted lt h -> h <> [] -> (d < N)%nat -> (forall t, series h (dof_coefs N r d) t = series h (dof_coefs N U d) (t - p)) ->
    (c < length (components h))%nat -> r (c * N + d)%nat = rotate_subtract_phase U N h p 1 (c * N + d)%nat.
  Proof.
    intros Hs Hne Hd H. pose proof (sorted_adm h Hne Hs) as Ha. apply (series_same h (dof_coefs N r d) (dof_coefs N (rotate_subtract_phase U N h p 1) d) Ha). intros t. rewrite H.
    rewrite (rotate_series N h (proj2 (proj2 Ha)) U p 1 d t Hd). f_equal. change (INR 1) with 1. field.
  Qed.
  Lemma control_ext h recov U V : (forall d tau, (d < N)%nat -> harmonic_part 1 N h U 1 d tau = harmonic_part 1 N h V 1 d tau) -> control_amp N h recov U = control_amp N h recov V.
  Proof. intros H. unfold control_amp, first_cos, first_sin. f_equal. f_equal; f_equal; apply rsum_ext; intros d Hd; rewrite H by exact Hd; reflexivity. Qed.
  Lemma control_scaled h recov U la : StronglySorted lt h -> h <> [] -> control_amp N h recov (amplitude_scaled N h U la) = control_amp N h recov U * Rpower 10 la.
  Proof.
    intros Hs Hne. unfold control_amp, first_cos, first_sin. assert (P : 0 < Rpower 10 la) by (unfold Rpower; apply exp_pos).
    rewrite (rsum_ext N (fun d => recov d * harmonic_part 1 N h (amplitude_scaled N h U la) 1 d 0) (fun d => Rpower 10 la * (recov d * harmonic_part 1 N h U 1 d 0))) by (intros d Hd; rewrite scaled_part by (auto; lia); ring).
    rewrite (rsum_ext N (fun d => recov d * harmonic_part 1 N h (amplitude_scaled N h U la) 1 d (PI / 2)) (fun d => Rpower 10 la * (recov d * harmonic_part 1 N h U 1 d (PI / 2)))) by (intros d Hd; rewrite scaled_part by (auto; lia); ring).
    rewrite !rsum_scal_l. set (x := rsum N _). set (y := rsum N _). replace ((Rpower 10 la * x) ^ 2 + (Rpower 10 la * y) ^ 2) with (Rpower 10 la ^ 2 * (x ^ 2 + y ^ 2)) by ring.
    rewrite sqrt_mult by (try apply pow2_ge_0; pose proof (pow2_ge_0 x); pose proof (pow2_ge_0 y); lra). rewrite sqrt_pow2 by lra. ring.
  Qed.
  Lemma rom_point_control h recov u w z fr fi r a ph : StronglySorted lt h -> starts_with_1 h -> rom_point N h u w z fr fi r a ph -> control_amp N h recov r = control_amp N h recov u * bb_amp N h u.
  Proof.
    intros Hs H1 (_ & _ & _ & _ & H). pose proof (starts_ne _ H1) as Hne. transitivity (control_amp N h recov (rotate_subtract_phase (amplitude_scaled N h u (bb_log_amp N h u)) N h ph 1)).
    - apply control_ext. intros d tau Hd. apply part_ext. intros c Hc. apply delayed_coefs; try assumption. intros t. apply H. exact Hd.
    - rewrite (control_rotated N h [] None None None None None (sorted_adm h Hne Hs) H1). apply control_scaled; assumption.
  Qed.

  Lemma relog_exists p : 0 < p (nr + 2)%nat -> exists P, forall c, delog N h_rhi P c = p c.
  Proof.
    intros H. exists (fun c => if Nat.eqb c (nr + 2) then log10 (p c) else p c). intros c. unfold delog. fold nr. unfold bb_amp, bb_log_amp. fold nr. rewrite Nat.eqb_refl.
    destruct (Nat.eqb_spec c (nr + 2)) as [->|]; [apply log10_back; exact H|reflexivity].
  Qed.
  Lemma delog_facts P p : (forall c, delog N h_rhi P c = p c) -> bb_frequency N h_rhi P = bb_frequency N h_rhi p /\ bb_damping N h_rhi P = bb_damping N h_rhi p /\ bb_amp N h_rhi P = p (nr + 2)%nat.
  Proof.
    intros H. assert (A : bb_frequency N h_rhi P = bb_frequency N h_rhi p).
    { unfold bb_frequency at 2. fold nr. rewrite <- H. unfold delog. fold nr. rewrite (proj2 (Nat.eqb_neq nr (nr + 2))) by lia. reflexivity. }
    split; [exact A|]. split.
    - unfold bb_damping. rewrite A. fold nr. rewrite <- (H (nr + 1)%nat). unfold delog. fold nr. rewrite (proj2 (Nat.eqb_neq (nr + 1) (nr + 2))) by lia. reflexivity.
    - rewrite <- H. unfold delog. fold nr. rewrite Nat.eqb_refl. reflexivity.
  Qed.

  Lemma curve_peak W p S a : response_curve N h_rhi rhi_bb W p S a -> 0 < W -> 0 < bb_frequency N h_rhi p -> 0 < p (nr + 2)%nat ->
    (exists k, (k < length S)%nat /\ bb_frequency N h_rhi (nth k S vzero) = W /\ nth k a 0 = p (nr + 2)%nat) /\ (forall k, (k < length S)%nat -> 0 < nth k a 0 <= p (nr + 2)%nat).
  Proof.
    intros (La & Hs & Hc) HW Hf Hq. split.
    - destruct (relog_exists p Hq) as [P HP]. destruct (delog_facts P p HP) as (E1 & E2 & E3).
      destruct (Hc P W (PI / 2)) as (k & Hk & Ek & Ea); [right; exact HP|exact HW| |exists k; rewrite E3 in Ea; auto].
      apply steady_algebra; [lra|]. rewrite cos_PI2, sin_PI2. unfold mode_frequency, resonance_force. fold nr. rewrite E1, E2, E3. set (f := bb_frequency N h_rhi p) in *.
      replace (f * W / f) with W by (field; lra). split; ring.
    - intros k Hk. destruct (Hs k Hk) as (u & ph & Hu & (_ & Ea & _)). rewrite Ea. split; [apply bb_amp_pos|].
      destruct Hu as [[_ L]|L]; [fold nr in L; lra|]. destruct (delog_facts u p L) as (_ & _ & ->). lra.
  Qed.

  Lemma argmin_peak W S peak : argmin (map (fun r : vec => Rabs (r nr - W)) S) = Some peak -> (exists k, (k < length S)%nat /\ bb_frequency N h_rhi (nth k S vzero) = W) ->
    (peak < length S)%nat /\ bb_frequency N h_rhi (nth peak S vzero) = W.
  Proof.
    intros E (k & Hk & Ek). destruct (argmin_spec _ _ E) as [A B]. rewrite map_length in A, B. specialize (B k Hk).
    rewrite (nth_map _ S k vzero) in B by exact Hk. rewrite (nth_map _ S peak vzero) in B by exact A. unfold bb_frequency in *. fold nr in Ek |- *.
    rewrite Ek in B. replace (W - W) with 0 in B by ring. rewrite Rabs_R0 in B. split; [exact A|]. set (x := nth peak S vzero nr) in *. pose proof (Rabs_pos (x - W)).
    assert (Z : Rabs (x - W) = 0) by lra. destruct (Req_dec (x - W) 0) as [|NZ]; [lra|]. apply Rabs_no_R0 in NZ. lra.
  Qed.

  Lemma low_len_1 h : StronglySorted lt h -> starts_with_1 h -> low_len 1 h = zi h.
  Proof.
    intros Hs H1. pose proof H1 as [r H]. assert (E : nth (0 + zi h) h O = 1%nat) by (destruct H as [->| ->]; reflexivity).
    assert (L : (0 < length h - zi h)%nat) by (destruct H as [->| ->]; cbn; lia). pose proof (proj1 (low_len_index h 0 Hs L)) as A. rewrite E in A. exact A.
  Qed.

  Lemma resampled_spec extra T a peak Ss ws qs peak' : length a = length T -> (peak < length T)%nat -> resampled extra T a peak = Ok (Ss, ws, qs, peak') ->
    length Ss = length ws /\ length qs = length ws /\ (peak' < length ws)%nat /\ nth peak' ws 0 = bb_frequency N h_rhi (nth peak T vzero) /\
    (exists r, nth peak' Ss None = Some r /\ forall c, r c = nth peak T vzero c) /\ nth peak' qs 0 = nth peak a 0 /\
    (forall lo hi, (forall x, In x a -> lo <= x <= hi) -> forall x, In x qs -> lo <= x <= hi).
  Proof.
    intros La Hp. unfold resampled. destruct extra as [e|].
    - cbv zeta. set (freqs := map (fun r : vec => r nr) T). set (new_w := np_sort _). destruct (linear_interp _ _ _ _) as [U2|] eqn:EL; [|discriminate]. cbn [bind]. intros E; inversion E; subst; clear E.
      destruct (interp_some _ _ _ _ _ EL) as (L1 & Hi & _ & _ & _ & Hn). cbn [nth] in *.
      assert (EF : last_column (nr + 1) T = freqs) by (unfold last_column, freqs; apply map_ext; intros u; f_equal; lia). rewrite EF in Hi, Hn.
      assert (Lf : length freqs = length T) by apply map_length.
      assert (nf' : nth peak freqs 0 = bb_frequency N h_rhi (nth peak T vzero)) by (unfold freqs; rewrite (nth_map _ T peak vzero) by exact Hp; reflexivity).
      set (x := nth peak freqs 0) in *.
      assert (Ix : In x new_w).
      { unfold new_w. apply (Permutation_in _ (Permutation_sym (sort_perm _))). apply in_or_app. right. apply nth_In. lia. }
      assert (Cn : length (filter (fun y => Rltb y x) new_w) = (peak + length (filter (fun y => Rltb (INR rhi * y) x) e))%nat).
      { unfold new_w. rewrite (perm_count _ _ _ (sort_perm _)). rewrite filter_app, app_length, filter_map_len. unfold x. rewrite increasing_count by (auto; lia). lia. }
      pose proof (srt_count new_w x (sort_srt _) Ix) as Ex. rewrite Cn in Ex. set (pk := (peak + _)%nat) in *.
      assert (Hpk : (pk < length new_w)%nat).
      { rewrite <- Cn. clear -Ix. induction new_w as [|y l IH]; [destruct Ix|]. cbn [filter]. destruct (Rltb y x) eqn:E.
        - cbn [length]. apply Rltb_true in E. destruct Ix as [->|I]; [lra|]. specialize (IH I). lia.
        - cbn [length]. assert (H : forall m : list R, (length (filter (fun y => Rltb y x) m) <= length m)%nat) by (induction m as [|z m IHm]; [cbn; lia|]; cbn; destruct (Rltb z x); cbn; lia). specialize (H l). lia. }
      split; [exact L1|]. split; [apply map_length|]. split; [exact Hpk|]. split; [rewrite Ex; exact nf'|]. split; [|split].
      + destruct (Hn pk peak) as (r & Er & Hr); [exact Hpk|lia|rewrite Ex; reflexivity|]. exists r. auto.
      + rewrite (nth_map _ new_w pk 0) by exact Hpk. rewrite Ex. unfold x. apply interp_ends_node; [exact Hi|lia|lia].
      + intros lo hi Hb y Hy. apply in_map_iff in Hy. destruct Hy as (z & <- & _). apply interp_ends_range; [exact Hi|destruct a; [cbn in La; lia|discriminate]|exact Hb].
    - intros E; inversion E; subst; clear E. rewrite !map_length. split; [reflexivity|]. split; [exact La|]. split; [exact Hp|].
      split; [rewrite (nth_map _ T peak' vzero) by exact Hp; reflexivity|]. split; [|split; [reflexivity|auto]].
      exists (nth peak' T vzero). split; [rewrite (nth_map _ T peak' vzero) by exact Hp; reflexivity|reflexivity].
  Qed.

  Context (Iv : In rhi h_vprnm) (Hr1 : (1 < rhi)%nat).
  Context (Pf : forall u, In u rhi_bb -> 0 < bb_frequency N h_rhi u) (Po : forall u, In u vprnm_bb -> 0 < vprnm_frequency cols u).

  Lemma fund_part k P d tau : (0 < k)%nat -> (d < N)%nat ->
    harmonic_part k N h_fund (fund_row (Some P)) 1 d tau = harmonic_part k N h_fund (amplitude_scaled N h_fund P (bb_log_amp N h_fund P)) 1 d tau.
  Proof.
    intros Hk Hd. apply part_ext. intros c Hc. unfold fund_row, amplitude_scaled, bb_log_amp. fold nf. cbv zeta. pose proof (zi_in h_fund (sorted_adm _ (starts_ne _ Bf) Sf)) as Z.
    rewrite (proj2 (Nat.ltb_lt (c * N + d) nf)) by (unfold nf, bb_size; nia). rewrite andb_true_r. destruct (in_dec Nat.eq_dec O h_fund) as [I|I]; rewrite <- Z.
    - destruct (Nat.leb_spec (1 * N) (c * N + d)) as [L|L]; destruct (Nat.ltb_spec (c * N + d) N) as [L'|L']; try lia; ring.
    - rewrite (proj2 (Nat.leb_le (0 * N) (c * N + d))) by lia. ring.
  Qed.

  Lemma out_row_assembled v P r pS Om : let pF := fund_phase v (Some P) in
    exists u, (forall c, out_row v (Some P) (Some (rotate_subtract_phase r N h_rhi pS 1)) Om c = Some (u c)) /\ u (bb_size N hout) = Om /\
      assembled N h_vprnm h_fund h_rhi hout rhi v P pF r pS u.
  Proof.
    intros pF. unfold out_row, isnone. eexists. split; [intros c; reflexivity|]. split; [unfold bb_size; apply row_frequency|].
    pose proof (starts_ne _ Bv) as Nv. pose proof (starts_ne _ Bf) as Nf. pose proof (starts_ne _ Br) as Nr. split.
    - intros d tau Hd. apply row_static; auto; lia.
    - intros k d tau Hk Hd. unfold hout. rewrite row_part by (auto; lia). f_equal.
      + rewrite rotated_part by auto. apply fund_part; assumption.
      + destruct (Nat.eqb_spec (k mod rhi)%nat 0) as [E|E]; [|reflexivity]. rewrite rotated_part; auto. pose proof (Nat.div_mod k rhi ltac:(lia)). destruct (k / rhi)%nat; lia.
  Qed.

  Lemma fund_control P : control_amp N h_fund cp1 (fund_row (Some P)) = control_amp N h_fund cp1 P * bb_amp N h_fund P.
  Proof.
    unfold bb_amp. rewrite <- control_scaled by (auto using starts_ne). apply control_ext. intros d tau Hd. apply fund_part; [lia|exact Hd].
  Qed.

  (** first harmonic of every row *)
  Lemma first_motion v P r pS u : assembled N h_vprnm h_fund h_rhi hout rhi v P (fund_phase v (Some P)) r pS u ->
    exists th, (forall tau, point_motion 1 N hout cp1 u tau = control_amp N h_fund cp1 P * bb_amp N h_fund P * cos (tau - th)) /\
      forall tau, point_motion 1 N h_vprnm cp1 v tau = control_amp N h_vprnm cp1 v * cos (tau - th).
  Proof.
    intros [_ H]. destruct (point_part 1 h_vprnm cp1 v 0 Sv ltac:(lia)) as (tv & Mv & Ev). destruct (point_part 1 h_fund cp1 (fund_row (Some P)) 0 Sf ltac:(lia)) as (tf & Mf & Ef).
    specialize (Ev (starts_in _ Bv)). specialize (Ef (starts_in _ Bf)). rewrite low_len_1 in Ev, Ef by assumption. exists tv. split; intros tau.
    - transitivity (point_motion 1 N h_fund cp1 (fund_row (Some P)) (tau - fund_phase v (Some P))).
      + unfold point_motion. apply rsum_ext. intros d Hd. f_equal. rewrite H by (auto; lia). rewrite Nat.mod_small by lia. cbn [Nat.eqb]. rewrite Rplus_0_r. symmetry. apply fund_part; [lia|exact Hd].
      + rewrite Mf, harmonic_amp_1, fund_control. f_equal. f_equal. unfold fund_phase. rewrite <- Ev, <- Ef. change (INR 1) with 1. ring.
    - rewrite Mv, harmonic_amp_1. change (INR 1) with 1. rewrite Rmult_1_l. reflexivity.
  Qed.

  (** superharmonic of the peak row *)
  Lemma super_motion v P S peak u : ~ In rhi h_fund -> assembled N h_vprnm h_fund h_rhi hout rhi v P (fund_phase v (Some P)) (nth peak S vzero) (super_phase v S peak) u ->
    exists th, (forall tau, point_motion rhi N hout cpr u tau = control_amp N h_rhi cpr (nth peak S vzero) * cos (INR rhi * tau - th)) /\
      forall tau, point_motion rhi N h_vprnm cpr v tau = harmonic_amp rhi N h_vprnm cpr v * cos (INR rhi * tau - th).
  Proof.
    intros Hni [_ H]. destruct (point_part rhi h_vprnm cpr v 0 Sv ltac:(lia)) as (tv & Mv & Ev). destruct (point_part 1 h_rhi cpr (nth peak S vzero) 0 Sr ltac:(lia)) as (tf & Mf & Ef).
    specialize (Ev Iv). specialize (Ef (starts_in _ Br)). rewrite low_len_1 in Ef by assumption. exists tv. split; [|exact Mv]. intros tau.
    transitivity (point_motion 1 N h_rhi cpr (nth peak S vzero) (INR rhi * tau - super_phase v S peak)).
    - unfold point_motion. apply rsum_ext. intros d Hd. f_equal. rewrite H by (auto; lia). rewrite Nat.mod_same, Nat.div_same by lia. cbn [Nat.eqb]. rewrite harmonic_part_none by exact Hni. ring.
    - rewrite Mf, harmonic_amp_1. f_equal. f_equal. unfold super_phase. rewrite low_index_len, <- Ev, <- Ef. change (INR 1) with 1. ring.
  Qed.

  Lemma delog_lin j : (j < length fund_bb)%nat -> forall c, linear_row N h_fund fund_bb None None j c = delog N h_fund (nth j fund_bb vzero) c.
  Proof.
    intros Hj c. unfold linear_row, delog, rom_frequency, bb_frequency. fold nf. cbv zeta. destruct (Nat.eqb c (nf + 2)); [reflexivity|]. destruct (Nat.eqb_spec c nf) as [->|]; [reflexivity|]. destruct (Nat.eqb c (nf + 1)); reflexivity.
  Qed.
  Lemma fund_point Om ffs fund : constant_displacement fund_bb h_fund N Flcos Om cp1 amp1 None None = Ok (ffs, fund) ->
    let A := backbone_control N h_fund cp1 fund_bb in nth 0 A 0 <= amp1 <= nth (length A - 1) A 0 ->
    exists P, fund = Some P /\ interpolated (map (delog N h_fund) fund_bb) A amp1 (delog N h_fund P).
  Proof.
    intros E A Hr. destruct (displacement_spec N h_fund fund_bb None None cp1 Flcos amp1 (sorted_adm _ (starts_ne _ Bf) Sf) Bf Om ffs fund E) as (Hi & _ & _ & Hin). fold A in Hi, Hin.
    assert (LA : length A = length fund_bb) by apply map_length.
    assert (ND : forall j, (j < length fund_bb)%nat -> forall c, nth j (map (delog N h_fund) fund_bb) vzero c = linear_row N h_fund fund_bb None None j c).
    { intros j Hj c. rewrite delog_lin by exact Hj. rewrite (nth_map _ fund_bb j vzero) by exact Hj. reflexivity. }
    destruct (Hin Hr) as (P & EP & HP & _). exists P. split; [exact EP|]. destruct HP as [(j & Hj & Ej & HP)|(j & Hj & Ej & HP)]; [left|right]; exists j; rewrite LA.
    - split; [exact Hj|]. split; [exact Ej|]. intros c. rewrite ND by exact Hj. apply HP.
    - split; [exact Hj|]. split; [apply Hi; lia|]. split; [exact Ej|]. intros c. rewrite !ND by lia. apply HP.
  Qed.

  Lemma out_harmonics : result_harmonics h_vprnm h_fund h_rhi rhi hout.
  Proof.
    split.
    - pose proof (out_sorted h_vprnm h_fund h_rhi rhi) as Hs. fold hout in Hs. clearbody hout. induction Hs as [|x l H IH F]; intros i j Hij; cbn [length] in Hij; [lia|].
      destruct i as [|i]; destruct j as [|j]; cbn [nth]; try lia; [rewrite Forall_forall in F; apply F, nth_In; lia|apply IH; lia].
    - intros k. apply out_in.
  Qed.

  (** without extra frequencies *)
  Lemma h1_rows correct rows forces h_out :
    constant_h1_displacement N fund_bb h_fund rhi_bb h_rhi vprnm_bb cols h_vprnm rhi cp1 amp1 cpr Flcos None correct = Ok (rows, forces, h_out) ->
    let A := backbone_control N h_fund cp1 fund_bb in
    result_harmonics h_vprnm h_fund h_rhi rhi h_out /\
    exists v p S a, let W := INR rhi * vprnm_frequency cols v in
      interpolated vprnm_bb (map (control_amp N h_vprnm cp1) vprnm_bb) amp1 v /\
      interpolated (map (delog N h_rhi) rhi_bb) (backbone_control N h_rhi cpr rhi_bb) (harmonic_amp rhi N h_vprnm cpr v) p /\
      response_curve N h_rhi rhi_bb W p S a /\ length rows = length S /\
      (nth 0 A 0 <= amp1 <= nth (length A - 1) A 0 ->
       exists P pF pS peak, interpolated (map (delog N h_fund) fund_bb) A amp1 (delog N h_fund P) /\
         (peak < length S)%nat /\ bb_frequency N h_rhi (nth peak S vzero) = W /\ Rabs (nth peak a 0 - p (nr + 2)%nat) <= / 10 ^ 12 /\
         (forall k, (k < length S)%nat -> exists u, (forall c, nth k rows (fun _ => None) c = Some (u c)) /\
            u (bb_size N h_out) = bb_frequency N h_rhi (nth k S vzero) / INR rhi /\
            assembled N h_vprnm h_fund h_rhi h_out rhi v P pF (nth k S vzero) pS u /\
            (exists th, (forall tau, point_motion 1 N h_out cp1 u tau = control_amp N h_fund cp1 P * bb_amp N h_fund P * cos (tau - th)) /\
               forall tau, point_motion 1 N h_vprnm cp1 v tau = control_amp N h_vprnm cp1 v * cos (tau - th)) /\
            (~ In rhi h_fund -> k = peak -> exists th, (forall tau, point_motion rhi N h_out cpr u tau = control_amp N h_rhi cpr (nth peak S vzero) * cos (INR rhi * tau - th)) /\
               forall tau, point_motion rhi N h_vprnm cpr v tau = harmonic_amp rhi N h_vprnm cpr v * cos (INR rhi * tau - th)))).
  Proof.
    intros E A. destruct (h1_unfold _ _ _ _ _ E) as (v & p & S & a & peak & Ss & ws & qs & peak' & ffs & fund & Ec & Ea & Et & Er & Ed & -> & _ & ->). split; [apply out_harmonics|].
    exists v, p, S, a. cbv zeta. destruct (curve_spec N rhi_bb h_rhi vprnm_bb cols h_vprnm rhi cp1 amp1 cpr Sv Sr Bv Br Iv ltac:(lia) Pf Po v p S a Ec) as (I1 & I2 & _ & _ & PO & PF & PQ & RC). cbv zeta in RC. fold nr in PQ.
    split; [exact I1|]. split; [exact I2|]. split; [exact RC|].
    assert (PW : 0 < INR rhi * vprnm_frequency cols v) by (apply Rmult_lt_0_compat; [apply lt_0_INR; lia|exact PO]).
    destruct (curve_peak _ _ _ _ RC PW PF PQ) as [(k0 & Hk0 & Ek0 & _) _]. destruct (argmin_peak _ _ _ Ea (ex_intro _ k0 (conj Hk0 Ek0))) as [Hpk Epk].
    cbn [resampled] in Er. inversion Er; subst; clear Er. unfold turned. rewrite map2_len, !map_length, Nat.min_id. split; [reflexivity|].
    intros HA. destruct (fund_point _ _ _ Ed HA) as (P & -> & IP). exists P, (fund_phase v (Some P)), (super_phase v S peak'), peak'. split; [exact IP|]. split; [exact Hpk|]. split; [exact Epk|]. split; [exact Et|].
    intros k Hk.
    destruct (out_row_assembled v P (nth k S vzero) (super_phase v S peak') (bb_frequency N h_rhi (nth k S vzero) / INR rhi)) as (u & Hu & Eu & Au). exists u. split; [|split; [exact Eu|split; [exact Au|split]]].
    - intros c. rewrite <- Hu. rewrite (nth_map2 _ _ _ k None 0) by (rewrite !map_length; exact Hk). rewrite !map_map.
      rewrite (nth_map _ S k vzero) by exact Hk. rewrite (nth_map _ S k vzero) by exact Hk. f_equal. f_equal. unfold bb_frequency. fold nr. rewrite rotate_extra; [reflexivity|exact (proj2 (proj2 (sorted_adm _ (starts_ne _ Br) Sr)))|].
      unfold nr, bb_size. lia.
    - exact (first_motion _ _ _ _ _ Au).
    - intros Hni ->. exact (super_motion _ _ _ _ _ Hni Au).
  Qed.

  (** ---- exactness of the interpolated points ---- *)
  Lemma interpolated_control h bb recov x p : StronglySorted lt h -> starts_with_1 h -> increasing (backbone_control N h recov bb) ->
    interpolated (map (delog N h) bb) (backbone_control N h recov bb) x p ->
    (forall u w d, In u bb -> In w bb -> (d < N)%nat -> first_cos N h u d = first_cos N h w d /\ first_sin N h u d = first_sin N h w d) \/ In x (backbone_control N h recov bb) ->
    control_amp N h recov p * p (bb_size N h + 2)%nat = x.
  Proof.
    intros Hs H1 Hinc Hp Hc. pose proof (sorted_adm h (starts_ne _ H1) Hs) as Ha. set (m := bb_size N h) in *. set (A := backbone_control N h recov bb) in *.
    assert (LA : length A = length bb) by apply map_length.
    assert (NA : forall j, (j < length bb)%nat -> nth j A 0 = control_amp N h recov (nth j bb vzero) * bb_amp N h (nth j bb vzero)) by (intros j Hj; unfold A, backbone_control; rewrite (nth_map _ bb j vzero) by exact Hj; reflexivity).
    assert (ND : forall j, (j < length bb)%nat -> nth j (map (delog N h) bb) vzero = delog N h (nth j bb vzero)) by (intros j Hj; apply nth_map; exact Hj).
    pose proof (zi_starts h H1) as Hz.
    assert (DF : forall w d, (d < N)%nat -> delog N h w (zi h * N + d)%nat = first_cos N h w d /\ delog N h w ((zi h + 1) * N + d)%nat = first_sin N h w d).
    { intros w d Hd. rewrite first_cos_eq, first_sin_eq by assumption. assert ((zi h + 1) * N + d < bb_size N h)%nat by (unfold bb_size; nia).
      unfold delog. rewrite !(proj2 (Nat.eqb_neq _ (bb_size N h + 2))) by nia. split; reflexivity. }
    assert (PF : forall d, (d < N)%nat -> p (zi h * N + d)%nat = first_cos N h p d /\ p ((zi h + 1) * N + d)%nat = first_sin N h p d) by (intros d Hd; rewrite first_cos_eq, first_sin_eq by assumption; split; reflexivity).
    assert (CE : forall u w, (forall d, (d < N)%nat -> first_cos N h u d = first_cos N h w d /\ first_sin N h u d = first_sin N h w d) -> control_amp N h recov u = control_amp N h recov w).
    { intros u w H. unfold control_amp. f_equal. f_equal; f_equal; apply rsum_ext; intros d Hd; destruct (H d Hd) as [E1 E2]; rewrite ?E1, ?E2; reflexivity. }
    assert (DA : forall w, delog N h w (m + 2)%nat = bb_amp N h w) by (intros w; unfold delog; fold m; rewrite Nat.eqb_refl; reflexivity).
    assert (NODE : forall j, (j < length bb)%nat -> (forall c, p c = delog N h (nth j bb vzero) c) -> control_amp N h recov p * p (m + 2)%nat = nth j A 0).
    { intros j Hj H. rewrite (NA j Hj), H, DA. f_equal. apply CE. intros d Hd. destruct (PF d Hd) as [<- <-]. rewrite !H. apply DF. exact Hd. }
    destruct Hp as [(j & Hj & Ej & H)|(j & Hj & L & Hx & H)]; rewrite LA in Hj.
    { rewrite Ej. apply NODE; [exact Hj|]. intros c. rewrite H, ND by exact Hj. reflexivity. }
    rewrite !ND in H by lia. destruct Hc as [Hc|Hc].
    - assert (EC : forall w, In w bb -> control_amp N h recov w = control_amp N h recov (nth j bb vzero)) by (intros w Hw; apply CE; intros d Hd; apply Hc; [exact Hw|apply nth_In; lia|exact Hd]).
      assert (EP : control_amp N h recov p = control_amp N h recov (nth j bb vzero)).
      { apply CE. intros d Hd. destruct (PF d Hd) as [<- <-]. pose proof (H (zi h * N + d)%nat) as E1. pose proof (H ((zi h + 1) * N + d)%nat) as E2.
        destruct (DF (nth j bb vzero) d Hd) as [F1 F2]. destruct (DF (nth (S j) bb vzero) d Hd) as [G1 G2]. rewrite F1, G1 in E1. rewrite F2, G2 in E2.
        destruct (Hc (nth (S j) bb vzero) (nth j bb vzero) d) as [K1 K2]; [apply nth_In; lia|apply nth_In; lia|exact Hd|]. rewrite K1 in E1. rewrite K2 in E2.
        split; apply (Rmult_eq_reg_l (nth (S j) A 0 - nth j A 0)); lra. }
      specialize (H (m + 2)%nat). rewrite !DA in H. rewrite EP. pose proof (NA j ltac:(lia)) as A0. pose proof (NA (S j) Hj) as A1. rewrite (EC (nth (S j) bb vzero)) in A1 by (apply nth_In; lia).
      set (k := control_amp N h recov (nth j bb vzero)) in *. apply (Rmult_eq_reg_l (nth (S j) A 0 - nth j A 0)); [|lra].
      transitivity (k * ((nth (S j) A 0 - nth j A 0) * p (m + 2)%nat)); [ring|]. rewrite H. transitivity ((nth (S j) A 0 - x) * nth j A 0 + (x - nth j A 0) * nth (S j) A 0); [rewrite A0 at 2; rewrite A1 at 3; ring|ring].
    - destruct (In_nth _ _ 0 Hc) as (i & Hi & Ei).
      assert (Q : i = j \/ i = S j).
      { destruct (Nat.lt_ge_cases i j) as [Q|Q]; [specialize (Hinc i j ltac:(lia)); lra|]. destruct (Nat.lt_ge_cases (S j) i) as [Q'|Q']; [specialize (Hinc (S j) i ltac:(lia)); lra|]. lia. }
      rewrite <- Ei. apply NODE; [lia|]. intros c. specialize (H c). destruct Q as [->| ->]; rewrite <- Ei in H; apply (Rmult_eq_reg_l (nth (S j) A 0 - nth j A 0)); lra.
  Qed.

  (** the forces are either all computed or all nan *)
  Lemma some_forces Om ffs P : constant_displacement fund_bb h_fund N Flcos Om cp1 amp1 None None = Ok (ffs, Some P) -> forall k, (k < length Om)%nat -> nth k ffs None <> None.
  Proof.
    rewrite (displacement_unfold N h_fund fund_bb None None cp1 Flcos amp1 (sorted_adm _ (starts_ne _ Bf) Sf) Bf). destruct (linear_interp _ _ _ _) as [pts|]; [|discriminate]. cbn [bind]. destruct (hd None pts) as [L|]; [|discriminate].
    intros E k Hk. inversion E; subst. rewrite (nth_map _ Om k 0) by exact Hk. discriminate.
  Qed.

  Lemma delog_control h recov u : StronglySorted lt h -> starts_with_1 h -> control_amp N h recov (delog N h u) = control_amp N h recov u.
  Proof.
    intros Hs H1. apply control_ext. intros d tau Hd. apply part_ext. intros c Hc. unfold delog. rewrite (proj2 (Nat.eqb_neq _ (bb_size N h + 2))) by (unfold bb_size; nia). reflexivity.
  Qed.

  Lemma curve_amp W p S a peak : response_curve N h_rhi rhi_bb W p S a -> (peak < length S)%nat -> Rabs (nth peak a 0 - p (nr + 2)%nat) <= / 10 ^ 12 -> separated N h_rhi rhi_bb p ->
    nth peak a 0 = p (nr + 2)%nat /\ forall recov, control_amp N h_rhi recov (nth peak S vzero) = control_amp N h_rhi recov p * p (nr + 2)%nat.
  Proof.
    intros (_ & Hs & _) Hk Ht Hsep. destruct (Hs peak Hk) as (u & ph & Hu & Hrp). pose proof (proj1 (proj2 Hrp)) as Ea.
    assert (Hd : forall c, delog N h_rhi u c = p c).
    { destruct Hu as [[I L]|Hu]; [|exact Hu]. exfalso. specialize (Hsep u I L). fold nr in Hsep, L. rewrite Ea in Ht. rewrite Rabs_minus_sym, Rabs_right in Ht by lra. lra. }
    destruct (delog_facts u p Hd) as (_ & _ & E3). rewrite Ea. split; [exact E3|]. intros recov. rewrite (rom_point_control h_rhi recov u _ _ _ _ _ _ _ Sr Br Hrp), E3. f_equal.
    rewrite <- (delog_control h_rhi recov u Sr Br). f_equal. apply vec_ext. exact Hd.
  Qed.

  Lemma h1_exact correct rows forces h_out :
    constant_h1_displacement N fund_bb h_fund rhi_bb h_rhi vprnm_bb cols h_vprnm rhi cp1 amp1 cpr Flcos None correct = Ok (rows, forces, h_out) ->
    let A := backbone_control N h_fund cp1 fund_bb in
    nth 0 A 0 <= amp1 <= nth (length A - 1) A 0 -> ~ In rhi h_fund ->
    In amp1 (map (control_amp N h_vprnm cp1) vprnm_bb) ->
    same_shape N h_fund fund_bb \/ In amp1 A ->
    exists v p, interpolated vprnm_bb (map (control_amp N h_vprnm cp1) vprnm_bb) amp1 v /\
      interpolated (map (delog N h_rhi) rhi_bb) (backbone_control N h_rhi cpr rhi_bb) (harmonic_amp rhi N h_vprnm cpr v) p /\
      (separated N h_rhi rhi_bb p -> same_shape N h_rhi rhi_bb \/ In (harmonic_amp rhi N h_vprnm cpr v) (backbone_control N h_rhi cpr rhi_bb) ->
       exists k u, (k < length rows)%nat /\ (forall c, nth k rows (fun _ => None) c = Some (u c)) /\ u (bb_size N h_out) = vprnm_frequency cols v /\
         forall tau, point_motion 1 N h_out cp1 u tau = point_motion 1 N h_vprnm cp1 v tau /\ point_motion rhi N h_out cpr u tau = point_motion rhi N h_vprnm cpr v tau).
  Proof.
    intros E A HA Hni Hv HF. destruct (h1_unfold _ _ _ _ _ E) as (v0 & p0 & S0 & a0 & peak0 & Ss & ws & qs & peak' & ffs & fund & Ec & _ & _ & _ & Ed & _).
    destruct (curve_spec N rhi_bb h_rhi vprnm_bb cols h_vprnm rhi cp1 amp1 cpr Sv Sr Bv Br Iv ltac:(lia) Pf Po v0 p0 S0 a0 Ec) as (_ & _ & Inc1 & Inc2 & _).
    assert (Inc3 : increasing A) by exact (proj1 (displacement_spec N h_fund fund_bb None None cp1 Flcos amp1 (sorted_adm _ (starts_ne _ Bf) Sf) Bf _ _ _ Ed)).
    clear Ed Ec v0 p0 S0 a0 peak0 Ss ws qs peak' ffs fund.
    destruct (h1_rows _ _ _ _ E) as (_ & v & p & S & a & I1 & I2 & RC & LR & Hin). cbv zeta in *. exists v, p. split; [exact I1|]. split; [exact I2|]. intros Hsep HS.
    destruct (Hin HA) as (P & pF & pS & peak & IP & Hpk & Ew & Et & Hrow). destruct (curve_amp _ _ _ _ _ RC Hpk Et Hsep) as [_ EC].
    destruct (Hrow peak Hpk) as (u & Hu & Eu & _ & (t1 & M1 & M1v) & Hsup). destruct (Hsup Hni eq_refl) as (t2 & M2 & M2v). exists peak, u. split; [lia|]. split; [exact Hu|]. split.
    { rewrite Eu, Ew. field. apply not_0_INR. lia. }
    intros tau. split.
    - rewrite M1, M1v. f_equal. transitivity amp1.
      + pose proof (interpolated_control h_fund fund_bb cp1 amp1 (delog N h_fund P) Sf Bf Inc3 IP HF) as Q. rewrite delog_control in Q by assumption. rewrite <- Q. f_equal. unfold delog. rewrite Nat.eqb_refl. reflexivity.
      + destruct (interpolated_node _ _ _ _ Inc1 I1 Hv) as (j & Hj & Ej & Hvj). rewrite map_length in Hj. rewrite (nth_map _ vprnm_bb j vzero) in Ej by exact Hj. rewrite Ej. f_equal. apply vec_ext. intros c. symmetry. apply Hvj.
    - rewrite M2, M2v, EC. f_equal. exact (interpolated_control h_rhi rhi_bb cpr _ p Sr Br Inc2 I2 HS).
  Qed.

  Lemma mask_frequency Pn rn : nan_mask N h_fund h_rhi hout rhi Pn rn (bb_size N hout) = false.
  Proof.
    pose proof (out_sorted h_vprnm h_fund h_rhi rhi) as So. fold hout in So.
    assert (B : forall k, In k hout -> (0 < k)%nat -> Nat.leb (low_index hout k * N) (bb_size N hout) && Nat.ltb (bb_size N hout) (low_index hout k * N + 2 * N) = false).
    { intros k Ik Pk. apply andb_false_iff. right. apply Nat.ltb_ge. rewrite low_index_len. pose proof (low_len_bound k hout (sorted_ordered hout k So Ik Pk)). unfold bb_size. nia. }
    unfold nan_mask. apply orb_false_iff. split; apply andb_false_iff; right; apply not_true_iff_false; intros X; apply existsb_exists in X; destruct X as (k & Hk & X).
    - destruct (fund_in h_vprnm h_fund h_rhi rhi Sf (starts_ne _ Bf) k Hk) as [Ik Pk]. fold hout in Ik. rewrite (B k Ik Pk) in X. discriminate.
    - destruct (super_in h_vprnm h_fund h_rhi rhi Sr (starts_ne _ Br) k Hk) as [Ik Pk]. fold hout in Ik. rewrite (B (k * rhi)%nat Ik ltac:(nia)) in X. discriminate.
  Qed.

  Lemma row_frequency_entry v fund Sr0 Om : out_row v fund Sr0 Om (bb_size N hout) = Some Om.
  Proof. unfold out_row, entries. rewrite mask_frequency. f_equal. unfold bb_size, hout. apply row_frequency. Qed.

  (** ---- forces ---- *)
  Lemma h1_forces extra rows forces h_out :
    constant_h1_displacement N fund_bb h_fund rhi_bb h_rhi vprnm_bb cols h_vprnm rhi cp1 amp1 cpr Flcos extra false = Ok (rows, forces, h_out) ->
    let A := backbone_control N h_fund cp1 fund_bb in
    length forces = length rows /\ 
    (amp1 < nth 0 A 0 \/ nth (length A - 1) A 0 < amp1 -> forall k, nth k forces None = None) /\
    (nth 0 A 0 <= amp1 <= nth (length A - 1) A 0 -> exists P, interpolated (map (delog N h_fund) fund_bb) A amp1 (delog N h_fund P) /\
      (bb_frequency N h_fund P <> 0 -> cos_re N h_fund Flcos P <> 0 \/ cos_im N h_fund Flcos P <> 0 ->
       forall k, (k < length rows)%nat -> exists Om f, nth k rows (fun _ => None) (bb_size N h_out) = Some Om /\ nth k forces None = Some f /\ 0 <= f /\
        (0 < Om -> (exists ph, steady_response (bb_frequency N h_fund P) (bb_damping N h_fund P) (f * cos_re N h_fund Flcos P) (f * cos_im N h_fund Flcos P) Om (bb_amp N h_fund P) ph) /\
         forall f' ph', steady_response (bb_frequency N h_fund P) (bb_damping N h_fund P) (f' * cos_re N h_fund Flcos P) (f' * cos_im N h_fund Flcos P) Om (bb_amp N h_fund P) ph' -> Rabs f' = f))).
  Proof.
    intros E A. destruct (h1_unfold _ _ _ _ _ E) as (v & p & S & a & peak & Ss & ws & qs & peak' & ffs & fund & Ec & Ea & Et & Er & Ed & -> & -> & ->).
    destruct (curve_spec N rhi_bb h_rhi vprnm_bb cols h_vprnm rhi cp1 amp1 cpr Sv Sr Bv Br Iv ltac:(lia) Pf Po v p S a Ec) as (_ & _ & _ & _ & _ & _ & _ & RC).
    destruct (argmin_spec _ _ Ea) as [Hpk _]. rewrite map_length in Hpk.
    destruct (resampled_spec extra _ a peak Ss ws qs peak' ltac:(unfold turned; rewrite map_length; exact (proj1 RC)) ltac:(unfold turned; rewrite map_length; exact Hpk) Er) as (L1 & _).
    destruct (displacement_spec N h_fund fund_bb None None cp1 Flcos amp1 (sorted_adm _ (starts_ne _ Bf) Sf) Bf _ _ _ Ed) as (_ & LF & Hout & Hin). fold A in Hout, Hin.
    cbn [out_forces]. rewrite map_length in LF. rewrite map2_len, map_length, L1, Nat.min_id. split; [exact LF|]. split; [intros H; exact (proj2 (Hout H))|].
    intros HA. destruct (fund_point _ _ _ Ed HA) as (P & -> & IP). exists P. split; [exact IP|]. destruct (Hin HA) as (P' & EP & _ & HP). inversion EP; subst P'. clear EP.
    intros H1 H2 k Hk. destruct (HP H1 H2 k ltac:(rewrite map_length; exact Hk)) as (f & Ef & Hf & Hs & Hu). exists (nth k (map (fun x => x / INR rhi) ws) 0), f. split; [|split; [exact Ef|split; [exact Hf|]]].
    - rewrite (nth_map2 _ _ _ k None 0) by (rewrite ?map_length; lia). unfold out_row, entries.
      assert (M : nan_mask N h_fund h_rhi hout rhi (isnone (Some P)) (isnone (nth k Ss None)) (bb_size N hout) = false).
      { unfold nan_mask. cbn [isnone andb orb]. destruct (isnone (nth k Ss None)); [|reflexivity]. cbn [andb]. apply not_true_iff_false. intros X. apply existsb_exists in X. destruct X as (j & Hj & X).
        apply andb_prop in X. destruct X as [_ X]. apply Nat.ltb_lt in X. rewrite low_index_len in X.
        destruct (super_in h_vprnm h_fund h_rhi rhi Sr (starts_ne _ Br) j Hj) as [Ij Pj]. fold hout in Ij.
        pose proof (low_len_bound (j * rhi) hout (sorted_ordered hout (j * rhi) (out_sorted h_vprnm h_fund h_rhi rhi) Ij ltac:(nia))). unfold bb_size in X. nia. }
      rewrite M. f_equal. unfold bb_size. apply row_frequency.
    - intros HO. split; [exact (Hs HO)|]. intros f' ph' H. exact (Hu f' ph' HO H).
  Qed.

  Lemma h1_corrected extra rows forces0 forces1 rows1 h_out h_out1 :
    constant_h1_displacement N fund_bb h_fund rhi_bb h_rhi vprnm_bb cols h_vprnm rhi cp1 amp1 cpr Flcos extra false = Ok (rows, forces0, h_out) ->
    constant_h1_displacement N fund_bb h_fund rhi_bb h_rhi vprnm_bb cols h_vprnm rhi cp1 amp1 cpr Flcos extra true = Ok (rows1, forces1, h_out1) ->
    rows1 = rows /\ h_out1 = h_out /\ length forces1 = length forces0 /\
    exists v p S a q D peak, interpolated vprnm_bb (map (control_amp N h_vprnm cp1) vprnm_bb) amp1 v /\
      interpolated (map (delog N h_rhi) rhi_bb) (backbone_control N h_rhi cpr rhi_bb) (harmonic_amp rhi N h_vprnm cpr v) p /\
      response_curve N h_rhi rhi_bb (INR rhi * vprnm_frequency cols v) p S a /\
      (extra = None -> q = a /\ forall k, (k < length S)%nat -> nth k rows (fun _ => None) (bb_size N h_out) = Some (bb_frequency N h_rhi (nth k S vzero) / INR rhi)) /\
      (extra <> None -> forall k, (k < length rows)%nat -> exists Om, nth k rows (fun _ => None) (bb_size N h_out) = Some Om /\ clamped_at (map (bb_frequency N h_rhi) S) a (INR rhi * Om) (nth k q 0)) /\
      length q = length forces0 /\ (forall k, (k < length q)%nat -> 0 < nth k q 0 <= p (nr + 2)%nat) /\
      (forall k, nth k forces0 None = None -> nth k forces1 None = None) /\
      (forall k f, nth k forces0 None = Some f -> nth k forces1 None = Some (f + D * nth k q 0)) /\
      (peak < length rows)%nat /\ 
      ((exists f, nth peak forces0 None = Some f) -> nth peak rows (fun _ => None) (bb_size N h_out) = Some (vprnm_frequency cols v)) /\
      (separated N h_rhi rhi_bb p -> (exists f, nth peak forces0 None = Some f) -> nth peak forces1 None = Some (vprnm_force N h_vprnm cols v)).
  Proof.
    intros E0 E1. destruct (h1_unfold _ _ _ _ _ E0) as (v & p & S & a & peak & Ss & ws & qs & peak' & ffs & fund & Ec & Ea & Et & Er & Ed & -> & -> & ->).
    destruct (h1_unfold _ _ _ _ _ E1) as (v1 & p1 & S1 & a1 & peak1 & Ss1 & ws1 & qs1 & peak1' & ffs1 & fund1 & Ec1 & Ea1 & Et1 & Er1 & Ed1 & -> & -> & ->).
    rewrite Ec in Ec1. inversion Ec1; subst v1 p1 S1 a1. clear Ec1. rewrite Ea in Ea1. inversion Ea1; subst peak1. clear Ea1. rewrite Er in Er1. inversion Er1; subst Ss1 ws1 qs1 peak1'. clear Er1.
    rewrite Ed in Ed1. inversion Ed1; subst ffs1 fund1. clear Ed1 Et1. split; [reflexivity|]. split; [reflexivity|]. cbn [out_forces].
    destruct (curve_spec N rhi_bb h_rhi vprnm_bb cols h_vprnm rhi cp1 amp1 cpr Sv Sr Bv Br Iv ltac:(lia) Pf Po v p S a Ec) as (I1 & I2 & _ & _ & PO & PF & PQ & RC). cbv zeta in RC. fold nr in PQ.
    assert (PW : 0 < INR rhi * vprnm_frequency cols v) by (apply Rmult_lt_0_compat; [apply lt_0_INR; lia|exact PO]).
    destruct (curve_peak _ _ _ _ RC PW PF PQ) as [(k0 & Hk0 & Ek0 & Ak0) Hq]. destruct (argmin_peak _ _ _ Ea (ex_intro _ k0 (conj Hk0 Ek0))) as [Hpk Epk].
    set (T := turned (super_phase v S peak) S) in *. assert (LT : length T = length S) by apply map_length.
    assert (La : length a = length T) by (rewrite LT; exact (proj1 RC)).
    destruct (resampled_spec extra T a peak Ss ws qs peak' La ltac:(lia) Er) as (L1 & L2 & Hp' & Ew & (r & Erow & Hr) & Eq & Hb).
    assert (Iq : In (p (nr + 2)%nat) qs).
    { assert (Er0 : exists pk0, resampled extra T a k0 = Ok (Ss, ws, qs, pk0)).
      { unfold resampled in Er |- *. destruct extra as [e|]; [|inversion Er; subst; eexists; reflexivity]. cbv zeta in Er |- *. destruct (linear_interp _ _ _ _); [|discriminate]. cbn [bind] in Er |- *. inversion Er; subst. eexists. reflexivity. }
      destruct Er0 as (pk0 & Er0). destruct (resampled_spec extra T a k0 Ss ws qs pk0 La ltac:(lia) Er0) as (_ & _ & Hp0 & _ & _ & Eq0 & _). rewrite <- Ak0, <- Eq0. apply nth_In. lia. }
    assert (Ba : forall x, In x a -> Rmin (nth k0 a 0) (fold_right Rmin (nth k0 a 0) a) <= x <= p (nr + 2)%nat).
    { intros x Hx. destruct (In_nth _ _ 0 Hx) as (m & Hm & <-). split; [|apply Hq; lia].
      apply Rle_trans with (fold_right Rmin (nth k0 a 0) a); [apply Rmin_r|]. clear -Hx. revert Hx. generalize (nth m a 0). intros x. generalize (nth k0 a 0). intros z. induction a as [|y a IH]; intros []; cbn; [subst; apply Rmin_l|].
      apply Rle_trans with (fold_right Rmin z a); [apply Rmin_r|auto]. }
    assert (Bpos : 0 < Rmin (nth k0 a 0) (fold_right Rmin (nth k0 a 0) a)).
    { assert (P0 : 0 < nth k0 a 0) by (apply Hq; lia). apply Rmin_glb_lt; [exact P0|]. assert (F : forall x, In x a -> 0 < x) by (intros x Hx; destruct (In_nth _ _ 0 Hx) as (m & Hm & <-); apply Hq; lia).
      clear -P0 F. revert P0. generalize (nth k0 a 0). intros z Hz. induction a as [|y a IH]; cbn; [exact Hz|]. apply Rmin_glb_lt; [apply F; left; reflexivity|apply IH; intros x Hx; apply F; right; exact Hx]. }
    assert (Bq : forall x, In x qs -> 0 < x <= p (nr + 2)%nat) by (intros x Hx; pose proof (Hb _ _ Ba x Hx); lra).
    assert (EM : lmax qs = p (nr + 2)%nat) by (apply lmax_is; [exact Iq|intros y Hy; apply Bq; exact Hy]).
    assert (LF : length ffs = length ws) by (destruct (displacement_spec N h_fund fund_bb None None cp1 Flcos amp1 (sorted_adm _ (starts_ne _ Bf) Sf) Bf _ _ _ Ed) as (_ & LF & _); rewrite map_length in LF; exact LF).
    assert (FN : fund = None -> forall k, nth k ffs None = None).
    { intros ->. destruct (displacement_spec N h_fund fund_bb None None cp1 Flcos amp1 (sorted_adm _ (starts_ne _ Bf) Sf) Bf _ _ _ Ed) as (_ & _ & Hout & Hin). set (A := backbone_control N h_fund cp1 fund_bb) in *.
      destruct (Rlt_dec amp1 (nth 0 A 0)) as [X|X]; [exact (proj2 (Hout (or_introl X)))|]. destruct (Rlt_dec (nth (length A - 1) A 0) amp1) as [Y|Y]; [exact (proj2 (Hout (or_intror Y)))|].
      destruct (Hin ltac:(lra)) as (P & EP & _). discriminate. }
    assert (PK : (exists f, nth peak' ffs None = Some f) -> nth peak' (map2 (out_row v fund) Ss (map (fun x => x / INR rhi) ws)) (fun _ => None) (bb_size N hout) = Some (vprnm_frequency cols v)).
    { intros [f Hf]. destruct fund as [P|]; [|rewrite FN in Hf by reflexivity; discriminate].
      rewrite (nth_map2 _ _ _ peak' None 0) by (rewrite ?map_length; lia). rewrite Erow. unfold out_row. cbn [isnone entries nan_mask andb orb]. f_equal. unfold bb_size, hout. rewrite row_frequency.
      rewrite (nth_map _ ws peak' 0) by lia. rewrite Ew. unfold T, turned. rewrite (nth_map _ S peak vzero) by exact Hpk. unfold bb_frequency. rewrite rotate_extra; [|exact (proj2 (proj2 (sorted_adm _ (starts_ne _ Br) Sr)))|unfold bb_size; lia].
      fold (bb_frequency N h_rhi (nth peak S vzero)). rewrite Epk. unfold vprnm_frequency. field. apply not_0_INR. lia. }
    assert (TF : map (fun r : vec => r nr) T = map (bb_frequency N h_rhi) S).
    { unfold T, turned. rewrite map_map. apply map_ext. intros r0. unfold bb_frequency. fold nr. rewrite rotate_extra; [reflexivity|exact (proj2 (proj2 (sorted_adm _ (starts_ne _ Br) Sr)))|unfold nr, bb_size; lia]. }
    assert (Q1 : extra = None -> qs = a /\ forall k, (k < length S)%nat -> nth k (map2 (out_row v fund) Ss (map (fun x => x / INR rhi) ws)) (fun _ => None) (bb_size N hout) = Some (bb_frequency N h_rhi (nth k S vzero) / INR rhi)).
    { intros ->. cbn [resampled] in Er. inversion Er; subst. split; [reflexivity|]. intros k Hk. rewrite TF in *. rewrite (nth_map2 _ _ _ k None 0) by (rewrite ?map_length; lia). rewrite row_frequency_entry. f_equal.
      rewrite (nth_map _ (map (bb_frequency N h_rhi) S) k 0) by (rewrite map_length; exact Hk). rewrite (nth_map _ S k vzero) by exact Hk. reflexivity. }
    assert (Q2 : extra <> None -> forall k, (k < length (map2 (out_row v fund) Ss (map (fun x => (x / INR rhi)%R) ws)))%nat -> exists Om, nth k (map2 (out_row v fund) Ss (map (fun x => x / INR rhi) ws)) (fun _ => None) (bb_size N hout) = Some Om /\ clamped_at (map (bb_frequency N h_rhi) S) a (INR rhi * Om) (nth k qs 0)).
    { intros Hex k Hk. rewrite map2_len, map_length in Hk. exists (nth k ws 0 / INR rhi). rewrite (nth_map2 _ _ _ k None 0) by (rewrite ?map_length; lia). rewrite row_frequency_entry. split; [f_equal; apply (nth_map (fun x => x / INR rhi) ws k 0); lia|].
      replace (INR rhi * (nth k ws 0 / INR rhi)) with (nth k ws 0) by (field; apply not_0_INR; lia).
      destruct extra as [e|]; [|contradiction]. unfold resampled in Er. cbv zeta in Er. destruct (linear_interp _ _ _ _) as [U2|] eqn:EL; [|discriminate]. cbn [bind] in Er. inversion Er; subst. rewrite TF in *.
      destruct (interp_some _ _ _ _ _ EL) as (_ & Hi & Hne & _). assert (EF : last_column (nr + 1) T = map (bb_frequency N h_rhi) S) by (rewrite <- TF; unfold last_column; apply map_ext; intros u; f_equal; lia). rewrite EF in Hi, Hne.
      rewrite (nth_map _ (np_sort (map (fun x => INR rhi * x) e ++ map (bb_frequency N h_rhi) S)) k 0) by lia. apply interp_ends_clamped; [exact Hi|rewrite map_length; lia|exact Hne]. }
    destruct (nth peak' ffs None) as [fp|] eqn:Efp.
    - split; [rewrite map2_len; lia|]. set (D := (vprnm_force N h_vprnm cols v - fp) / p (nr + 2)%nat). exists v, p, S, a, qs, D, peak'. split; [exact I1|]. split; [exact I2|]. split; [exact RC|]. split; [exact Q1|]. split; [exact Q2|]. split; [lia|]. split; [intros k Hk; apply Bq, nth_In; exact Hk|].
      assert (K : forall k f, nth k ffs None = Some f -> nth k (map2 (fun f0 q0 => match f0 with None => None | Some f0 => Some (f0 + (vprnm_force N h_vprnm cols v - fp) * q0 / lmax qs) end) ffs qs) None = Some (f + D * nth k qs 0)).
      { intros k f Hf. assert (Hk : (k < length ffs)%nat) by (destruct (Nat.lt_ge_cases k (length ffs)); [assumption|rewrite nth_overflow in Hf by lia; discriminate]).
        rewrite (nth_map2 _ _ _ k None 0) by lia. rewrite Hf, EM. f_equal. unfold D. field. lra. }
      split; [|split; [exact K|split; [rewrite map2_len, map_length; lia|split; [intros _; apply PK; exists fp; reflexivity|]]]].
      + intros k Hf. destruct (Nat.lt_ge_cases k (length ffs)) as [L|L]; [|apply nth_overflow; rewrite map2_len; lia]. rewrite (nth_map2 _ _ _ k None 0) by lia. rewrite Hf. reflexivity.
      + intros Hsep _. rewrite (K peak' fp Efp). f_equal. rewrite Eq. destruct (curve_amp _ _ _ _ _ RC Hpk Et Hsep) as [-> _]. unfold D. field. lra.
    - split; [apply map_length|]. exists v, p, S, a, qs, 0, peak'. split; [exact I1|]. split; [exact I2|]. split; [exact RC|]. split; [exact Q1|]. split; [exact Q2|]. split; [lia|]. split; [intros k Hk; apply Bq, nth_In; exact Hk|].
      assert (Z : forall k, nth k (map (fun _ : option R => @None R) ffs) None = None) by (intros k; generalize ffs as l; clear; intros l; revert k; induction l as [|o l IH]; intros [|k]; cbn; auto).
      assert (Z2 : forall k, nth k ffs None = None).
      { destruct fund as [P|]; [|exact (FN eq_refl)]. intros k. destruct (displacement_spec N h_fund fund_bb None None cp1 Flcos amp1 (sorted_adm _ (starts_ne _ Bf) Sf) Bf _ _ _ Ed) as (_ & _ & Hout & Hin). set (A := backbone_control N h_fund cp1 fund_bb) in *.
        destruct (Rlt_dec amp1 (nth 0 A 0)) as [X|X]; [exact (proj2 (Hout (or_introl X)) k)|]. destruct (Rlt_dec (nth (length A - 1) A 0) amp1) as [Y|Y]; [exact (proj2 (Hout (or_intror Y)) k)|].
        exfalso. apply (some_forces _ _ _ Ed peak' ltac:(rewrite map_length; lia)). exact Efp. }
      split; [intros k _; apply Z|]. split; [intros k f Hf; rewrite Z2 in Hf; discriminate|]. split; [rewrite map2_len, map_length; lia|]. split; [intros [f Hf]; rewrite Efp in Hf; discriminate|]. intros _ [f Hf]. rewrite Efp in Hf. discriminate.
  Qed.

  (** ---- entries that are nan ---- *)
  Lemma mask_spec Pn rn c : (c < bb_size N hout)%nat ->
    nan_mask N h_fund h_rhi hout rhi Pn rn c = true <-> (Pn = true /\ of_multiples N hout 1 h_fund c) \/ (rn = true /\ of_multiples N hout rhi h_rhi c).
  Proof.
    intros Hc. unfold nan_mask. rewrite orb_true_iff, !andb_true_iff, !existsb_exists. pose proof (out_sorted h_vprnm h_fund h_rhi rhi) as So. fold hout in So. pose proof (out_ne h_vprnm h_fund h_rhi rhi) as No. fold hout in No.
    assert (A : (exists x, In x (skipn (zi h_fund) h_fund) /\ Nat.leb (low_index hout x * N) c && Nat.ltb c (low_index hout x * N + 2 * N) = true) <-> of_multiples N hout 1 h_fund c).
    { unfold of_multiples. split; intros (k & Hk & Q).
      - destruct (fund_in h_vprnm h_fund h_rhi rhi Sf (starts_ne _ Bf) k Hk) as [Ik Pk]. exists k. apply (skip_spec h_fund Sf (starts_ne _ Bf)) in Hk. split; [apply Hk|]. split; [exact Pk|]. rewrite Nat.mul_1_l. apply (inside_spec N hout k c So No Ik Pk Hc). exact Q.
      - destruct Q as [Pk Q]. exists k. assert (Hk' : In k (skipn (zi h_fund) h_fund)) by (apply (skip_spec h_fund Sf (starts_ne _ Bf)); auto). split; [exact Hk'|].
        destruct (fund_in h_vprnm h_fund h_rhi rhi Sf (starts_ne _ Bf) k Hk') as [Ik _]. rewrite Nat.mul_1_l in Q. apply (inside_spec N hout k c So No Ik Pk Hc). exact Q. }
    assert (B : (exists x, In x (skipn (zi h_rhi) h_rhi) /\ Nat.leb (low_index hout (x * rhi) * N) c && Nat.ltb c (low_index hout (x * rhi) * N + 2 * N) = true) <-> of_multiples N hout rhi h_rhi c).
    { unfold of_multiples. split; intros (k & Hk & Q).
      - destruct (super_in h_vprnm h_fund h_rhi rhi Sr (starts_ne _ Br) k Hk) as [Ik Pk]. exists k. apply (skip_spec h_rhi Sr (starts_ne _ Br)) in Hk. split; [apply Hk|]. split; [exact Pk|]. rewrite (Nat.mul_comm rhi). apply (inside_spec N hout (k * rhi) c So No Ik ltac:(nia) Hc). exact Q.
      - destruct Q as [Pk Q]. exists k. assert (Hk' : In k (skipn (zi h_rhi) h_rhi)) by (apply (skip_spec h_rhi Sr (starts_ne _ Br)); auto). split; [exact Hk'|].
        destruct (super_in h_vprnm h_fund h_rhi rhi Sr (starts_ne _ Br) k Hk') as [Ik _]. rewrite (Nat.mul_comm rhi) in Q. apply (inside_spec N hout (k * rhi) c So No Ik ltac:(nia) Hc). exact Q. }
    rewrite A, B. reflexivity.
  Qed.

  Lemma fund_same Om ffs fund Om' ffs' fund' : constant_displacement fund_bb h_fund N Flcos Om cp1 amp1 None None = Ok (ffs, fund) ->
    constant_displacement fund_bb h_fund N Flcos Om' cp1 amp1 None None = Ok (ffs', fund') -> fund' = fund.
  Proof.
    rewrite !(displacement_unfold N h_fund fund_bb None None cp1 Flcos amp1 (sorted_adm _ (starts_ne _ Bf) Sf) Bf). destruct (linear_interp _ _ _ _) as [pts|]; [|discriminate]. cbn [bind].
    destruct (hd None pts); intros E1 E2; inversion E1; inversion E2; reflexivity.
  Qed.
  Lemma fund_out Om ffs fund : constant_displacement fund_bb h_fund N Flcos Om cp1 amp1 None None = Ok (ffs, fund) ->
    let A := backbone_control N h_fund cp1 fund_bb in amp1 < nth 0 A 0 \/ nth (length A - 1) A 0 < amp1 -> fund = None.
  Proof. intros E A H. destruct (displacement_spec N h_fund fund_bb None None cp1 Flcos amp1 (sorted_adm _ (starts_ne _ Bf) Sf) Bf _ _ _ E) as (_ & _ & Hout & _). exact (proj1 (Hout H)). Qed.

  Lemma h1_outside extra correct rows forces h_out :
    constant_h1_displacement N fund_bb h_fund rhi_bb h_rhi vprnm_bb cols h_vprnm rhi cp1 amp1 cpr Flcos extra correct = Ok (rows, forces, h_out) ->
    let A := backbone_control N h_fund cp1 fund_bb in
    amp1 < nth 0 A 0 \/ nth (length A - 1) A 0 < amp1 ->
    forall k c, (k < length rows)%nat -> (c < bb_size N h_out)%nat ->
      (of_multiples N h_out 1 h_fund c -> nth k rows (fun _ => None) c = None) /\
      (~ of_multiples N h_out 1 h_fund c -> ~ of_multiples N h_out rhi h_rhi c -> exists x, nth k rows (fun _ => None) c = Some x).
  Proof.
    intros E A HA k c Hk Hc. destruct (h1_unfold _ _ _ _ _ E) as (v & p & S & a & peak & Ss & ws & qs & peak' & ffs & fund & Ec & Ea & Et & Er & Ed & -> & -> & ->).
    pose proof (fund_out _ _ _ Ed HA) as ->. rewrite map2_len in Hk. rewrite (nth_map2 _ _ _ k None 0) by lia. unfold out_row, entries. pose proof (mask_spec (@isnone vec None) (isnone (nth k Ss None)) c Hc) as M. split.
    - intros Q. destruct (nan_mask _ _ _ _ _ _ _ _); [reflexivity|]. discriminate (proj2 M). left. split; [reflexivity|exact Q].
    - intros Q1 Q2. destruct (nan_mask _ _ _ _ _ _ _ _); [|eexists; reflexivity]. destruct (proj1 M eq_refl) as [[_ X]|[_ X]]; contradiction.
  Qed.

  (** ---- additional frequencies ---- *)
  Lemma add_line x0 x1 x ra rb r ks b0 b1 b : on_line x0 x1 ra rb x r -> on_line x0 x1 b0 b1 x b ->
    on_line x0 x1 (add_blocks N hout h_rhi rhi ra b0 ks) (add_blocks N hout h_rhi rhi rb b1 ks) x (add_blocks N hout h_rhi rhi r b ks).
  Proof.
    intros Hr. revert b0 b1 b. induction ks as [|k ks IH]; intros b0 b1 b Hb; [exact Hb|]. cbn [add_blocks fold_left]. apply IH. intros c. unfold add_slice. destruct (_ && _); [|apply Hb].
    pose proof (Hb c) as E1. pose proof (Hr (low_index h_rhi k * N + (c - low_index hout (k * rhi) * N))%nat) as E2. lra.
  Qed.
  Lemma const_line x0 x1 x (b : vec) : on_line x0 x1 b b x b.
  Proof. intros c. ring. Qed.
  Lemma assemble_line x0 x1 x ra rb r v P : on_line x0 x1 ra rb x r ->
    on_line x0 x1 (assemble_row N h_vprnm h_fund h_rhi hout rhi v P ra x0) (assemble_row N h_vprnm h_fund h_rhi hout rhi v P rb x1) x (assemble_row N h_vprnm h_fund h_rhi hout rhi v P r x).
  Proof.
    intros Hr c. unfold assemble_row. cbv zeta. destruct (Nat.eqb c _); [ring|]. apply (add_line x0 x1 x ra rb r (skipn (zi h_rhi) h_rhi)); [exact Hr|]. apply const_line.
  Qed.
  Lemma line_scale m x0 x1 x a b r : 0 < m -> on_line x0 x1 a b x r -> on_line (x0 / m) (x1 / m) a b (x / m) r.
  Proof. intros Hm H c. specialize (H c). apply (Rmult_eq_reg_l m); [|lra]. replace (m * ((x1 / m - x0 / m) * r c)) with ((x1 - x0) * r c) by (field; lra). rewrite H. field. lra. Qed.

  (** an entry outside the superharmonic blocks does not depend on the superharmonic *)
  Lemma row_other v P r Om r' Om' c : (c < bb_size N hout)%nat -> ~ of_multiples N hout rhi h_rhi c ->
    assemble_row N h_vprnm h_fund h_rhi hout rhi v P r Om c = assemble_row N h_vprnm h_fund h_rhi hout rhi v P r' Om' c.
  Proof.
    intros Hc Hno. pose proof (out_sorted h_vprnm h_fund h_rhi rhi) as So. fold hout in So. pose proof (out_ne h_vprnm h_fund h_rhi rhi) as No. fold hout in No. unfold bb_size in Hc.
    unfold hout in Hc, Hno, So, No |- *. rewrite (row_low N h_vprnm h_fund h_rhi rhi v P r Om ltac:(lia) c) by exact Hc. rewrite (row_low N h_vprnm h_fund h_rhi rhi v P r' Om' ltac:(lia) c) by exact Hc. fold hout in Hc, Hno, So, No |- *.
    pose proof (super_in h_vprnm h_fund h_rhi rhi Sr (starts_ne _ Br)) as SI. fold hout in SI.
    destruct (block_cover N hout c So No Hc) as [(I0 & Hd & _)|(k & i & Ik & Pk & Hi & ->)].
    - rewrite !add_blocks_static by (auto; lia). reflexivity.
    - assert (Q : forall x, In x (skipn (zi h_rhi) h_rhi) -> k <> (x * rhi)%nat).
      { intros x Hx ->. apply Hno. apply (skip_spec h_rhi Sr (starts_ne _ Br)) in Hx. exists x. split; [apply Hx|]. split; [apply Hx|]. apply of_block; auto. apply Nat.mul_comm. }
      rewrite !add_blocks_out by (auto; lia). reflexivity.
  Qed.

  Lemma h1_extra e correct correct' rows0 forces0 h_out rows1 forces1 h_out1 :
    constant_h1_displacement N fund_bb h_fund rhi_bb h_rhi vprnm_bb cols h_vprnm rhi cp1 amp1 cpr Flcos None correct = Ok (rows0, forces0, h_out) ->
    constant_h1_displacement N fund_bb h_fund rhi_bb h_rhi vprnm_bb cols h_vprnm rhi cp1 amp1 cpr Flcos (Some e) correct' = Ok (rows1, forces1, h_out1) ->
    let A := backbone_control N h_fund cp1 fund_bb in
    nth 0 A 0 <= amp1 <= nth (length A - 1) A 0 ->
    h_out1 = h_out /\
    exists T Om0 Om, 
      length T = length rows0 /\ length Om0 = length rows0 /\ 
      (forall k, (k < length rows0)%nat -> (forall c, nth k rows0 (fun _ => None) c = Some (nth k T vzero c)) /\ nth k T vzero (bb_size N h_out) = nth k Om0 0) /\
      increasing Om0 /\ length Om = length rows1 /\ nondecreasing Om /\ Permutation Om (e ++ Om0) /\
      forall k, (k < length rows1)%nat -> 
        nth k rows1 (fun _ => None) (bb_size N h_out) = Some (nth k Om 0) /\
        (nth 0 Om0 0 <= nth k Om 0 <= nth (length Om0 - 1) Om0 0 -> exists u, (forall c, nth k rows1 (fun _ => None) c = Some (u c)) /\ interpolated T Om0 (nth k Om 0) u) /\
        (nth k Om 0 < nth 0 Om0 0 \/ nth (length Om0 - 1) Om0 0 < nth k Om 0 -> forall c, (c < bb_size N h_out)%nat ->
          (of_multiples N h_out rhi h_rhi c -> nth k rows1 (fun _ => None) c = None) /\
          (~ of_multiples N h_out rhi h_rhi c -> forall m, (m < length rows0)%nat -> nth k rows1 (fun _ => None) c = nth m rows0 (fun _ => None) c)).
  Proof.
    intros E0 E1 A HA. destruct (h1_unfold _ _ _ _ _ E0) as (v & p & S & a & peak & Ss & ws & qs & peak' & ffs & fund & Ec & Ea & Et & Er & Ed & -> & -> & ->).
    destruct (h1_unfold _ _ _ _ _ E1) as (v1 & p1 & S1 & a1 & peak1 & Ss1 & ws1 & qs1 & peak1' & ffs1 & fund1 & Ec1 & Ea1 & Et1 & Er1 & Ed1 & -> & -> & ->).
    rewrite Ec in Ec1. inversion Ec1; subst v1 p1 S1 a1. clear Ec1. rewrite Ea in Ea1. inversion Ea1; subst peak1. clear Ea1 Et1.
    pose proof (fund_same _ _ _ _ _ _ Ed Ed1) as ->. destruct (fund_point _ _ _ Ed HA) as (P & -> & _). clear Ed Ed1 Ec Ea Et E0 E1.
    set (T' := turned (super_phase v S peak) S) in *. clearbody T'. clear S a1 peak1 || clear S.
    cbn [resampled] in Er. inversion Er; subst; clear Er. unfold resampled in Er1. cbv zeta in Er1. destruct (linear_interp _ _ _ _) as [U2|] eqn:EL; [|discriminate]. cbn [bind] in Er1. inversion Er1; subst; clear Er1.
    set (freqs := map (fun r : vec => r nr) T') in *. destruct (interp_some _ _ _ _ _ EL) as (L1 & Hi & Hne & Hs & Ho & Hn). cbn [nth] in *.
    assert (EF : last_column (nr + 1) T' = freqs) by (unfold last_column, freqs; apply map_ext; intros u; f_equal; lia). rewrite EF in Hi, Hn, Hs, Ho, Hne. clear EF EL.
    set (news := np_sort (map (fun x => INR rhi * x) e ++ freqs)) in *.
    assert (R0 : 0 < INR rhi) by (apply lt_0_INR; lia). assert (Lf : length freqs = length T') by apply map_length.
    set (row := fun r Om => assemble_row N h_vprnm h_fund h_rhi hout rhi v (rotate_subtract_phase (fund_row (Some P)) N h_fund (fund_phase v (Some P)) 1) r Om).
    assert (OR : forall r Om c, out_row v (Some P) (Some r) Om c = Some (row r Om c)) by (intros r Om c; reflexivity).
    split; [reflexivity|]. exists (map2 row T' (map (fun x => x / INR rhi) freqs)), (map (fun x => x / INR rhi) freqs), (map (fun x => x / INR rhi) news).
    rewrite !map2_len, !map_length, Lf, L1, !Nat.min_id. split; [reflexivity|]. split; [reflexivity|].
    assert (NT : forall k, (k < length T')%nat -> nth k (map2 row T' (map (fun x => x / INR rhi) freqs)) vzero = row (nth k T' vzero) (nth k freqs 0 / INR rhi)).
    { intros k Hk. rewrite (nth_map2 _ _ _ k vzero 0) by (rewrite ?map_length; lia). rewrite (nth_map _ freqs k 0) by lia. reflexivity. }
    assert (N0 : forall k, (k < length T')%nat -> forall c, nth k (map2 (out_row v (Some P)) (map Some T') (map (fun x => x / INR rhi) freqs)) (fun _ => None) c = Some (row (nth k T' vzero) (nth k freqs 0 / INR rhi) c)).
    { intros k Hk c. rewrite (nth_map2 _ _ _ k None 0) by (rewrite ?map_length; lia). rewrite (nth_map _ freqs k 0) by lia. rewrite (nth_map _ T' k vzero) by lia. apply OR. }
    assert (NF : forall k, (k < length freqs)%nat -> nth k (map (fun x => x / INR rhi) freqs) 0 = nth k freqs 0 / INR rhi) by (intros k Hk; apply (nth_map (fun x => x / INR rhi) freqs k 0); exact Hk).
    assert (NW : forall k, (k < length news)%nat -> nth k (map (fun x => x / INR rhi) news) 0 = nth k news 0 / INR rhi) by (intros k Hk; apply (nth_map (fun x => x / INR rhi) news k 0); exact Hk).
    assert (DV : forall x y, x / INR rhi < y / INR rhi <-> x < y).
    { intros x y. split; intros Q; [apply (Rmult_lt_reg_r (/ INR rhi)); [apply Rinv_0_lt_compat; exact R0|exact Q]|apply Rmult_lt_compat_r; [apply Rinv_0_lt_compat; exact R0|exact Q]]. }
    assert (F0 : (0 < length freqs)%nat) by (destruct freqs; [contradiction|cbn; lia]).
    split. { intros k Hk. split; [intros c; rewrite N0, NT by lia; reflexivity|]. rewrite NT, NF by lia. unfold row, bb_size, hout. apply row_frequency. }
    split. { intros i j Hij. rewrite map_length in Hij. rewrite !NF by lia. apply DV. apply Hi. exact Hij. }
    split; [reflexivity|]. split.
    { intros i j Hij. rewrite map_length in Hij. rewrite !NW by lia. apply Rmult_le_compat_r; [left; apply Rinv_0_lt_compat; exact R0|]. apply (srt_nondecreasing _ (sort_srt _)). exact Hij. }
    split.
    { unfold news. transitivity (map (fun x => x / INR rhi) (map (fun x => INR rhi * x) e ++ freqs)); [apply Permutation_map, sort_perm|]. rewrite map_app, map_map. 
      replace (map (fun x => INR rhi * x / INR rhi) e) with e; [reflexivity|]. rewrite <- (map_id e) at 1. apply map_ext. intros x. field. lra. }
    intros k Hk. assert (NR : nth k (map2 (out_row v (Some P)) Ss1 (map (fun x => x / INR rhi) news)) (fun _ => None) = out_row v (Some P) (nth k Ss1 None) (nth k news 0 / INR rhi)).
    { rewrite (nth_map2 _ _ _ k None 0) by (rewrite ?map_length; lia). rewrite NW by lia. reflexivity. }
    rewrite NR. split; [rewrite NW by exact Hk; apply row_frequency_entry|]. rewrite !NF, !NW by lia. rewrite <- Lf. split.
    - intros Hr. assert (Hr' : nth 0 freqs 0 <= nth k news 0 <= nth (length freqs - 1) freqs 0) by (split; apply Rnot_lt_le; intros Q; apply DV in Q; lra).
      destruct (nth k Ss1 None) as [r|] eqn:Ek; [|destruct (Ho k Hk Ek); lra]. exists (row r (nth k news 0 / INR rhi)). split; [intros c; apply OR|].
      destruct (Hs k r Ek) as [(j & Hj & Ej & Hrj)|(j & Hj & Lj & Hx & Hl)].
      + left. exists j. rewrite map_length. split; [exact Hj|]. rewrite NF by exact Hj. split; [rewrite Ej; reflexivity|]. intros c. rewrite NT by lia. rewrite Ej. f_equal. f_equal. apply vec_ext. exact Hrj.
      + right. exists j. rewrite map_length. split; [exact Hj|]. rewrite !NF, !NT by lia. split; [apply DV; exact Lj|]. split; [split; apply Rmult_le_compat_r; try (left; apply Rinv_0_lt_compat; exact R0); lra|]. 
        apply assemble_line. apply line_scale; [exact R0|exact Hl].
    - intros Hout c Hc. assert (EN : nth k Ss1 None = None).
      { destruct (nth k Ss1 None) as [r|] eqn:Ek; [|reflexivity]. exfalso. assert (B : nth 0 freqs 0 <= nth k news 0 <= nth (length freqs - 1) freqs 0).
        { destruct (Hs k r Ek) as [(j & Hj & Ej & _)|(j & Hj & Lj & Hx & _)].
          - rewrite Ej. split; [destruct j as [|j]; [lra|left; apply Hi; lia]|]. destruct (Nat.eq_dec j (length freqs - 1)) as [->|Q]; [lra|left; apply Hi; lia].
          - split; [apply Rle_trans with (nth j freqs 0); [destruct j as [|j]; [lra|left; apply Hi; lia]|lra]|]. apply Rle_trans with (nth (Datatypes.S j) freqs 0); [lra|]. destruct (Nat.eq_dec (Datatypes.S j) (length freqs - 1)) as [->|Q]; [lra|left; apply Hi; lia]. }
        destruct Hout as [Q|Q]; apply (proj1 (DV _ _)) in Q; lra. }
      rewrite EN. unfold out_row at 1 2, entries. pose proof (mask_spec (isnone (Some P)) (@isnone vec None) c Hc) as M. split.
      + intros Q. destruct (nan_mask _ _ _ _ _ _ _ _); [reflexivity|]. discriminate (proj2 M). right. split; [reflexivity|exact Q].
      + intros Q m Hm. rewrite N0 by lia. destruct (nan_mask _ _ _ _ _ _ _ _); [destruct (proj1 M eq_refl) as [[X _]|[_ X]]; [discriminate|contradiction]|]. f_equal. unfold row. apply row_other; assumption.
  Qed.

  (** ---- when the function returns ---- *)
  Lemma interp_row c tab refs x : increasing refs -> refs <> [] -> nth 0 refs 0 <= x <= nth (length refs - 1) refs 0 ->
    exists r, linear_interp c tab [x] (Some refs) = Ok [Some r].
  Proof.
    intros Hi Hn Hx. destruct (linear_interp_ok c tab [x] (Some refs) Hi Hn) as [out E]. destruct (interp_some _ _ _ _ _ E) as (L & _ & _ & _ & Ho & _). cbn [length nth] in L, Ho.
    destruct out as [|o [|o' out]]; [discriminate| |discriminate]. rewrite E. destruct o as [r|]; [exists r; reflexivity|]. destruct (Ho O ltac:(lia) eq_refl); lra.
  Qed.

  Lemma h1_returns correct :
    cols = (bb_size N h_vprnm + 2)%nat \/ cols = (bb_size N h_vprnm + 4)%nat ->
    let Av := map (control_amp N h_vprnm cp1) vprnm_bb in let Ar := backbone_control N h_rhi cpr rhi_bb in
    vprnm_bb <> [] -> increasing Av -> nth 0 Av 0 <= amp1 <= nth (length Av - 1) Av 0 ->
    rhi_bb <> [] -> increasing Ar -> (forall v, interpolated vprnm_bb Av amp1 v -> nth 0 Ar 0 <= harmonic_amp rhi N h_vprnm cpr v <= nth (length Ar - 1) Ar 0) ->
    fund_bb <> [] -> increasing (backbone_control N h_fund cp1 fund_bb) ->
    (forall v p u ph, interpolated vprnm_bb Av amp1 v -> interpolated (map (delog N h_rhi) rhi_bb) Ar (harmonic_amp rhi N h_vprnm cpr v) p -> usable N h_rhi rhi_bb p u ->
       let W := INR rhi * vprnm_frequency cols v in
       steady_response (mode_frequency N h_rhi W p u) (bb_damping N h_rhi u) (resonance_force N h_rhi W p) 0 W (bb_amp N h_rhi u) ph -> bb_amp N h_rhi u = p (nr + 2)%nat) ->
    exists out, constant_h1_displacement N fund_bb h_fund rhi_bb h_rhi vprnm_bb cols h_vprnm rhi cp1 amp1 cpr Flcos None correct = Ok out.
  Proof.
    intros Hc Av Arr Hv1 Hv2 Hv3 Hr1' Hr2 Hr3 Hf1 Hf2 Hun.
    assert (NV : Av <> []) by (unfold Av; destruct vprnm_bb; [contradiction|discriminate]). assert (NR : Arr <> []) by (unfold Arr, backbone_control; destruct rhi_bb; [contradiction|discriminate]).
    assert (EC : exists v p S a, superharmonic_curve N rhi_bb h_rhi vprnm_bb cols h_vprnm rhi cp1 amp1 cpr = Ok (v, p, S, a)).
    { unfold superharmonic_curve. rewrite (proj1 (Nhc_spec h_rhi) (sorted_nodup _ Sr)). cbn [bind]. fold (bb_size N h_rhi). fold nr.
      assert (E1 : map (fun u => extract_harmonic_amplitude N u h_vprnm 1 cp1 false 0) vprnm_bb = Av).
      { apply map_ext. intros u. rewrite extract_amp by (auto using starts_in; lia). apply harmonic_amp_1. }
      rewrite E1. destruct (interp_row cols vprnm_bb Av amp1 Hv2 NV Hv3) as [v Ev]. rewrite Ev. cbn [bind hd].
      assert (E2 : map (fun u => extract_harmonic_amplitude N u h_rhi 1 cpr true (nr + 2)) rhi_bb = Arr).
      { unfold Arr, backbone_control. apply map_ext. intros u. rewrite <- harmonic_amp_1. rewrite <- (extract_amp N h_rhi 1 cpr u Sr 0) by (auto using starts_in; lia). reflexivity. }
      rewrite E2. rewrite (extract_amp N h_vprnm rhi cpr v Sv 0 Iv ltac:(lia)).
      destruct (interp_some _ _ _ _ _ Ev) as (_ & _ & _ & Iv1 & _). specialize (Iv1 O v eq_refl). cbn [nth] in Iv1.
      match goal with |- context [linear_interp ?c ?t [?x] (Some Arr)] => destruct (interp_row c t Arr x Hr2 NR (Hr3 v Iv1)) as [p Ep] end. rewrite Ep. cbn [bind hd].
      match goal with |- context [constant_force ?a ?b ?c ?d ?e ?f ?g ?i] => destruct (proj2 (constant_force_inputs a b c d e f g i (sorted_adm _ (starts_ne _ Br) Sr))) as [[[S a'] ph] Ecf] end.
      { right. repeat split; discriminate. }
      rewrite Ecf. cbn [bind fst snd]. do 4 eexists. reflexivity. }
    destruct EC as (v & p & S & a & Ec).
    destruct (curve_spec N rhi_bb h_rhi vprnm_bb cols h_vprnm rhi cp1 amp1 cpr Sv Sr Bv Br Iv ltac:(lia) Pf Po v p S a Ec) as (I1 & I2 & _ & _ & PO & PF & PQ & RC). cbv zeta in RC. fold nr in PQ.
    assert (PW : 0 < INR rhi * vprnm_frequency cols v) by (apply Rmult_lt_0_compat; [apply lt_0_INR; lia|exact PO]).
    destruct (curve_peak _ _ _ _ RC PW PF PQ) as [(k0 & Hk0 & Ek0 & _) _].
    unfold constant_h1_displacement. rewrite (hd_match h_vprnm (starts_ne _ Bv)). rewrite (proj1 (Nhc_spec h_vprnm) (sorted_nodup _ Sv)). cbn [bind]. fold (bb_size N h_vprnm).
    assert (B : negb (Nat.eqb cols (bb_size N h_vprnm + 4) || Nat.eqb cols (bb_size N h_vprnm + 2)) = false).
    { destruct Hc as [->| ->]; rewrite Nat.eqb_refl, ?orb_true_r; reflexivity. }
    rewrite B, Ec. cbn [bind fst snd]. rewrite (proj1 (Nhc_spec h_rhi) (sorted_nodup _ Sr)). cbn [bind]. fold (bb_size N h_rhi). fold nr.
    destruct (argmin _) as [peak|] eqn:Ea.
    2:{ exfalso. destruct S as [|s S]; [cbn in Hk0; lia|]. cbn [map argmin] in Ea. destruct (argmin _); [destruct (Rleb _ _)|]; discriminate. }
    destruct (argmin_peak _ _ _ Ea (ex_intro _ k0 (conj Hk0 Ek0))) as [Hpk Epk].
    assert (T : Rabs (nth peak a 0 - p (nr + 2)%nat) <= / 10 ^ 12).
    { destruct RC as (_ & HS & _). destruct (HS peak Hpk) as (u & ph & Hu & Hrp). destruct Hrp as (_ & Eamp & _ & Hst & _). rewrite Epk in Hst. rewrite Eamp in Hst |- *. rewrite (Hun v p u ph I1 I2 Hu Hst). rewrite Rminus_diag_eq by reflexivity. rewrite Rabs_R0.
      left. apply Rinv_0_lt_compat. apply pow_lt. lra. }
    rewrite (proj2 (Rleb_true _ _) T). cbn [negb bind fst snd].
    destruct (displacement_ok N h_fund fund_bb None None cp1 Flcos amp1 (map (fun x => x / INR rhi) (map (fun r : vec => r nr) (map (fun r => rotate_subtract_phase r N h_rhi (block_phase N cpr v (low_index h_vprnm rhi) - block_phase N cpr (nth peak S vzero) (zi h_rhi)) 1) S))) (sorted_adm _ (starts_ne _ Bf) Sf) Bf Hf2 Hf1) as (ffs & fund & Ed).
    rewrite Ed. cbn [bind]. rewrite (proj1 (Nhc_spec h_fund) (sorted_nodup _ Sf)). cbn [bind]. eexists. reflexivity.
  Qed.

  Lemma h1_returns_extra e correct correct' rows0 forces0 h_out (Om0 : list R) :
    constant_h1_displacement N fund_bb h_fund rhi_bb h_rhi vprnm_bb cols h_vprnm rhi cp1 amp1 cpr Flcos None correct = Ok (rows0, forces0, h_out) ->
    length Om0 = length rows0 -> (forall k, (k < length rows0)%nat -> nth k rows0 (fun _ => None) (bb_size N h_out) = Some (nth k Om0 0)) -> increasing Om0 ->
    exists out, constant_h1_displacement N fund_bb h_fund rhi_bb h_rhi vprnm_bb cols h_vprnm rhi cp1 amp1 cpr Flcos (Some e) correct' = Ok out.
  Proof.
    intros E L HO Hi. destruct (h1_unfold _ _ _ _ _ E) as (v & p & S & a & peak & Ss & ws & qs & peak' & ffs & fund & Ec & Ea & Et & Er & Ed & -> & -> & ->).
    cbn [resampled] in Er. inversion Er; subst; clear Er. set (T := turned (super_phase v S peak') S) in *. set (fr := map (fun r : vec => r nr) T) in *.
    assert (R0 : 0 < INR rhi) by (apply lt_0_INR; lia). assert (LT : length T = length S) by apply map_length. assert (Lf : length fr = length S) by (unfold fr; rewrite map_length; exact LT).
    rewrite map2_len, !map_length, Lf, LT, Nat.min_id in L, HO.
    assert (Ifr : increasing fr).
    { intros i j Hij. specialize (Hi i j ltac:(lia)). pose proof (HO i ltac:(lia)) as A. pose proof (HO j ltac:(lia)) as B.
      rewrite (nth_map2 _ _ _ i None 0) in A by (rewrite ?map_length; lia). rewrite (nth_map2 _ _ _ j None 0) in B by (rewrite ?map_length; lia). rewrite row_frequency_entry in A, B.
      rewrite (nth_map _ fr i 0) in A by lia. rewrite (nth_map _ fr j 0) in B by lia. inversion A as [A']. inversion B as [B']. rewrite <- A', <- B' in Hi. apply (Rmult_lt_reg_r (/ INR rhi)); [apply Rinv_0_lt_compat; exact R0|exact Hi]. }
    destruct (argmin_spec _ _ Ea) as [Hpk _]. rewrite map_length in Hpk.
    assert (EF : last_column (nr + 1) T = fr) by (unfold last_column, fr; apply map_ext; intros u; f_equal; lia).
    assert (Hne : last_column (nr + 1) T <> []) by (rewrite EF; intros Z; rewrite Z in Lf; cbn in Lf; lia).
    destruct (linear_interp_ok (nr + 1) T (np_sort (map (fun x => INR rhi * x) e ++ fr)) None ltac:(rewrite EF; exact Ifr) Hne) as [U2 EU].
    assert (Cf : increasing (backbone_control N h_fund cp1 fund_bb) /\ fund_bb <> []).
    { split; [exact (proj1 (displacement_spec N h_fund fund_bb None None cp1 Flcos amp1 (sorted_adm _ (starts_ne _ Bf) Sf) Bf _ _ _ Ed))|]. intros Z. rewrite Z in Ed. 
      rewrite (displacement_unfold N h_fund [] None None cp1 Flcos amp1 (sorted_adm _ (starts_ne _ Bf) Sf) Bf) in Ed. destruct (linear_interp _ _ _ _) eqn:X; [|discriminate]. destruct (interp_some _ _ _ _ _ X) as (_ & _ & Y & _). apply Y. reflexivity. }
    destruct (displacement_ok N h_fund fund_bb None None cp1 Flcos amp1 (map (fun x => x / INR rhi) (np_sort (map (fun x => INR rhi * x) e ++ fr))) (sorted_adm _ (starts_ne _ Bf) Sf) Bf (proj1 Cf) (proj2 Cf)) as (ffs' & fund' & Ed').
    unfold constant_h1_displacement in E |- *. rewrite (hd_match h_vprnm (starts_ne _ Bv)) in E |- *. rewrite (proj1 (Nhc_spec h_vprnm) (sorted_nodup _ Sv)) in E |- *. cbn [bind] in E |- *. fold (bb_size N h_vprnm) in E |- *.
    destruct (negb (_ || _)); [discriminate|]. clear E. rewrite Ec. cbn [bind fst snd]. rewrite (proj1 (Nhc_spec h_rhi) (sorted_nodup _ Sr)). cbn [bind]. fold (bb_size N h_rhi). fold nr. rewrite Ea. rewrite (proj2 (Rleb_true _ _) Et). cbn [negb].
    fold (super_phase v S peak'). fold (turned (super_phase v S peak') S). fold T. fold fr. rewrite EU. cbn [bind fst snd]. rewrite Ed'. cbn [bind]. rewrite (proj1 (Nhc_spec h_fund) (sorted_nodup _ Sf)). cbn [bind]. eexists. reflexivity.
  Qed.

  Lemma h1_frequencies correct rows forces h_out :
    constant_h1_displacement N fund_bb h_fund rhi_bb h_rhi vprnm_bb cols h_vprnm rhi cp1 amp1 cpr Flcos None correct = Ok (rows, forces, h_out) ->
    exists v p S a, superharmonic_curve N rhi_bb h_rhi vprnm_bb cols h_vprnm rhi cp1 amp1 cpr = Ok (v, p, S, a) /\ length rows = length S /\
      forall k, (k < length rows)%nat -> nth k rows (fun _ => None) (bb_size N h_out) = Some (bb_frequency N h_rhi (nth k S vzero) / INR rhi).
  Proof.
    intros E. destruct (h1_unfold _ _ _ _ _ E) as (v & p & S & a & peak & Ss & ws & qs & peak' & ffs & fund & Ec & _ & _ & Er & _ & -> & -> & ->).
    cbn [resampled] in Er. inversion Er; subst; clear Er. exists v, p, S, qs. split; [exact Ec|]. unfold turned. rewrite map2_len, !map_length, Nat.min_id. split; [reflexivity|].
    intros k Hk. rewrite (nth_map2 _ _ _ k None 0) by (rewrite !map_length; exact Hk). rewrite row_frequency_entry. f_equal. rewrite !map_map. rewrite (nth_map _ S k vzero) by exact Hk.
    unfold bb_frequency. fold nr. rewrite rotate_extra; [reflexivity|exact (proj2 (proj2 (sorted_adm _ (starts_ne _ Br) Sr)))|unfold nr, bb_size; lia].
  Qed.
End H1.
