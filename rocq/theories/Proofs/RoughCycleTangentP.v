(** Tangents of the rough contact element over a cycle. *)
From Coq Require Import Reals Lra Lia Arith List Bool FunctionalExtensionality.
From Verif.Lib Require Import RSum Calc Py.
From Verif.Spec Require Import Calculus Harmonic Slider Rough RoughCalls RoughTangent.
From Verif.Model Require Import Harmonic JaxDual JaxFloat RoughContact.
From Verif.Proofs Require Import JaxDualP JaxFloatP RoughNormalP RoughStaticP RoughCallsP RoughHistoryP RoughAftP SliderP TracksP RoughTangentP RoughJacobianP.
Import ListNotations.
Open Scope R_scope.

Lemma near_below n t0 (P : nat -> R -> Prop) : (forall i, (i < n)%nat -> near t0 (P i)) -> near t0 (fun t => forall i, (i < n)%nat -> P i t).
Proof.
  induction n as [|n IH]; intros H; [apply near_all; intros; lia|].
  eapply near_impl; [|exact (near_and t0 _ _ (IH ltac:(intros; apply H; lia)) (H n ltac:(lia)))]. intros t [A B] i Hi. destruct (Nat.eq_dec i n) as [->|]; [exact B|apply A; lia].
Qed.

Lemma single_filter m n (f : nat -> bool) : (m < n)%nat -> (forall t, (t < n)%nat -> f t = Nat.eqb t m) -> filter f (seq 0 n) = [m].
Proof.
  revert m. induction n as [|n IH]; intros m Hm H; [lia|]. rewrite seq_S, filter_app. cbn [filter Nat.add]. destruct (Nat.eq_dec m n) as [->|Hne].
  - rewrite (H n) by lia. rewrite Nat.eqb_refl. replace (filter f (seq 0 n)) with (@nil nat); [reflexivity|]. symmetry.
    assert (A : forall t, In t (seq 0 n) -> f t = false). { intros t Ht. apply in_seq in Ht. rewrite H by lia. apply Nat.eqb_neq. lia. }
    clear IH. induction (seq 0 n) as [|a l IHl]; [reflexivity|]. cbn [filter]. rewrite (A a) by (left; reflexivity). apply IHl. intros t Ht. apply A. right. exact Ht.
  - rewrite (IH m) by (try lia; intros; apply H; lia). rewrite (H n) by lia. rewrite (proj2 (Nat.eqb_neq n m)) by lia. reflexivity.
Qed.

Section Cycle.
  Variables (k : nat) (v : vec) (t0 : R).
  Notation near := (near t0). Notation tv := (tv k v t0). Notation still := (still t0).
  Variables (s : solid) (r : rough) (mu : R) (Nt : nat) (unlt : R -> nat -> nat -> dual) (start : nat -> R).
  Hypothesis Hs : physical s.
  Hypothesis Hmat : r_mat r = mat_of s.
  Hypothesis Hgap : forall i, (i < r_n r)%nat -> 0 <= r_meso r + r_gaps r i.
  Hypothesis Hmu : 0 <= mu.
  Hypothesis Htan : r_model r = TAN.
  Hypothesis HNt : (0 < Nt)%nat.
  Let g := fun i => r_meso r + r_gaps r i.
  Let u := fun d t => dv (unlt t0 t d).
  Hypothesis Hu : forall t d, (t < Nt)%nat -> (d < 3)%nat -> tv (fun z => fdual_of (unlt z t d)) (u d t).
  Hypothesis Hsingle : single_largest Nt (u 2%nat).
  Let um := vmax Nt (u 2%nat).
  Let peak := fun i => um - g i.
  Let x := fun i t => u 2%nat t - g i.
  Hypothesis Hpeak : forall i, (i < r_n r)%nat -> smooth_peak s (peak i).
  Hypothesis Hx : forall i t, (i < r_n r)%nat -> (t < Nt)%nat -> smooth_cycle s (peak i) (x i t).

  Lemma max_tv : tv (fun z => fmaximum Nt (fun t => unlt z t 2%nat)) um.
  Proof.
    destruct Hsingle as (m & Hm & Hlt).
    assert (L : near (fun z => forall t, (t < Nt)%nat -> t <> m -> dv (unlt z t 2%nat) < dv (unlt z m 2%nat))).
    { apply near_below. intros t Ht. destruct (Nat.eq_dec t m) as [->|Hne]; [apply near_all; intros; contradiction|].
      eapply near_impl; [|exact (tv_below k v t0 _ _ _ _ (Hu t 2%nat Ht ltac:(lia)) (Hu m 2%nat Hm ltac:(lia)) (Hlt t Ht Hne))].
      intros z (p & q & A & B & C) _. injection A as <-. injection B as <-. exact C. }
    assert (V : forall z, (forall t, (t < Nt)%nat -> t <> m -> dv (unlt z t 2%nat) < dv (unlt z m 2%nat)) -> vmax Nt (fun t => dv (unlt z t 2%nat)) = dv (unlt z m 2%nat)).
    { intros z Hz. destruct (vmax_spec Nt (fun t => dv (unlt z t 2%nat)) HNt) as [M1 (t' & Ht' & M2)]. rewrite M2. destruct (Nat.eq_dec t' m) as [->|Hne]; [reflexivity|].
      specialize (M1 m Hm). specialize (Hz t' Ht' Hne). cbv beta in M1. lra. }
    eapply tv_eq; [eapply tv_near; [|exact (Hu m 2%nat Hm ltac:(lia))]|].
    - eapply near_impl; [|exact L]. intros z Hz. unfold fmaximum. cbv zeta. rewrite (V z Hz).
      assert (SF : filter (fun t => Reqb (dv (unlt z t 2%nat)) (dv (unlt z m 2%nat))) (seq 0 Nt) = [m]).
      { apply single_filter; [exact Hm|]. intros t Ht. destruct (Nat.eqb_spec t m) as [->|Hne]; [apply Reqb_true; reflexivity|]. apply Reqb_false. specialize (Hz t Ht Hne). lra. }
      rewrite SF.
      unfold fdual_of. f_equal. f_equal. extensionality i. cbn [map fold_right length INR]. field.
    - unfold um. symmetry. apply (V t0). intros t Ht Hne. exact (Hlt t Ht Hne).
  Qed.

  Lemma peak_tv i : tv (fun z => loop_max r Nt (unlt z) i) (peak i).
  Proof.
    eapply tv_eq; [apply (tv_sub k v t0 (fun z => fsub (fmaximum Nt (fun t => unlt z t 2%nat)) (fconst (r_meso r))) (fun _ => fconst (r_gaps r i)) (um - r_meso r) (r_gaps r i)); [|apply tv_const]|unfold peak, g; ring].
    apply (tv_sub k v t0 (fun z => fmaximum Nt (fun t => unlt z t 2%nat)) (fun _ => fconst (r_meso r))); [exact max_tv|apply tv_const].
  Qed.
  Lemma Fm_tv i : (i < r_n r)%nat -> tv (fun z => loop_Fm r Nt (unlt z) i) (asperity_force s (0 - g i) 0 (peak i)).
  Proof.
    intros Hi. unfold loop_Fm, start_deltam. rewrite Hmat. replace (0 - r_meso r - r_gaps r i) with (0 - g i) by (unfold g; ring).
    refine (proj1 (general_tv k v t0 s Hs (fun z => loop_max r Nt (unlt z) i) (peak i) (0 - g i) 0 (fun _ => fconst 0) (peak_tv i) (tv_const k v t0 0) _ _)).
    - apply (mem_ok_start s). apply Hgap. exact Hi.
    - pose proof (limit_pos s Hs) as Y. specialize (Hgap i Hi). fold (g i) in Hgap. destruct (Hpeak i Hi) as [P0 P1]. destruct (Rlt_or_le (peak i) (yield_limit s)) as [L|L].
      + left. split; [apply Rmax_lub_lt; lra|exact P0].
      + right. left. apply Rmax_lub_lt; [lra|]. destruct (Rle_lt_or_eq_dec _ _ L) as [Z|Z]; [exact Z|exfalso; apply P1; symmetry; exact Z].
  Qed.

  Lemma un_tv i t : (t < Nt)%nat -> tv (fun z => loop_un r (fun t d => fdual_of (unlt z t d)) t i) (x i t).
  Proof.
    intros Ht. unfold loop_un. eapply tv_eq; [apply (tv_sub k v t0 (fun z => fsub (fdual_of (unlt z t 2%nat)) (fconst (r_meso r))) (fun _ => fconst (r_gaps r i)) (u 2%nat t - r_meso r) (r_gaps r i)); [|apply tv_const]|unfold x, g; ring].
    apply (tv_sub k v t0 (fun z => fdual_of (unlt z t 2%nat)) (fun _ => fconst (r_meso r))); [apply Hu; [exact Ht|lia]|apply tv_const].
  Qed.

  Lemma instant_tv i t : (i < r_n r)%nat -> (t < Nt)%nat ->
    let nr := fun z => normal_un (r_mat r) (loop_un r (fun t d => fdual_of (unlt z t d)) t i) (loop_max r Nt (unlt z) i) (loop_Fm r Nt (unlt z) i) in
    carried k v t0 (fun z => n_fn (nr z)) (fun z => n_a (nr z)) (cycle_force s (peak i) (x i t)) (cycle_radius s (peak i) (x i t)).
  Proof.
    intros Hi Ht. cbv zeta. destruct (instant s r Nt (unlt t0) Hs Hmat Hgap HNt t i Ht Hi) as [Vf Va]. fold u in Vf, Va. fold um in Vf, Va. fold (g i) in Vf, Va. fold (peak i) in Vf, Va. fold (x i t) in Vf, Va.
    rewrite Hmat in *. pose proof (un_tv i t Ht) as Tu. pose proof (peak_tv i) as Tp. pose proof (Fm_tv i Hi) as TF. destruct (Hpeak i Hi) as [P0 P1]. pose proof (limit_pos s Hs) as Y. pose proof Hs as (_ & _ & HR & _). pose proof (effective_pos s Hs) as HE.
    destruct (Rlt_or_le (peak i) 0) as [Ln|Lp].
    - destruct (un_never k v t0 s (fun z => loop_un r (fun t d => fdual_of (unlt z t d)) t i) (fun z => loop_max r Nt (unlt z) i) (fun z => loop_Fm r Nt (unlt z) i) (peak i) Tp Ln) as [S1 S2]. exact (carried_still k v t0 _ _ _ _ S1 S2 Vf Va).
    - assert (Pp : 0 < peak i) by lra. specialize (Hx i t Hi Ht Pp). rewrite (peak_force s Hs (g i) (peak i)) in TF by (apply Hgap; exact Hi).
      set (F := if Rlt_dec (peak i) (yield_limit s) then solid_hertz s (peak i) else if Rlt_dec (yield_limit s) (peak i) then plastic_law s (peak i) else 0) in TF.
      assert (EF : 0 < F /\ permanent (effective_modulus s) (s_R s) (peak i) F = if Rlt_dec (peak i) (yield_limit s) then 0 else permanent (effective_modulus s) (s_R s) (peak i) (plastic_law s (peak i))).
      { unfold F. pose proof (hertz_pos _ _ (peak i) HE HR Pp) as HH. destruct (Rlt_dec (peak i) (yield_limit s)) as [L|L].
        - fold (solid_hertz s (peak i)) in HH. split; [exact HH|]. unfold permanent. fold (solid_hertz s (peak i)). field. lra.
        - assert (L' : yield_limit s < peak i) by (destruct (Rle_lt_or_eq_dec (yield_limit s) (peak i) ltac:(lra)) as [Z|Z]; [exact Z|exfalso; apply P1; symmetry; exact Z]).
          destruct (Rlt_dec (yield_limit s) (peak i)); [|lra]. split; [apply plastic_pos; [exact Hs|unfold yield_limit in *; lra]|reflexivity]. }
      destruct EF as [FP EP]. rewrite <- EP in Hx. clearbody F.
      destruct (Rlt_or_le (x i t) (permanent (effective_modulus s) (s_R s) (peak i) F)) as [Lo|Lc].
      + destruct (un_open k v t0 s Hs _ _ _ (x i t) (peak i) F Tu Tp TF Pp Lo) as [S1 S2]. exact (carried_still k v t0 _ _ _ _ S1 S2 Vf Va).
      + assert (Lx : permanent (effective_modulus s) (s_R s) (peak i) F < x i t) by (destruct (Rle_lt_or_eq_dec _ _ Lc) as [Z|Z]; [exact Z|exfalso; apply Hx; symmetry; exact Z]).
        destruct (un_closed k v t0 s Hs _ _ _ (x i t) (peak i) F Tu Tp TF Pp FP Lx) as (f' & a' & T1 & T2 & A'). apply (carried_tv k v t0 _ _ _ _ _ _ T1 T2 Vf Va).
        rewrite (fv_unique _ _ _ Va (tv_fv k v t0 _ _ T2)). lra.
  Qed.

  Let xs := fun i => repeat_samples Nt (x i).
  Let us := fun d => repeat_samples Nt (u d).
  Let body := fun z => loop_body r mu (loop_max r Nt (unlt z)) (loop_Fm r Nt (unlt z)) (fun t d => fdual_of (unlt z t d)).
  Let st := fun z kk => lsteps (body z) (loop_start r start) Nt kk.
  Let fric := fun i d => cycle_friction s mu (peak i) (xs i) (us d) (start d).
  Variable K : nat.
  Hypothesis Hslip : forall i d kk, (i < r_n r)%nat -> (d < 2)%nat -> (kk < K)%nat -> smooth_slip s mu (peak i) (xs i) (us d) (start d) kk.
  Let pf := fun i d kk => match kk with O => 0 | S j => fric i d j end.
  Let pp := fun d kk => match kk with O => start d | S j => us d j end.

  Definition traced (kk : nat) : Prop :=
    (forall d, (d < 2)%nat -> tv (fun z => lp_u0 (st z kk) d) (pp d kk)) /\
    forall i d, (i < r_n r)%nat -> (d < 2)%nat -> tv (fun z => lp_fxy (st z kk) i O d) (pf i d kk) /\
      (kk = O \/ mu = 0 \/ cycle_radius s (peak i) (xs i (kk - 1)%nat) = 0 -> still (fun z => lp_fxy (st z kk) i O d) 0).

  Lemma friction_tv kk i d : traced kk -> (kk < K)%nat -> (i < r_n r)%nat -> (d < 2)%nat ->
    moved k v t0 mu (fun z => lp_fxy (body z (kk mod Nt)%nat (st z kk)) i O d) (fric i d kk) (cycle_radius s (peak i) (xs i kk)).
  Proof.
    intros [T1 T2] HK Hi Hd. assert (Ht : (kk mod Nt < Nt)%nat) by (apply Nat.mod_upper_bound; lia). set (t := (kk mod Nt)%nat) in *.
    pose proof (instant_tv i t Hi Ht) as Tn. cbv zeta in Tn. destruct (T2 i d Hi Hd) as [Tf Sf].
    assert (Ef : (fun z => lp_fxy (body z t (st z kk)) i O d) = fun z => tangential (mat_of s) mu (fdual_of (unlt z t d)) (lp_u0 (st z kk) d) (lp_fxy (st z kk) i O d)
       (n_fn (normal_un (r_mat r) (loop_un r (fun t d => fdual_of (unlt z t d)) t i) (loop_max r Nt (unlt z) i) (loop_Fm r Nt (unlt z) i)))
       (n_a (normal_un (r_mat r) (loop_un r (fun t d => fdual_of (unlt z t d)) t i) (loop_max r Nt (unlt z) i) (loop_Fm r Nt (unlt z) i)))).
    { extensionality z. unfold body, loop_body, tangential_part. rewrite Htan. cbn [lp_fxy]. rewrite <- Hmat. reflexivity. }
    rewrite Ef. assert (Xt : xs i kk = x i t) by reflexivity. rewrite Xt.
    assert (Ev : fric i d kk = Slider.clamp (- (mu * cycle_force s (peak i) (x i t))) (mu * cycle_force s (peak i) (x i t)) (pf i d kk + 8 * mindlin_modulus s * cycle_radius s (peak i) (x i t) * (u d t - pp d kk))).
    { unfold fric, cycle_friction. unfold pf, pp. destruct kk as [|j]; cbn [mindlin]; [rewrite Rplus_0_l|]; reflexivity. }
    rewrite Ev. apply (tangential_tv k v t0 s Hs mu (fun z => fdual_of (unlt z t d)) (fun z => lp_u0 (st z kk) d) (fun z => lp_fxy (st z kk) i O d) _ _ (u d t) (pp d kk) (pf i d kk) _ _ (Hu t d Ht ltac:(lia)) (T1 d Hd) Tf Tn Hmu).
    - apply near_all. intros z. destruct (instant s r Nt (unlt z) Hs Hmat Hgap HNt t i Ht Hi) as [Vf _]. eexists. split; [exact Vf|]. apply (cycle_nonneg s Hs).
    - pose proof (Hslip i d kk Hi Hd HK) as SL. unfold smooth_slip in SL. cbv zeta in SL. rewrite Xt in SL.
      assert (SS : still (fun z => lp_fxy (st z kk) i O d) 0 -> still (fun z => lp_fxy (st z kk) i O d) (pf i d kk)).
      { intros Z. rewrite (fv_unique _ _ _ (tv_fv k v t0 _ _ Tf) (near_here t0 _ (proj1 Z))). exact Z. }
      destruct SL as [[A0 SL]|[A0 SL]].
      + left. split; [exact A0|]. destruct SL as [E|[E|[E|E]]].
        * right. apply SS, Sf. left. exact E.
        * right. apply SS, Sf. right. left. exact E.
        * left. exact E.
        * right. apply SS, Sf. right. right. exact E.
      + right. split; [exact A0|]. exact SL.
  Qed.

  Lemma steps_traced kk : (kk <= K)%nat -> traced kk.
  Proof.
    induction kk as [|kk IH]; intros HK.
    - split; [intros d Hd; apply tv_const|]. intros i d Hi Hd. split; [apply tv_const|intros _; apply still_const].
    - specialize (IH ltac:(lia)). split.
      + intros d Hd. assert (Ht : (kk mod Nt < Nt)%nat) by (apply Nat.mod_upper_bound; lia).
        assert (E : (fun z => lp_u0 (st z (S kk)) d) = fun z => fdual_of (unlt z (kk mod Nt)%nat d)).
        { extensionality z. unfold st. cbn [lsteps]. unfold body, loop_body. destruct (tangential_part _ _ _ _ _ _ _ _) as [[? ?] ?]. reflexivity. }
        rewrite E. apply (Hu (kk mod Nt)%nat d Ht). lia.
      + intros i d Hi Hd. destruct (friction_tv kk i d IH ltac:(lia) Hi Hd) as [A B]. split; [exact A|]. intros [Z|[Z|Z]]; [discriminate| |]; apply B; [right; exact Z|left]. replace (S kk - 1)%nat with kk in Z by lia. exact Z.
  Qed.

  Lemma row_tv n t d : (S n * Nt <= K)%nat -> (t < Nt)%nat -> (d < 3)%nat -> exists b, tv (fun z => rough_history r mu Nt (unlt z) start (S n) t d) b.
  Proof.
    intros HK Ht Hd.
    assert (Eh : (fun z => rough_history r mu Nt (unlt z) start (S n) t d) = fun z => lp_f (body z t (st z (n * Nt + t)%nat)) t d).
    { extensionality z. unfold rough_history. fold (body z).
      assert (W : forall i s0 t, t <> i -> lp_f (body z i s0) t = lp_f s0 t).
      { intros i st' t' Hne. unfold body, loop_body. destruct (tangential_part _ _ _ _ _ _ _ _) as [[? ?] ?]. cbn [lp_f]. extensionality e. rewrite (proj2 (Nat.eqb_neq t' i)) by exact Hne. reflexivity. }
      rewrite (last_pass (body z) (loop_start r start) Nt HNt W n t Ht). reflexivity. }
    assert (Er : (fun z => lp_f (body z t (st z (n * Nt + t)%nat)) t d) = fun z => if Nat.ltb d 2 then JaxFloat.fsum (r_n r) (fun i => fscal (r_weights r i) (lp_fxy (body z t (st z (n * Nt + t)%nat)) i O d))
      else JaxFloat.fsum (r_n r) (fun i => fscal (r_weights r i) (n_fn (normal_un (r_mat r) (loop_un r (fun t d => fdual_of (unlt z t d)) t i) (loop_max r Nt (unlt z) i) (loop_Fm r Nt (unlt z) i))))).
    { extensionality z. unfold body, loop_body, tangential_part. rewrite Htan. cbn [lp_f lp_fxy]. rewrite Nat.eqb_refl. reflexivity. }
    rewrite Eh, Er. assert (HK' : (n * Nt + t < K)%nat) by (cbn [Nat.mul] in HK; lia).
    assert (Em : ((n * Nt + t) mod Nt = t)%nat) by (rewrite Nat.add_comm, Nat.mod_add by lia; apply Nat.mod_small; exact Ht).
    destruct (Nat.ltb_spec d 2) as [H2|H2].
    - eexists. apply (tv_sum k v t0 (r_n r) (fun i z => fscal (r_weights r i) (lp_fxy (body z t (st z (n * Nt + t)%nat)) i O d)) (fun i => r_weights r i * fric i d (n * Nt + t)%nat)).
      intros i Hi. apply (tv_scal k v t0 (r_weights r i)). destruct (friction_tv (n * Nt + t) i d (steps_traced (n * Nt + t) ltac:(lia)) HK' Hi H2) as [A _]. rewrite Em in A. exact A.
    - eexists. apply (tv_sum k v t0 (r_n r) (fun i z => fscal (r_weights r i) (n_fn (normal_un (r_mat r) (loop_un r (fun t d => fdual_of (unlt z t d)) t i) (loop_max r Nt (unlt z) i) (loop_Fm r Nt (unlt z) i)))) (fun i => r_weights r i * cycle_force s (peak i) (x i t))).
      intros i Hi. apply (tv_scal k v t0 (r_weights r i)). exact (proj1 (instant_tv i t Hi Ht)).
  Qed.
End Cycle.

