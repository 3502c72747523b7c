From Coq Require Import Reals List Arith Bool ZArith Lia Lra Psatz FunctionalExtensionality.
From Verif.Lib Require Import RSum Calc Py.
From Verif.Spec Require Import Calculus Harmonic Elements System.
From Verif.Model Require Import Jenkins Harmonic LocalForces Aft VibSys.
From Verif.Proofs Require Import HarmonicP FourierP HarmonicOpsP AftP ElementsP VibSysP VibControlP VprnmP.
Import ListNotations.
Open Scope R_scope.

(** ---- selected indices ---- *)
Lemma selected_S p n : selected p (S n) = selected p n ++ (if p n then [n] else []).
Proof. unfold selected. rewrite seq_S, filter_app. cbn [Nat.add filter]. destruct (p n); reflexivity. Qed.

Lemma selected_in p n k : (k < length (selected p n))%nat -> (nth k (selected p n) O < n)%nat /\ p (nth k (selected p n) O) = true.
Proof.
  intros H. pose proof (nth_In _ O H) as I. unfold selected in I at 2. apply filter_In in I. destruct I as [I P]. apply in_seq in I. split; [lia|exact P].
Qed.

Lemma mask_rank_S p n : mask_rank p (S n) = (mask_rank p n + (if p n then 1 else 0))%nat.
Proof. unfold mask_rank. fold (selected p (S n)). rewrite selected_S, app_length. fold (selected p n). destruct (p n); reflexivity. Qed.

Lemma mask_rank_mono p i n : (i <= n)%nat -> (mask_rank p i <= mask_rank p n)%nat.
Proof. induction 1; [lia|]. rewrite mask_rank_S. lia. Qed.

Lemma rank_lt p i n : (i < n)%nat -> p i = true -> (mask_rank p i < mask_rank p n)%nat.
Proof. intros H P. pose proof (mask_rank_mono p (S i) n H) as M. rewrite mask_rank_S, P in M. lia. Qed.

Lemma nth_selected_rank p n i : (i < n)%nat -> p i = true -> nth (mask_rank p i) (selected p n) O = i.
Proof.
  induction n as [|n IH]; intros H P; [lia|]. rewrite selected_S.
  destruct (Nat.eq_dec i n) as [->|Ne].
  - rewrite P, app_nth2 by (unfold mask_rank, selected; lia). replace (mask_rank p n - length (selected p n))%nat with O by (unfold mask_rank, selected; lia). reflexivity.
  - rewrite app_nth1 by (apply rank_lt; [lia|exact P]). apply IH; [lia|exact P].
Qed.

Lemma rank_nth_selected p n k : (k < length (selected p n))%nat -> mask_rank p (nth k (selected p n) O) = k.
Proof.
  induction n as [|n IH]; intros H; [cbn in H; lia|]. rewrite selected_S in *. rewrite app_length in H.
  destruct (lt_dec k (length (selected p n))) as [L|L].
  - rewrite app_nth1 by exact L. apply IH. exact L.
  - destruct (p n); cbn [length] in H; [|lia]. rewrite app_nth2 by lia. replace (k - length (selected p n))%nat with O by lia. cbn [nth].
    unfold mask_rank. fold (selected p n). lia.
Qed.

Lemma rank_ext (p q : nat -> bool) n i : (i <= n)%nat -> (forall k, (k < n)%nat -> p k = q k) -> mask_rank p i = mask_rank q i.
Proof.
  intros H E. induction i as [|i IH]; [reflexivity|]. rewrite !mask_rank_S, IH, E by lia. reflexivity.
Qed.

Lemma rsum_selected (p : nat -> bool) n (f : nat -> nat -> R) :
  rsum n (fun j => if p j then f j (mask_rank p j) else 0) = rsum (length (selected p n)) (fun l => f (nth l (selected p n) O) l).
Proof.
  induction n as [|n IH]; [reflexivity|]. rewrite rsum_S, IH, selected_S, app_length.
  destruct (p n); cbn [length].
  - rewrite rsum_p1. f_equal.
    + apply rsum_ext. intros l Hl. rewrite app_nth1 by exact Hl. reflexivity.
    + rewrite app_nth2 by lia. rewrite Nat.sub_diag. cbn [nth]. unfold mask_rank. fold (selected p n). reflexivity.
  - rewrite Nat.add_0_r, Rplus_0_r. apply rsum_ext. intros l Hl. rewrite app_nth1 by exact Hl. reflexivity.
Qed.

(** ---- the assembled vector ---- *)
Lemma base_full_free N n bf Uw Ub i : (i < n)%nat -> bf (i mod N) = false ->
  base_full N n bf Uw Ub i = Uw (mask_rank (fun i => negb (bf (i mod N))) i).
Proof.
  intros Hi Hb. unfold base_full. rewrite Hb, andb_false_r. f_equal.
  apply (rank_ext _ _ n); [lia|]. intros k Hk. rewrite ltb_t by exact Hk. reflexivity.
Qed.
Lemma base_full_base N n bf Uw Ub i : (i < n)%nat -> bf (i mod N) = true ->
  base_full N n bf Uw Ub i = Ub (mask_rank (fun i => bf (i mod N)) i).
Proof.
  intros Hi Hb. unfold base_full. rewrite Hb, ltb_t by exact Hi. cbn [andb]. f_equal.
  apply (rank_ext _ _ n); [lia|]. intros k Hk. rewrite ltb_t by exact Hk. reflexivity.
Qed.
Lemma base_full_w N n bf Uw Ub : base_full N n bf Uw Ub n = Uw (length (free_entries N n bf)).
Proof.
  unfold base_full. rewrite (ltb_f n n) by lia. cbn [andb]. f_equal. unfold free_entries, selected.
  change (length (filter (fun i => negb (bf (i mod N))) (seq 0 n))) with (mask_rank (fun i => negb (bf (i mod N))) n).
  apply (rank_ext _ _ n); [lia|]. intros k Hk. rewrite ltb_t by exact Hk. reflexivity.
Qed.

Lemma base_assembled N n bf Uw Ub : assembled N n bf Uw Ub (base_full N n bf Uw Ub).
Proof.
  split; [|split].
  - intros k Hk. destruct (selected_in _ _ _ Hk) as [A B]. rewrite base_full_base by assumption. f_equal. apply rank_nth_selected. exact Hk.
  - intros k Hk. destruct (selected_in _ _ _ Hk) as [A B]. apply negb_true_iff in B. rewrite base_full_free by assumption. f_equal. apply rank_nth_selected. exact Hk.
  - apply base_full_w.
Qed.

Lemma assembled_unique N n bf Uw Ub V : assembled N n bf Uw Ub V -> forall i, (i <= n)%nat -> V i = base_full N n bf Uw Ub i.
Proof.
  intros (A & B & C) i Hi. destruct (Nat.eq_dec i n) as [->|Ne]; [rewrite C, base_full_w; reflexivity|].
  assert (Hi' : (i < n)%nat) by lia. destruct (bf (i mod N)) eqn:E.
  - rewrite base_full_base by assumption. unfold base_entries in A. set (p := fun i => bf (i mod N)) in *.
    rewrite <- (A (mask_rank p i)) by (exact (rank_lt p i n Hi' E)). rewrite nth_selected_rank by assumption. reflexivity.
  - rewrite base_full_free by assumption. unfold free_entries in B. set (p := fun i => negb (bf (i mod N))) in *.
    assert (E' : p i = true) by (unfold p; rewrite E; reflexivity).
    rewrite <- (B (mask_rank p i)) by (exact (rank_lt p i n Hi' E')). rewrite nth_selected_rank by assumption. reflexivity.
Qed.

(** the residual is the full residual at the free entries *)
Lemma base_value s Uw Ub bf h Nt V Rr J l : admissible h ->
  let N := vs_N s in
  let n := (length (components h) * N)%nat in
  assembled N n bf Uw Ub V ->
  hbm_res s V vzero h Nt true = Ok (Rr, Some (J, l)) ->
  let free := fun k => nth k (free_entries N n bf) O in
  hbm_base_res s Uw Ub bf h Nt = Ok (fun k => Rr (free k), fun k m => J (free k) (free m), fun k => l (free k)).
Proof.
  intros Ha N n HV HR free. unfold hbm_base_res. rewrite nhc_aft. cbv zeta. fold N. fold n.
  rewrite (proj1 (Nhc_spec h) (proj1 (proj2 Ha))). cbn [bind].
  rewrite (hbm_res_ext s (base_full N n bf Uw Ub) V).
  - rewrite HR. cbn [bind]. reflexivity.
  - fold N. fold n. intros i Hi. symmetry. apply assembled_unique; assumption.
Qed.

Lemma base_exact s Uw Ub bf h Nt V : admissible h ->
  let N := vs_N s in
  let n := (length (components h) * N)%nat in
  let m := length (free_entries N n bf) in
  assembled N n bf Uw Ub V ->
  Forall (aft_smooth n h Nt (take n V) (V n)) (vs_forces s) ->
  exact_residual m m (fun Uw => some_grad (hbm_base_res s Uw Ub bf h Nt)) Uw.
Proof.
  intros Ha N n m HV H. destruct (hbm_exact s h Nt V vzero Ha H) as (Rf & J & l & A & B & C). fold N in C. fold n in C.
  set (free := fun k => nth k (free_entries N n bf) O).
  exists (fun Uw' k => Rf (base_full N n bf Uw' Ub) (free k)), (fun k m => J (free k) (free m)), (fun k => l (free k)).
  split; [|split].
  - intros Uw'. destruct (A (base_full N n bf Uw' Ub)) as [[J' l'] E].
    rewrite (base_value s Uw' Ub bf h Nt _ _ _ _ Ha (base_assembled N n bf Uw' Ub) E). eexists. reflexivity.
  - rewrite (base_value s Uw Ub bf h Nt V (Rf V) J l Ha HV B). cbn [some_grad]. fold N. fold n. do 2 f_equal.
    destruct (A (base_full N n bf Uw Ub)) as [G E].
    rewrite (hbm_res_ext s (base_full N n bf Uw Ub) V) in E by (intros i Hi; symmetry; apply assembled_unique; assumption).
    rewrite B in E. injection E as E _. apply vec_ext. intros k. fold free. rewrite <- E. reflexivity.
  - intros g v t0 Hg Hv k Hk. rewrite rsum_hcat.
    set (p := fun i => negb (bf (i mod N))).
    set (v' := fun i => if Nat.ltb i n then (if p i then v (mask_rank p i) else 0) else v m).
    eapply dlim_eq.
    + apply (C (fun t => base_full N n bf (g t) Ub) v' t0).
      * intros j Hj. rewrite (assembled_unique N n bf Uw Ub V HV j) by lia.
        destruct (Nat.eq_dec j n) as [->|Ne]; [rewrite !base_full_w; apply Hg; unfold m; lia|].
        destruct (bf (j mod N)) eqn:E; [rewrite !base_full_base by (auto; lia); reflexivity|].
        rewrite !base_full_free by (auto; lia). apply Hg.
        assert (L : (mask_rank p j < mask_rank p n)%nat) by (apply rank_lt; [lia|unfold p; rewrite E; reflexivity]).
        change (mask_rank p n) with m in L. unfold p in L. lia.
      * intros j Hj. unfold v'. destruct (Nat.ltb_spec j n) as [Hj'|Hj'].
        -- unfold p at 1. destruct (bf (j mod N)) eqn:E; cbn [negb].
           ++ apply (dlim_ext (fun _ => base_full N n bf Uw Ub j)); [|apply dlim_const]. intros t. rewrite !base_full_base by assumption. reflexivity.
           ++ apply (dlim_ext (fun t => g t (mask_rank p j))); [intros t; rewrite base_full_free by assumption; reflexivity|]. apply Hv.
              assert (L : (mask_rank p j < mask_rank p n)%nat) by (apply rank_lt; [lia|unfold p; rewrite E; reflexivity]).
              change (mask_rank p n) with m in L. lia.
        -- assert (j = n) by lia. subst j. apply (dlim_ext (fun t => g t m)); [intros t; rewrite base_full_w; reflexivity|]. apply Hv. lia.
      * apply (proj1 (selected_in _ _ _ Hk)).
    + rewrite rsum_hcat. f_equal.
      * rewrite (rsum_ext n _ (fun j => if p j then (fun j r => J (free k) j * v r) j (mask_rank p j) else 0)).
        -- rewrite (rsum_selected p n (fun j r => J (free k) j * v r)). reflexivity.
        -- intros j Hj. unfold v'. rewrite ltb_t by exact Hj. unfold free. destruct (p j); ring.
      * unfold v'. rewrite (ltb_f n n) by lia. reflexivity.
Qed.

(** ---- when it vanishes: reaction forces at the base only ---- *)
Lemma motion_zero_dof N h X w i : admissible h -> w <> 0 -> (i < N)%nat ->
  (forall c, (c < length (components h))%nat -> X (c * N + i)%nat = 0) <-> (forall t, motion N h X w i t = 0).
Proof.
  intros [Hne [Hd Hz]] Hw Hi. split.
  - intros H t. unfold motion, series, dof_coefs. apply rsum_zero. intros c Hc. rewrite H by exact Hc. ring.
  - intros H c Hc. change (X (c * N + i)%nat) with (dof_coefs N X i c).
    rewrite <- (series_coef (2 * list_max h + 1) h (dof_coefs N X i) c Hd ltac:(lia) Hc).
    unfold fourier_coef. rewrite rsum_zero; [ring|]. intros n Hn. cbv beta.
    rewrite <- (Rmult_0_l (comp_fun (nth c (components h) (Cos O)) (sample_phase (2 * list_max h + 1) n))). f_equal.
    specialize (H (sample_phase (2 * list_max h + 1) n / w)). unfold motion in H.
    replace (w * (sample_phase (2 * list_max h + 1) n / w)) with (sample_phase (2 * list_max h + 1) n) in H by (field; exact Hw).
    exact H.
Qed.

Lemma eom_free N h M C K w U (Fnl : vec) cg E dE (bf : nat -> bool) : admissible h -> w <> 0 ->
  harmonic_stiffness N M C K w h cg false = Ok (E, dE) ->
  let n := (length (components h) * N)%nat in
  (forall i, (i < n)%nat -> bf (i mod N) = false -> matvec n E U i + Fnl i = 0) <->
  exists g, (forall i t, (i < N)%nat -> bf i = false -> g i t = 0) /\
            equation_of_motion N h M C K U w (motion N h Fnl w) g.
Proof.
  intros Ha Hw HE n. destruct (stiffness_eom N M C K w h cg U Ha) as (E' & dE' & v & a & E1 & Hv & Hac & HM).
  rewrite HE in E1. injection E1 as <- <-. fold n in HM. split.
  - intros H. exists (motion N h (fun i => matvec n E U i + Fnl i) w). split.
    + intros i t Hi Hb. apply (motion_zero_dof N h _ w i Ha Hw Hi). intros c Hc. apply H; [unfold n; nia|].
      rewrite (Nat.add_comm (c * N)), Nat.mod_add, Nat.mod_small by lia. exact Hb.
    + exists v, a. split; [auto|]. split; [auto|]. intros i t Hi. rewrite motion_plus, <- HM by exact Hi. reflexivity.
  - intros (g & Hg & v' & a' & Hv' & Hac' & HM') r Hr Hb.
    destruct (block_form _ _ r Hr) as [c [i [Hc [Hi ->]]]].
    rewrite (Nat.add_comm (c * N)), Nat.mod_add, Nat.mod_small in Hb by lia.
    apply (proj2 (motion_zero_dof N h (fun i => matvec n E U i + Fnl i) w i Ha Hw Hi)); [|exact Hc].
    intros t. rewrite motion_plus, HM by exact Hi. rewrite <- (Hg i t Hi Hb), <- HM' by exact Hi. f_equal.
    assert (Ev : forall j s, (j < N)%nat -> v j s = v' j s) by (intros j s Hj; eapply uniqueness_limite; [apply Hv|apply Hv'; exact Hj]).
    assert (Ea : forall j s, (j < N)%nat -> a j s = a' j s).
    { intros j s Hj. eapply uniqueness_limite; [apply Hac|]. eapply dlim_ext; [|apply Hac'; exact Hj]. intros; symmetry; apply Ev. exact Hj. }
    apply rsum_ext. intros; rewrite Ev, Ea by assumption; reflexivity.
Qed.

Lemma base_zero s Uw Ub bf h Nt V outs : admissible h ->
  let N := vs_N s in
  let n := (length (components h) * N)%nat in
  let m := length (free_entries N n bf) in
  assembled N n bf Uw Ub V ->
  Uw m <> 0 ->
  Forall2 (fun f o => nl_aft f (take n V) (Uw m) h Nt = Ok o) (vs_forces s) outs ->
  exists Rr J l, hbm_base_res s Uw Ub bf h Nt = Ok (Rr, J, l) /\
    ((forall k, (k < m)%nat -> Rr k = 0) <->
     exists reaction, (forall i t, (i < N)%nat -> bf i = false -> reaction i t = 0) /\
       equation_of_motion N h (vs_M s) (vs_C s) (vs_K s) V (Uw m) (total_motion N h outs (Uw m)) reaction).
Proof.
  intros Ha N n m HV Hw H. assert (EV : V n = Uw m) by apply HV. rewrite <- EV in *.
  destruct (hbm_value s h Nt V vzero outs Ha H) as (E & dE & Rr & [J l] & HE & HR & HV').
  pose proof (base_value s Uw Ub bf h Nt V Rr J l Ha HV HR) as BV. fold N in BV, HV', HE. fold n in BV, HV', HE. cbv zeta in BV.
  eexists _, _, _. split; [exact BV|]. cbv beta.
  transitivity (forall i, (i < n)%nat -> bf (i mod N) = false -> matvec n E V i + (fun r => lsum (fun o => fst (fst o) r) outs) i = 0).
  - split.
    + intros Z i Hi Hb. set (p := fun i => negb (bf (i mod N))).
      assert (Pi : p i = true) by (unfold p; rewrite Hb; reflexivity).
      specialize (Z (mask_rank p i) (rank_lt p i n Hi Pi)). unfold free_entries in Z. fold p in Z. rewrite nth_selected_rank in Z by assumption.
      rewrite HV' in Z. unfold vzero in Z. lra.
    + intros Z k Hk. destruct (selected_in _ _ _ Hk) as [A B]. apply negb_true_iff in B. specialize (Z _ A B). rewrite HV'. unfold vzero, free_entries. cbv beta in Z. lra.
  - pose proof (eom_free N h (vs_M s) (vs_C s) (vs_K s) (V n) V (fun r => lsum (fun o => fst (fst o) r) outs) true E (Some dE) bf Ha Hw HE) as Z.
    cbv zeta in Z. fold n in Z. rewrite Z.
    split; intros (g & G1 & G2); exists g; (split; [exact G1|]); eapply eom_ext; try exact G2; intros i t Hi; cbv beta; try reflexivity;
      [symmetry; apply motion_lsum|apply motion_lsum].
Qed.
