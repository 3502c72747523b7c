(** Proofs about the summary callbacks. *)
From Coq Require Import Reals List Arith Bool Lra Lia Psatz.
From Verif.Lib Require Import RSum Py.
From Verif.Spec Require Import Calculus Harmonic System Summary.
From Verif.Model Require Import Harmonic VibSys SummaryFiles.
From Verif.Proofs Require Import HarmonicP AftP HarmonicOpsP VibSysP VibControlP VprnmP.
Import ListNotations.
Open Scope R_scope.

Lemma entries_length m X : length (entries m X) = m.
Proof. unfold entries. rewrite map_length, seq_length. reflexivity. Qed.
Lemma entries_nth m X i : (i < m)%nat -> nth i (entries m X) 0 = X i.
Proof.
  intros H. unfold entries. rewrite (nth_indep _ 0 (X O)) by (rewrite map_length, seq_length; exact H).
  rewrite map_nth, seq_nth by exact H. reflexivity.
Qed.
Lemma entries_end m X k : (k <= m)%nat -> (0 < k)%nat -> from_end (entries m X) k = Ok (X (m - k)%nat).
Proof.
  intros H Hk. unfold from_end. rewrite entries_length. destruct (Nat.ltb_spec m k); [lia|]. rewrite entries_nth by lia. reflexivity.
Qed.
Lemma slice_nth l a b i : (i < b - a)%nat -> nth i (slice_list l a b) 0 = nth (a + i) l 0.
Proof.
  intros Hi. unfold slice_list.
  assert (F : forall (n : nat) (q : list R) i, (i < n)%nat -> nth i (firstn n q) 0 = nth i q 0).
  { induction n as [|n IH]; intros q j Hj; [lia|]. destruct q as [|x q]; [destruct j; reflexivity|]. destruct j as [|j]; [reflexivity|]. cbn [firstn nth]. apply IH. lia. }
  rewrite F by exact Hi. revert l. induction a as [|a IH]; intros l; [reflexivity|]. destruct l as [|x l]; [destruct i; reflexivity|]. cbn [skipn Nat.add nth]. apply IH. lia.
Qed.
Lemma slice_length l a b : (b <= length l)%nat -> length (slice_list l a b) = (b - a)%nat.
Proof. intros H. unfold slice_list. rewrite firstn_length, skipn_length. lia. Qed.

Lemma filter_nodup (p : nat -> bool) l : NoDup l -> NoDup (filter p l).
Proof. apply NoDup_filter. Qed.

Section Response.
  Variables (N m : nat) (h : list nat) (X recov : vec) (w : R) (order k : nat).
  Hypothesis Ha : admissible h.
  Hypothesis Hk : ordered_at k h.
  Hypothesis Hm : (length (components h) * N <= m)%nat.

  Lemma part_matmul c : (c < length (components h))%nat ->
    vec_matmul (entries N recov) (slice_list (entries m X) (c * N) ((c + 1) * N)) = Ok (rsum N (fun j => recov j * X (c * N + j)%nat)).
  Proof.
    intros Hc. assert (B : ((c + 1) * N <= m)%nat) by nia.
    unfold vec_matmul. rewrite slice_length by (rewrite entries_length; exact B). rewrite entries_length.
    replace ((c + 1) * N - c * N)%nat with N by nia. rewrite Nat.eqb_refl. f_equal. apply rsum_ext. intros j Hj.
    rewrite entries_nth by exact Hj. rewrite slice_nth by nia. rewrite entries_nth by nia. reflexivity.
  Qed.

  Lemma resp_value : calc_harmonic_resp (entries m X) w h order (entries N recov) k =
    Ok (sqrt (rsum N (fun j => recov j * X (low_len k h * N + j)%nat) ^ 2 + rsum N (fun j => recov j * X ((low_len k h + 1) * N + j)%nat) ^ 2) * (INR k * w) ^ order).
  Proof.
    unfold calc_harmonic_resp. rewrite entries_length. rewrite (proj1 (Nhc_spec _) (filter_nodup _ h (proj1 (proj2 Ha)))). cbn [bind].
    change (length (components (filter (fun x => Nat.ltb x k) h))) with (low_len k h). pose proof (low_len_bound k h Hk) as B.
    rewrite part_matmul by lia. cbn [bind]. replace (low_len k h + 2)%nat with (low_len k h + 1 + 1)%nat by lia. rewrite part_matmul by lia. reflexivity.
  Qed.

  Lemma resp_spec : 0 < w -> exists v, calc_harmonic_resp (entries m X) w h order (entries N recov) k = Ok v /\ output_amplitude N h X w order recov k v.
  Proof.
    intros Hw. eexists. split; [apply resp_value|]. assert (K0 : 0 < INR k * w).
    { apply Rmult_lt_0_compat; [|exact Hw]. destruct Hk as (lo & hi & _ & Hp & _). apply lt_0_INR. exact Hp. }
    set (a := rsum N (fun j => recov j * X (low_len k h * N + j)%nat)). set (b := rsum N (fun j => recov j * X ((low_len k h + 1) * N + j)%nat)).
    split.
    - apply Rmult_le_pos; [apply sqrt_pos|]. apply Rlt_le, pow_lt. exact K0.
    - apply (amplitude_iff (INR k * w) order a b); [lra| |].
      + intros t. unfold a, b. rewrite <- !rsum_scal_r, <- rsum_plus. apply rsum_ext. intros j Hj. rewrite harmonic_part_k by exact Hk. rewrite !Rmult_assoc. ring.
      + assert (S1 : sqrt (a ^ 2 + b ^ 2) * sqrt (a ^ 2 + b ^ 2) = a ^ 2 + b ^ 2) by (apply sqrt_sqrt; pose proof (pow2_ge_0 a); pose proof (pow2_ge_0 b); lra).
        replace (2 * order)%nat with (order + order)%nat by lia. rewrite pow_add. rewrite <- S1 at 1. ring.
  Qed.
End Response.

(** the amplitude is determined *)
Lemma amplitude_unique N h X w order recov k v v' : ordered_at k h -> 0 < w ->
  output_amplitude N h X w order recov k v -> output_amplitude N h X w order recov k v' -> v = v'.
Proof.
  intros Hk Hw (P & y & p & D & E) (P' & y' & p' & D' & E').
  assert (K0 : 0 < INR k * w).
  { apply Rmult_lt_0_compat; [|exact Hw]. destruct Hk as (lo & hi & _ & Hp & _). apply lt_0_INR. exact Hp. }
  set (a := rsum N (fun j => recov j * X (low_len k h * N + j)%nat)). set (b := rsum N (fun j => recov j * X ((low_len k h + 1) * N + j)%nat)).
  assert (Q : forall t, rsum N (fun j => recov j * harmonic_part k N h X w j t) = a * cos (INR k * w * t) + b * sin (INR k * w * t)).
  { intros t. unfold a, b. rewrite <- !rsum_scal_r, <- rsum_plus. apply rsum_ext. intros j Hj. rewrite harmonic_part_k by exact Hk. rewrite !Rmult_assoc. ring. }
  pose proof (proj2 (amplitude_iff (INR k * w) order a b v _ ltac:(lra) Q) (ex_intro _ y (ex_intro _ p (conj D E)))) as S1.
  pose proof (proj2 (amplitude_iff (INR k * w) order a b v' _ ltac:(lra) Q) (ex_intro _ y' (ex_intro _ p' (conj D' E')))) as S2.
  rewrite S1 in S2. apply Rsqr_inj; [exact P|exact P'|]. rewrite !Rsqr_pow2. exact S2.
Qed.

(** ---- the rows ---- *)
Lemma amps_spec N m h X w order outs : admissible h -> (length (components h) * N <= m)%nat -> 0 < w ->
  Forall (fun o => ordered_at (snd o) h) outs ->
  exists vs, amp_list (entries m X) w h order (map (fun o => (entries N (fst o), snd o)) outs) = Ok vs /\
    Forall2 (fun o v => output_amplitude N h X w order (fst o) (snd o) v) outs vs.
Proof.
  intros Ha Hm Hw H. induction H as [|o outs Ho H (vs & E & F)]; [exists []; split; [reflexivity|constructor]|].
  destruct (resp_spec N m h X (fst o) w order (snd o) Ha Ho Hm Hw) as (v & Ev & Sv).
  exists (v :: vs). cbn [map amp_list fst snd]. rewrite Ev. cbn [bind]. rewrite E. cbn [bind]. split; [reflexivity|]. constructor; assumption.
Qed.

Lemma half_pi w : w / 2 / PI = w / (2 * PI).
Proof. field. apply PI_neq0. Qed.

Lemma epmc_row_spec n X : X n <> 0 -> exists zeta, epmc_row (entries (n + 3) X) = Ok [X (n + 2)%nat; X n / (2 * PI); zeta] /\ X (n + 1)%nat = 2 * zeta * X n.
Proof.
  intros Hw. unfold epmc_row. rewrite !entries_end by lia. cbn [bind].
  replace (n + 3 - 1)%nat with (n + 2)%nat by lia. replace (n + 3 - 3)%nat with n by lia. replace (n + 3 - 2)%nat with (n + 1)%nat by lia.
  exists (X (n + 1)%nat / 2 / X n). rewrite half_pi. split; [reflexivity|]. field. exact Hw.
Qed.

Lemma hbm_amp_row_spec N h X order recov k : admissible h -> ordered_at k h ->
  let n := (length (components h) * N)%nat in 0 < X (n + 1)%nat ->
  exists v, hbm_amp_row h order (entries N recov) k (entries (n + 2) X) = Ok [X (n + 1)%nat / (2 * PI); X n; v] /\
    output_amplitude N h X (X (n + 1)%nat) order recov k v.
Proof.
  intros Ha Hk n Hw. unfold hbm_amp_row. rewrite !entries_end by lia. cbn [bind].
  replace (n + 2 - 1)%nat with (n + 1)%nat by lia. replace (n + 2 - 2)%nat with n by lia.
  destruct (resp_spec N (n + 2) h X recov (X (n + 1)%nat) order k Ha Hk ltac:(lia) Hw) as (v & E & Sv). rewrite E. cbn [bind].
  exists v. rewrite half_pi. split; [reflexivity|exact Sv].
Qed.

Lemma hbm_amp_phase_row_spec N h X freq amp order recov k : admissible h -> ordered_at k h ->
  let n := (length (components h) * N)%nat in 0 < freq ->
  exists v, hbm_amp_phase_row freq amp h order (entries N recov) k (entries (n + 3) X) = Ok [freq / (2 * PI); amp; X n; X (n + 1)%nat; v] /\
    output_amplitude N h X freq order recov k v.
Proof.
  intros Ha Hk n Hw. unfold hbm_amp_phase_row. destruct (resp_spec N (n + 3) h X recov freq order k Ha Hk ltac:(lia) Hw) as (v & E & Sv). rewrite E. cbn [bind].
  rewrite !entries_end by lia. cbn [bind]. replace (n + 3 - 3)%nat with n by lia. replace (n + 3 - 2)%nat with (n + 1)%nat by lia.
  exists v. rewrite half_pi. split; [reflexivity|exact Sv].
Qed.

Lemma vprnm_row_spec N h X order outs : admissible h -> Forall (fun o => ordered_at (snd o) h) outs ->
  let n := (length (components h) * N)%nat in 0 < X n ->
  exists vs, vprnm_row h order (map (fun o => (entries N (fst o), snd o)) outs) (entries (n + 2) X) = Ok (X (n + 1)%nat :: X n / (2 * PI) :: vs) /\
    Forall2 (fun o v => output_amplitude N h X (X n) order (fst o) (snd o) v) outs vs.
Proof.
  intros Ha Hk n Hw. unfold vprnm_row. rewrite !entries_end by lia. cbn [bind].
  replace (n + 2 - 1)%nat with (n + 1)%nat by lia. replace (n + 2 - 2)%nat with n by lia.
  destruct (amps_spec N (n + 2) h X (X n) order outs Ha ltac:(lia) Hw Hk) as (vs & E & Sv). rewrite E. cbn [bind].
  exists vs. rewrite half_pi. split; [reflexivity|exact Sv].
Qed.

Lemma vprnm_amp_phase_row_spec N h X order outs : admissible h -> Forall (fun o => ordered_at (snd o) h) outs ->
  let n := (length (components h) * N)%nat in 0 < X (n + 2)%nat ->
  exists vs, vprnm_amp_phase_row h order (map (fun o => (entries N (fst o), snd o)) outs) (entries (n + 4) X)
      = Ok (X (n + 3)%nat :: X n :: X (n + 1)%nat :: X (n + 2)%nat / (2 * PI) :: vs) /\
    Forall2 (fun o v => output_amplitude N h X (X (n + 2)%nat) order (fst o) (snd o) v) outs vs.
Proof.
  intros Ha Hk n Hw. unfold vprnm_amp_phase_row. rewrite !entries_end by lia. cbn [bind].
  replace (n + 4 - 1)%nat with (n + 3)%nat by lia. replace (n + 4 - 4)%nat with n by lia. replace (n + 4 - 3)%nat with (n + 1)%nat by lia. replace (n + 4 - 2)%nat with (n + 2)%nat by lia.
  destruct (amps_spec N (n + 4) h X (X (n + 2)%nat) order outs Ha ltac:(lia) Hw Hk) as (vs & E & Sv). rewrite E. cbn [bind].
  exists vs. rewrite half_pi. split; [reflexivity|exact Sv].
Qed.

(** ---- the file ---- *)
Lemma run_file header row Xs : forall f rows, Forall2 (fun X r => row X = Ok r) Xs rows ->
  callback_run (fun f X => append_stats f header (row X)) f Xs = (expected_file f header rows, Ok tt).
Proof.
  assert (G : forall Xs rows l, Forall2 (fun X r => row X = Ok r) Xs rows ->
     callback_run (fun f X => append_stats f header (row X)) (Some l) Xs = (Some (l ++ map (map Value) rows), Ok tt)).
  { clear. intros Xs rows l H. revert l. induction H as [|X r Xs rows E H IH]; intros l; cbn [callback_run map]; [rewrite app_nil_r; reflexivity|].
    unfold append_stats at 1. rewrite E. rewrite IH. rewrite <- app_assoc. reflexivity. }
  intros f rows H. destruct f as [l|].
  - rewrite (G Xs rows l H). destruct rows; reflexivity.
  - destruct H as [|X r Xs rows E H]; [reflexivity|]. cbn [callback_run]. unfold append_stats at 1. rewrite E. rewrite (G Xs rows _ H).
    cbn [expected_file map]. rewrite <- app_assoc. reflexivity.
Qed.

(** ---- the amplitude controlled by the residual ---- *)
Lemma recovered_output N h X w recov t : recovered N h recov X w t = rsum N (fun j => recov j * harmonic_part 1 N h X w j t).
Proof. reflexivity. Qed.

Lemma first_ordered h : admissible h -> starts_with_1 h -> ordered_at 1 h.
Proof.
  intros (Hne & Hd & Hz) [rest [->| ->]].
  - exists [], rest. cbn [tl] in Hz. split; [reflexivity|]. split; [lia|]. split; [intros x []|]. intros x Hx. inversion Hd as [|? ? N1 _]; subst.
    assert (x <> 0%nat) by (intros ->; contradiction). assert (x <> 1%nat) by (intros ->; contradiction). lia.
  - exists [O], rest. cbn [tl] in Hz. split; [reflexivity|]. split; [lia|]. split; [intros x [<-|[]]; lia|]. intros x Hx. inversion Hd as [|? ? N0 Hd']; subst. inversion Hd' as [|? ? N1 _]; subst.
    assert (x <> 0%nat) by (intros ->; apply Hz; right; exact Hx). assert (x <> 1%nat) by (intros ->; contradiction). lia.
Qed.

Lemma controlled_amplitude s h Nt X Fl recov amp order outs Rr G : admissible h -> starts_with_1 h ->
  let N := vs_N s in let n := (length (components h) * N)%nat in let w := X (n + 1)%nat in 0 < w -> 0 <= amp ->
  Forall2 (fun f o => nl_aft f (take n X) w h Nt = Ok o) (vs_forces s) outs ->
  hbm_amp_control_res s X Fl h recov amp order Nt true = Ok (Rr, Some G) -> (forall i, (i < n + 1)%nat -> Rr i = 0) ->
  hbm_amp_row h order (entries N recov) 1 (entries (n + 2) X) = Ok [w / (2 * PI); X n; amp].
Proof.
  intros Ha H1 N n w Hw Hamp Ho E HR. pose proof (first_ordered h Ha H1) as Hk.
  destruct (amp_zero s h Nt X Fl recov amp order outs Ha H1 ltac:(fold N n w; lra) Ho) as (Rr' & G' & E' & Q).
  rewrite E in E'. inversion E'. subst Rr' G'. destruct (proj1 Q HR) as (_ & y & phi & D & P). clear Q E'. fold N n w in D, P.
  destruct (hbm_amp_row_spec N h X order recov 1 Ha Hk Hw) as (v & Ev & Sv). fold n in Ev, Sv. fold w in Ev, Sv. rewrite Ev. do 4 f_equal.
  apply (amplitude_unique N h X w order recov 1 v amp Hk Hw Sv). split; [exact Hamp|]. exists y, phi. split; [exact D|].
  intros t. rewrite P. change (INR 1) with 1. rewrite Rmult_1_l. reflexivity.
Qed.

(** ---- columns ---- *)
Lemma amps_length X w h order : forall l vs, amp_list X w h order l = Ok vs -> length vs = length l.
Proof.
  induction l as [|o l IH]; intros vs E; cbn [amp_list] in E; [inversion E; reflexivity|].
  destruct (calc_harmonic_resp _ _ _ _ _ _) as [a|]; cbn [bind] in E; [|discriminate]. destruct (amp_list X w h order l) as [r|] eqn:Er; cbn [bind] in E; [|discriminate].
  inversion E. cbn [length]. f_equal. apply IH. reflexivity.
Qed.
Ltac one_bind E := match type of E with bind ?x _ = _ => destruct x eqn:?; cbn [bind] in E; [|discriminate E] end.
Lemma columns_epmc X r : epmc_row X = Ok r -> same_columns epmc_header r.
Proof. unfold epmc_row. intros E. repeat one_bind E. inversion E. reflexivity. Qed.
Lemma columns_hbm_amp h order recov k X r : hbm_amp_row h order recov k X = Ok r -> same_columns (hbm_amp_header order) r.
Proof. unfold hbm_amp_row. intros E. repeat one_bind E. inversion E. reflexivity. Qed.
Lemma columns_hbm_amp_phase f a h order recov k X r : hbm_amp_phase_row f a h order recov k X = Ok r -> same_columns (hbm_amp_phase_header order) r.
Proof. unfold hbm_amp_phase_row. intros E. repeat one_bind E. inversion E. reflexivity. Qed.
Lemma columns_vprnm h order l X r : vprnm_row h order l X = Ok r -> same_columns (vprnm_header order l) r /\ length (label_line l) = length r.
Proof.
  unfold vprnm_row. intros E. repeat one_bind E. inversion E. unfold same_columns, vprnm_header, label_line.
  repeat rewrite ?app_length, ?repeat_length, ?map_length, ?combine_length, ?seq_length, ?Nat.min_id. cbn [length].
  rewrite (amps_length _ _ _ _ _ _ Heqr2). split; reflexivity.
Qed.
Lemma columns_vprnm_amp_phase h co order l X r : vprnm_amp_phase_row h order l X = Ok r ->
  same_columns (vprnm_amp_phase_header co order l) r /\ length r = (length (label_line l) + 2)%nat.
Proof.
  unfold vprnm_amp_phase_row. intros E. repeat one_bind E. inversion E. unfold same_columns, vprnm_amp_phase_header, label_line.
  repeat rewrite ?app_length, ?repeat_length, ?map_length, ?combine_length, ?seq_length, ?Nat.min_id. cbn [length].
  rewrite (amps_length _ _ _ _ _ _ Heqr4). split; lia.
Qed.

(** ---- what is wrong ---- *)
Definition mean_X : vec := fun i => nth i [1; 1; 0; 5; 2] 0.
Lemma mean_wrong : exists v, hbm_amp_row [0; 1]%nat 0 [1] 0 (entries 5 mean_X) = Ok [2 / (2 * PI); 5; v] /\
  (forall t, rsum 1 (fun j => 1 * harmonic_part 0 1 [0; 1]%nat mean_X 2 j t) = 1) /\ v ^ 2 = 2.
Proof.
  exists (sqrt 2). split; [|split].
  - unfold hbm_amp_row, entries. cbn [seq map mean_X nth from_end length Nat.ltb Nat.leb Nat.sub bind].
    unfold calc_harmonic_resp, vec_matmul, slice_list. cbn [filter Nat.ltb Nat.leb Nhc nodup length Nat.eqb count_nonzero count_zero bind Nat.mul Nat.add Nat.sub firstn skipn nth rsum].
    cbn. unfold mean_X. cbn. rewrite half_pi. do 4 f_equal. rewrite Rmult_1_r. f_equal. ring.
  - intros t. unfold harmonic_part, basis. cbn. unfold mean_X. cbn. rewrite Rmult_0_l, cos_0. ring.
  - rewrite <- Rsqr_pow2. apply Rsqr_sqrt. lra.
Qed.

Definition label_X : vec := fun i => nth i [1; 0; 5; 6; 2; 1] 0.
Definition label_out : list (list R * nat) := [([1], 1%nat)].
Lemma labels_wrong : exists r, vprnm_amp_phase_row [1%nat] 0 label_out (entries 6 label_X) = Ok r /\ nth 4 r 0 = 1 /\ nth 2 r 0 = 6 /\
  nth 2 (label_line label_out) (Heading HBlank) = Heading (HLabel 0 1) /\
  nth 2 (nth 0 (vprnm_amp_phase_header 0 0 label_out) []) (Heading HBlank) = Heading HForceSine /\ length (label_line label_out) = 3%nat /\ length r = 5%nat.
Proof.
  eexists. split; [|split; [|split; [|split; [|split; [|split]]]]].
  - unfold vprnm_amp_phase_row, entries, label_out. cbn. reflexivity.
  - unfold label_X. cbn. rewrite Rmult_1_r. transitivity (sqrt 1); [f_equal; ring|apply sqrt_1].
  - unfold label_X. reflexivity.
  - reflexivity.
  - reflexivity.
  - reflexivity.
  - reflexivity.
Qed.

(** ---- a run ---- *)
Definition run_X (a : R) : vec := fun i => nth i [3 * a; 4 * a; a; 2] 0.
Lemma run_row a : 0 <= a -> hbm_amp_row [1%nat] 2 [1] 1 (entries 4 (run_X a)) = Ok [2 / (2 * PI); a; 20 * a].
Proof.
  intros H. change (entries 4 (run_X a)) with [3 * a; 4 * a; a; 2]. unfold hbm_amp_row. cbn. rewrite half_pi. do 4 f_equal.
  replace (sqrt _) with (5 * a); [ring|]. rewrite <- (sqrt_Rsqr (5 * a)) by lra. f_equal. unfold Rsqr. ring.
Qed.
Lemma run_case : callback_run (fun f X => print_hbm_amp_stats f X [1%nat] 2 [1] 1) None (map (fun a => entries 4 (run_X a)) [1; 2; 3]) =
  (Some [[Heading HFrequencyHz; Heading HForceScaling; Heading (HRecov 2)];
         [Value (2 / (2 * PI)); Value 1; Value (20 * 1)]; [Value (2 / (2 * PI)); Value 2; Value (20 * 2)]; [Value (2 / (2 * PI)); Value 3; Value (20 * 3)]], Ok tt).
Proof.
  apply (run_file (hbm_amp_header 2) (hbm_amp_row [1%nat] 2 [1] 1) _ None [[2 / (2 * PI); 1; 20 * 1]; [2 / (2 * PI); 2; 20 * 2]; [2 / (2 * PI); 3; 20 * 3]]).
  cbn [map]. repeat constructor; apply run_row; lra.
Qed.

Lemma run_files :
  (forall Xs f rows, Forall2 (fun X r => epmc_row X = Ok r) Xs rows ->
     callback_run print_epmc_stats f Xs = (expected_file f epmc_header rows, Ok tt)) /\
  (forall h order recov k Xs f rows, Forall2 (fun X r => hbm_amp_row h order recov k X = Ok r) Xs rows ->
     callback_run (fun f X => print_hbm_amp_stats f X h order recov k) f Xs = (expected_file f (hbm_amp_header order) rows, Ok tt)) /\
  (forall freq amp h order recov k Xs f rows, Forall2 (fun X r => hbm_amp_phase_row freq amp h order recov k X = Ok r) Xs rows ->
     callback_run (fun f X => print_hbm_amp_phase_stats f X freq amp h order recov k) f Xs = (expected_file f (hbm_amp_phase_header order) rows, Ok tt)) /\
  (forall h order l Xs f rows, Forall2 (fun X r => vprnm_row h order l X = Ok r) Xs rows ->
     callback_run (fun f X => print_vprnm_stats f X h order l) f Xs = (expected_file f (vprnm_header order l) rows, Ok tt)) /\
  (forall h co order l Xs f rows, Forall2 (fun X r => vprnm_amp_phase_row h order l X = Ok r) Xs rows ->
     callback_run (fun f X => print_vprnm_amp_phase_stats f X h co order l) f Xs = (expected_file f (vprnm_amp_phase_header co order l) rows, Ok tt)).
Proof.
  split; [|split; [|split; [|split]]]; intros.
  - exact (run_file epmc_header epmc_row Xs f rows H).
  - exact (run_file (hbm_amp_header order) (hbm_amp_row h order recov k) Xs f rows H).
  - exact (run_file (hbm_amp_phase_header order) (hbm_amp_phase_row freq amp h order recov k) Xs f rows H).
  - exact (run_file (vprnm_header order l) (vprnm_row h order l) Xs f rows H).
  - exact (run_file (vprnm_amp_phase_header co order l) (vprnm_amp_phase_row h order l) Xs f rows H).
Qed.
