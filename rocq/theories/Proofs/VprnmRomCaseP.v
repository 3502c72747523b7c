(** A concrete case of the VPRNM reduced order model: one degree of freedom, linear modes with the frequencies 1 and 3 and 10% damping,
    two points per table. *)
From Coq Require Import Reals Lra Lia Arith List Bool Sorting.Sorted Sorting.Permutation.
From Verif.Lib Require Import RSum Calc Py.
From Verif.Spec Require Import Calculus Harmonic System Postprocess Rom VprnmRom.
From Verif.Model Require Import Harmonic Postprocess EpmcRom VprnmRom.
From Verif.Proofs Require Import VibSysP EpmcRomP VprnmBlocksP VprnmRomP.
Import ListNotations.
Open Scope R_scope.

Definition vc_fund : list vec := [fun c => nth c [1; 0; 1; 1 / 5; 0] 0; fun c => nth c [1; 0; 1; 1 / 5; 1] 0].
Definition vc_rhi : list vec := [fun c => nth c [1; 0; 3; 3 / 5; 0] 0; fun c => nth c [1; 0; 3; 3 / 5; 1] 0].
Definition vc_v : list vec := [fun c => nth c [0; 1; 1; 0; 1; 1 / 2] 0; fun c => nth c [0; 10; 10; 0; 1; 5] 0].
Definition vc_one : vec := fun _ => 1.
Definition vc_run (amp : R) (extra : option (list R)) (correct : bool) :=
  constant_h1_displacement 1 vc_fund [1%nat] vc_rhi [1%nat] vc_v 6 [1%nat; 3%nat] 3 vc_one amp vc_one vc_one extra correct.

Lemma vc_sorted1 : StronglySorted lt [1%nat]. Proof. repeat constructor. Qed.
Lemma vc_sorted2 : StronglySorted lt [1%nat; 3%nat]. Proof. repeat constructor. Qed.
Lemma vc_start1 : starts_with_1 [1%nat]. Proof. exists []. left. reflexivity. Qed.
Lemma vc_start2 : starts_with_1 [1%nat; 3%nat]. Proof. exists [3%nat]. left. reflexivity. Qed.
Lemma vc_freq u : In u vc_rhi -> bb_frequency 1 [1%nat] u = 3 /\ bb_damping 1 [1%nat] u = 1 / 10.
Proof. intros [<-|[<-|[]]]; unfold bb_damping, bb_frequency; cbn; split; lra. Qed.
Lemma vc_inputs : rom_inputs 1 [1%nat] vc_rhi [1%nat] vc_v 6 [1%nat; 3%nat] 3.
Proof.
  unfold rom_inputs. do 6 (split; [auto using vc_sorted1, vc_sorted2, vc_start1, vc_start2|]). split; [cbn; auto|]. split; [lia|]. split.
  - intros u Hu. rewrite (proj1 (vc_freq u Hu)). lra.
  - intros u [<-|[<-|[]]]; unfold vprnm_frequency; cbn; lra.
Qed.

Lemma vc_amps : backbone_control 1 [1%nat] vc_one vc_fund = [1; 10] /\ backbone_control 1 [1%nat] vc_one vc_rhi = [1; 10].
Proof.
  unfold backbone_control, vc_fund, vc_rhi, vc_one. cbn [map]. rewrite !one_control by (cbn; lra). unfold bb_amp, bb_log_amp.
  cbn [nth bb_size components flat_map app length Nat.mul Nat.add]. rewrite Rpower_O by lra. rewrite Rpower_1 by lra. split; repeat f_equal; ring.
Qed.
Lemma vc_harm (j : nat) : (j < 2)%nat -> control_amp 1 [1%nat; 3%nat] vc_one (nth j vc_v vzero) = nth j [1; 10] 0 /\ harmonic_amp 3 1 [1%nat; 3%nat] vc_one (nth j vc_v vzero) = nth j [1; 10] 0.
Proof.
  intros Hj. rewrite <- harmonic_amp_1. rewrite <- (extract_amp 1 _ 1 vc_one _ vc_sorted2 0) by (cbn; auto). rewrite <- (extract_amp 1 _ 3 vc_one _ vc_sorted2 0) by (cbn; auto; lia).
  assert (S1 : forall x y, 0 <= y -> x = y * y -> sqrt x = y) by (intros x y Hy ->; apply sqrt_square; exact Hy).
  unfold extract_harmonic_amplitude, low_index, dot, vc_one. destruct j as [|[|j]]; [| |lia]; cbn; split; apply S1; lra.
Qed.
Lemma vc_vamps : map (control_amp 1 [1%nat; 3%nat] vc_one) vc_v = [1; 10].
Proof. pose proof (proj1 (vc_harm 0 ltac:(lia))) as A. pose proof (proj1 (vc_harm 1 ltac:(lia))) as B. cbn [map vc_v nth] in *. rewrite A, B. reflexivity. Qed.

Lemma inc2 : increasing [1; 10].
Proof. intros [|i] [|[|j]] Hij; cbn in *; lia || lra. Qed.

Lemma vc_node tab (j : nat) r : (j < 2)%nat -> interpolated tab [1; 10] (nth j [1; 10] 0) r -> forall c, r c = nth j tab vzero c.
Proof.
  intros Hj H. destruct (interpolated_node _ _ _ _ inc2 H) as (i & Hi & Ei & Hr); [apply nth_In; exact Hj|].
  destruct i as [|[|i]]; destruct j as [|[|j]]; cbn in Ei, Hi; (lra || lia || exact Hr).
Qed.

Lemma vc_usable (j : nat) p u : (j < 2)%nat -> (forall c, p c = delog 1 [1%nat] (nth j vc_rhi vzero) c) -> usable 1 [1%nat] vc_rhi p u ->
  bb_frequency 1 [1%nat] u = 3 /\ bb_damping 1 [1%nat] u = 1 / 10.
Proof.
  intros Hj Hp [[I _]|H]; [exact (vc_freq u I)|].
  assert (E : forall c, delog 1 [1%nat] u c = delog 1 [1%nat] (nth j vc_rhi vzero) c) by (intros c; rewrite H; apply Hp).
  destruct (vc_freq (nth j vc_rhi vzero)) as [F D]; [apply nth_In; exact Hj|]. unfold bb_damping, bb_frequency in *. pose proof (E 2%nat) as E2. pose proof (E 3%nat) as E3. unfold delog in E2, E3. cbn in *. rewrite E2, E3. split; assumption.
Qed.

Lemma vc_q (j : nat) p : (j < 2)%nat -> (forall c, p c = delog 1 [1%nat] (nth j vc_rhi vzero) c) -> p 4%nat = nth j [1; 10] 0 /\ bb_frequency 1 [1%nat] p = 3 /\ bb_damping 1 [1%nat] p = 1 / 10.
Proof.
  intros Hj Hp. unfold bb_damping, bb_frequency. cbn [bb_size components flat_map app length Nat.mul Nat.add]. rewrite !Hp. unfold delog, bb_amp, bb_log_amp. destruct j as [|[|j]]; [| |lia]; cbn; rewrite ?Rpower_1, ?Rpower_O by lra; repeat split; lra.
Qed.

Lemma vc_returns (j : nat) correct : (j < 2)%nat -> exists out, vc_run (nth j [1; 10] 0) None correct = Ok out.
Proof.
  intros Hj. destruct vc_inputs as (a & b & c & d & e & f & g & i & k & l). destruct vc_amps as [AF AR].
  apply (h1_returns 1 vc_fund [1%nat] vc_rhi [1%nat] vc_v 6 [1%nat; 3%nat] 3 vc_one (nth j [1; 10] 0) vc_one vc_one a b c d e f g i k l correct).
  - left. reflexivity.
  - discriminate.
  - rewrite vc_vamps. exact inc2.
  - rewrite vc_vamps. destruct j as [|[|j]]; cbn; lia || lra.
  - discriminate.
  - rewrite AR. exact inc2.
  - rewrite vc_vamps, AR. intros v Hv. pose proof (vc_node _ j v Hj Hv) as E. assert (E' : v = nth j vc_v vzero) by (apply vec_ext; exact E). subst v. rewrite (proj2 (vc_harm j Hj)). destruct j as [|[|j]]; cbn; lia || lra.
  - discriminate.
  - rewrite AF. exact inc2.
  - rewrite vc_vamps, AR. intros v p u ph Hv Hp Hu W Hst. pose proof (vc_node _ j v Hj Hv) as E. assert (E' : v = nth j vc_v vzero) by (apply vec_ext; exact E). subst v. rewrite (proj2 (vc_harm j Hj)) in Hp.
    assert (Ep : forall c, p c = delog 1 [1%nat] (nth j vc_rhi vzero) c) by (intros c'; rewrite (vc_node _ j p Hj Hp c'); destruct j as [|[|j]]; [reflexivity|reflexivity|lia]).
    destruct (vc_usable j p u Hj Ep Hu) as [Fu Du]. destruct (vc_q j p Hj Ep) as (Q & Fp & Dp). change (bb_size 1 [1%nat] + 2)%nat with 4%nat.
    assert (EW : W = 3) by (unfold W, vprnm_frequency; destruct j as [|[|j]]; [| |lia]; cbn; lra).
    apply steady_algebra in Hst; [|lra]. rewrite Du in Hst. unfold mode_frequency, resonance_force in Hst. change (bb_size 1 [1%nat] + 2)%nat with 4%nat in Hst. rewrite Fu, Fp, Dp, EW in Hst. destruct Hst as [H1 H2].
    set (am := bb_amp 1 [1%nat] u) in *. assert (P0 : 0 < am) by apply bb_amp_pos. assert (Q0 : 0 < p 4%nat) by (rewrite Q; destruct j as [|[|j]]; cbn; lra || lia).
    assert (X : am * sin ph = p 4%nat) by lra. assert (Y : am * cos ph = 0) by lra. pose proof (sin2_cos2 ph) as SC. unfold Rsqr in SC.
    assert (Z : am * am = p 4%nat * p 4%nat) by (rewrite <- X; replace (am * am) with (am * am * (sin ph * sin ph + cos ph * cos ph)) by (rewrite SC; ring); replace (am * am * (sin ph * sin ph + cos ph * cos ph)) with (am * sin ph * (am * sin ph) + (am * cos ph) * (am * cos ph)) by ring; rewrite Y; ring).
    nra.
Qed.

Lemma small_indices l : increasing_indices l -> (forall j, In j l -> (j < 1)%nat) -> (length l <= 1)%nat.
Proof. intros H Hb. destruct l as [|a [|b l]]; cbn [length]; try lia. specialize (H 0%nat 1%nat ltac:(cbn; lia)). pose proof (Hb b ltac:(cbn; auto)). cbn in H. lia. Qed.

(** at the amplitude 1 the curve has the frequencies sqrt 8.64 and 3, in this order *)
Lemma vc_increasing correct rows forces h_out : vc_run 1 None correct = Ok (rows, forces, h_out) ->
  exists Om0, length Om0 = length rows /\ (forall k, (k < length rows)%nat -> nth k rows (fun _ => None) (bb_size 1 h_out) = Some (nth k Om0 0)) /\ increasing Om0 /\ (forall x, In x Om0 -> x <= 1).
Proof.
  intros E. destruct vc_inputs as (a & b & c & d & e & f & g & i & k & l). destruct vc_amps as [AF AR].
  destruct (h1_frequencies 1 vc_fund [1%nat] vc_rhi [1%nat] vc_v 6 [1%nat; 3%nat] 3 vc_one 1 vc_one vc_one a b c d e f i correct rows forces h_out E) as (v & p & S & am & Ec & LS & HS).
  destruct (curve_unfold 1 vc_rhi [1%nat] vc_v 6 [1%nat; 3%nat] 3 vc_one 1 vc_one a c d f g ltac:(lia) k l v p S am Ec) as (I1 & I2 & _ & _ & _ & _ & _ & P & w & z & ph & DP & _ & Ecf & Hw & Hz).
  rewrite vc_vamps in I1. pose proof (vc_node _ 0 v ltac:(lia) I1) as Ev. assert (Ev' : v = nth 0 vc_v vzero) by (apply vec_ext; exact Ev). subst v. rewrite AR, (proj2 (vc_harm 0 ltac:(lia))) in I2.
  pose proof (vc_node _ 0 p ltac:(lia) I2) as Ep. assert (Ep' : forall c, p c = delog 1 [1%nat] (nth 0 vc_rhi vzero) c) by exact Ep. destruct (vc_q 0 p ltac:(lia) Ep') as (Q & Fp & Dp). cbn [nth] in Q.
  assert (EL : filter (fun u : vec => Rltb (bb_amp 1 [1%nat] u) (p (bb_size 1 [1%nat] + 2)%nat)) vc_rhi = []).
  { change (bb_size 1 [1%nat] + 2)%nat with 4%nat. rewrite Q. unfold vc_rhi. cbn [filter]. unfold bb_amp, bb_log_amp. cbn [nth bb_size components flat_map app length Nat.mul Nat.add]. rewrite Rpower_O, Rpower_1 by lra. rewrite !(proj2 (Rltb_false _ _)) by lra. reflexivity. }
  rewrite EL in Ecf, Hw, Hz. cbn [app length] in Ecf, Hw, Hz. specialize (Hw O ltac:(lia)). specialize (Hz O ltac:(lia)). cbn [nth] in Hw, Hz.
  destruct (vc_usable 0 p P ltac:(lia) Ep' (or_intror DP)) as [FP DPm].
  set (W := INR 3 * vprnm_frequency 6 (nth 0 vc_v vzero)) in *. assert (EW : W = 3) by (unfold W, vprnm_frequency; cbn; lra).
  assert (Ew : nth 0 w 0 = 3) by (rewrite Hw; unfold mode_frequency; rewrite FP, Fp, EW; lra). assert (Ez : nth 0 z 0 = 1 / 10) by (rewrite Hz; exact DPm).
  assert (EF : resonance_force 1 [1%nat] W p = 9 / 5) by (unfold resonance_force; change (bb_size 1 [1%nat] + 2)%nat with 4%nat; rewrite Dp, EW, Q; lra).
  assert (EA : bb_amp 1 [1%nat] P = 1) by (pose proof (DP 4%nat) as X; rewrite Q in X; exact X).
  destruct (constant_force_spec 1 [1%nat] [P] None _ _ _ _ (proj1 one_adm) (proj2 one_adm) _ _ _ Ecf) as (lower & upper & H). cbv zeta in H. destruct H as (Hl & Hu & Hin & L1 & _ & _ & Hpt & _).
  cbn [length] in Hin. assert (Ll : (length lower <= 1)%nat) by (apply small_indices; [exact Hl|intros j Hj; apply Hin, in_or_app; left; exact Hj]).
  assert (Lu : (length upper <= 1)%nat) by (apply small_indices; [exact Hu|intros j Hj; apply Hin, in_or_app; right; apply -> in_rev; exact Hj]).
  rewrite app_length, rev_length in L1.
  assert (FQ : forall m, (m < length S)%nat -> let x := bb_frequency 1 [1%nat] (nth m S vzero) in 0 < x /\ (x ^ 2 - 9) * (x ^ 2 - 216 / 25) = 0 /\ ((m < length lower)%nat -> x ^ 2 <= 441 / 50) /\ ((length lower <= m)%nat -> 441 / 50 <= x ^ 2)).
  { intros m Hm x. assert (Hm' : (m < length (lower ++ rev upper))%nat) by (rewrite app_length, rev_length; lia). destruct (Hpt m Hm') as ((F0 & Ea & _ & St & _) & B1 & B2). fold x in F0, St, B1, B2.
    assert (J : nth m (lower ++ rev upper) O = O) by (pose proof (Hin _ (nth_In _ O Hm')); lia). rewrite J in St, B1, B2, Ea. cbn [nth] in Ea. rewrite Ea, EA in St. unfold rom_frequency, rom_damping, rom_force in St, B1, B2. rewrite Ew, Ez in St, B1, B2. rewrite EF in St.
    apply steady_algebra in St; [|lra]. destruct St as [X Y]. pose proof (sin2_cos2 (nth m ph 0)) as SC. unfold Rsqr in SC. set (s := sin (nth m ph 0)) in *. set (cc := cos (nth m ph 0)) in *.
    split; [exact F0|]. split; [|split; intros Q'; [specialize (B1 Q')|specialize (B2 Q')]; lra].
    assert (Z : ((3 ^ 2 - x ^ 2) ^ 2 + (2 * (1 / 10) * 3 * x) ^ 2) * (s * s + cc * cc) = (9 / 5) ^ 2).
    { rewrite <- X at 1. replace (((3 ^ 2 - x ^ 2) ^ 2 + (2 * (1 / 10) * 3 * x) ^ 2) * (s * s + cc * cc)) with ((1 * ((3 ^ 2 - x ^ 2) * cc + 2 * (1 / 10) * 3 * x * s)) ^ 2 + (1 * (2 * (1 / 10) * 3 * x * cc - (3 ^ 2 - x ^ 2) * s)) ^ 2) by ring. rewrite Y. ring. }
    rewrite SC in Z. lra. }
  assert (INR3 : INR 3 = 3) by (cbn; lra).
  exists (map (fun r => bb_frequency 1 [1%nat] r / INR 3) S). rewrite map_length. split; [symmetry; exact LS|]. split; [|split].
  - intros m Hm. rewrite HS by exact Hm. f_equal. symmetry. apply (nth_map (fun r => bb_frequency 1 [1%nat] r / INR 3) S m vzero). lia.
  - intros x y Hxy. rewrite map_length in Hxy. rewrite !(nth_map (fun r => bb_frequency 1 [1%nat] r / INR 3) S _ vzero) by lia. assert (x = 0 /\ y = 1)%nat as [-> ->] by lia.
    destruct (FQ 0%nat ltac:(lia)) as (A0 & A1 & A2 & _). destruct (FQ 1%nat ltac:(lia)) as (B0 & B1 & _ & B2). specialize (A2 ltac:(lia)). specialize (B2 ltac:(lia)). rewrite INR3. apply Rmult_lt_compat_r; [lra|].
    apply Rmult_integral in A1. apply Rmult_integral in B1. assert (X0 : bb_frequency 1 [1%nat] (nth 0 S vzero) ^ 2 = 216 / 25) by (destruct A1; lra). assert (X1 : bb_frequency 1 [1%nat] (nth 1 S vzero) ^ 2 = 9) by (destruct B1; lra). nra.
  - intros x Hx. apply in_map_iff in Hx. destruct Hx as (r & <- & Hr). destruct (In_nth _ _ vzero Hr) as (m & Hm & <-). destruct (FQ m Hm) as (A0 & A1 & _). apply Rmult_integral in A1. rewrite INR3.
    assert (bb_frequency 1 [1%nat] (nth m S vzero) <= 3) by (destruct A1; nra). lra.
Qed.
