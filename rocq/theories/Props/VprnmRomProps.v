(** Property C68: the reduced order model of a superharmonic resonance on VPRNM and EPMC backbones. *)
From Coq Require Import Reals List Arith Lia Lra Sorting.Permutation.
From Verif.Lib Require Import RSum Py.
From Verif.Spec Require Import Calculus Harmonic System Postprocess Rom VprnmRom.
From Verif.Model Require Import Harmonic Postprocess EpmcRom VprnmRom.
From Verif.Proofs Require Import VibSysP VprnmRomP VprnmRomCaseP.
Import ListNotations.
Open Scope R_scope.

(** * C68 *)
(** With v the VPRNM row at the requested amplitude of harmonic 1 and p the superharmonic backbone row at the amplitude of harmonic
    rhi of v: the returned rows are, in order, all the steady states of the superharmonic mode under the modal force for which p is in
    resonance at rhi times the frequency of v.  Row k has 1/rhi of that state's frequency; its motion is the fundamental backbone
    row at the requested amplitude plus the state on the multiples of rhi plus the static part of v, with both parts shifted in time.
    The shifts are such that harmonic 1 of the first control point is in phase with v in every row and harmonic rhi of the second one
    is in phase with v in the row at the frequency of v, where the state has the amplitude of p up to 1e-12. *)
Theorem C68_rows : forall N fund_bb h_fund rhi_bb h_rhi vprnm_bb cols h_vprnm rhi cp1 amp1 cpr Flcos correct rows forces h_out,
  rom_inputs N h_fund rhi_bb h_rhi vprnm_bb cols h_vprnm rhi ->
  constant_h1_displacement N fund_bb h_fund rhi_bb h_rhi vprnm_bb cols h_vprnm rhi cp1 amp1 cpr Flcos None correct = Ok (rows, forces, h_out) ->
  let A := backbone_control N h_fund cp1 fund_bb in
  result_harmonics h_vprnm h_fund h_rhi rhi h_out /\
  exists v p S a, let W := INR rhi * vprnm_frequency cols v in
    interpolated vprnm_bb (map (control_amp N h_vprnm cp1) vprnm_bb) amp1 v /\
    interpolated (map (delog N h_rhi) rhi_bb) (backbone_control N h_rhi cpr rhi_bb) (harmonic_amp rhi N h_vprnm cpr v) p /\
    response_curve N h_rhi rhi_bb W p S a /\ length rows = length S /\
    (within A amp1 -> exists P pF pS peak,
       interpolated (map (delog N h_fund) fund_bb) A amp1 (delog N h_fund P) /\
       (peak < length S)%nat /\ bb_frequency N h_rhi (nth peak S vzero) = W /\ Rabs (nth peak a 0 - p (bb_size N h_rhi + 2)%nat) <= / 10 ^ 12 /\
       forall k, (k < length S)%nat -> exists u, (forall c, nth k rows (fun _ => None) c = Some (u c)) /\
         u (bb_size N h_out) = bb_frequency N h_rhi (nth k S vzero) / INR rhi /\
         assembled N h_vprnm h_fund h_rhi h_out rhi v P pF (nth k S vzero) pS u /\
         (exists th, (forall tau, point_motion 1 N h_out cp1 u tau = control_amp N h_fund cp1 P * bb_amp N h_fund P * cos (tau - th)) /\
                     (forall tau, point_motion 1 N h_vprnm cp1 v tau = control_amp N h_vprnm cp1 v * cos (tau - th))) /\
         (~ In rhi h_fund -> k = peak ->
          exists th, (forall tau, point_motion rhi N h_out cpr u tau = control_amp N h_rhi cpr (nth peak S vzero) * cos (INR rhi * tau - th)) /\
                     (forall tau, point_motion rhi N h_vprnm cpr v tau = harmonic_amp rhi N h_vprnm cpr v * cos (INR rhi * tau - th)))).
Proof.
  intros N fund_bb h_fund rhi_bb h_rhi vprnm_bb cols h_vprnm rhi cp1 amp1 cpr Flcos correct rows forces h_out (a & b & c & d & e & f & g & i & j & k).
  exact (h1_rows N fund_bb h_fund rhi_bb h_rhi vprnm_bb cols h_vprnm rhi cp1 amp1 cpr Flcos a b c d e f g i j k correct rows forces h_out).
Qed.
Print Assumptions C68_rows.

(** If the requested amplitude is a VPRNM point and the first harmonic of the mode shapes is constant along the EPMC backbones (or the
    amplitudes are backbone points), a row at the frequency of the VPRNM point has exactly its motion at both control points in
    harmonics 1 and rhi. *)
Theorem C68_resonance : forall N fund_bb h_fund rhi_bb h_rhi vprnm_bb cols h_vprnm rhi cp1 amp1 cpr Flcos correct rows forces h_out,
  rom_inputs N h_fund rhi_bb h_rhi vprnm_bb cols h_vprnm rhi ->
  constant_h1_displacement N fund_bb h_fund rhi_bb h_rhi vprnm_bb cols h_vprnm rhi cp1 amp1 cpr Flcos None correct = Ok (rows, forces, h_out) ->
  let A := backbone_control N h_fund cp1 fund_bb in
  within A amp1 -> ~ In rhi h_fund -> In amp1 (map (control_amp N h_vprnm cp1) vprnm_bb) -> same_shape N h_fund fund_bb \/ In amp1 A ->
  exists v p, interpolated vprnm_bb (map (control_amp N h_vprnm cp1) vprnm_bb) amp1 v /\
    interpolated (map (delog N h_rhi) rhi_bb) (backbone_control N h_rhi cpr rhi_bb) (harmonic_amp rhi N h_vprnm cpr v) p /\
    (separated N h_rhi rhi_bb p -> same_shape N h_rhi rhi_bb \/ In (harmonic_amp rhi N h_vprnm cpr v) (backbone_control N h_rhi cpr rhi_bb) ->
     exists k u, (k < length rows)%nat /\ (forall c, nth k rows (fun _ => None) c = Some (u c)) /\ u (bb_size N h_out) = vprnm_frequency cols v /\
       forall tau, point_motion 1 N h_out cp1 u tau = point_motion 1 N h_vprnm cp1 v tau /\
                   point_motion rhi N h_out cpr u tau = point_motion rhi N h_vprnm cpr v tau).
Proof.
  intros N fund_bb h_fund rhi_bb h_rhi vprnm_bb cols h_vprnm rhi cp1 amp1 cpr Flcos correct rows forces h_out (a & b & c & d & e & f & g & i & j & k).
  exact (h1_exact N fund_bb h_fund rhi_bb h_rhi vprnm_bb cols h_vprnm rhi cp1 amp1 cpr Flcos a b c d e f g i j k correct rows forces h_out).
Qed.
Print Assumptions C68_resonance.

(** Additional frequencies: the rows are then at the sorted union of these and the previous frequencies; within the previous range each
    row is the linear interpolation of the previous rows; beyond it the entries of the superharmonic are missing (nan) and the others are
    those of the previous rows. *)
Theorem C68_extra : forall N fund_bb h_fund rhi_bb h_rhi vprnm_bb cols h_vprnm rhi cp1 amp1 cpr Flcos e correct correct' rows0 forces0 h_out rows1 forces1 h_out1,
  rom_inputs N h_fund rhi_bb h_rhi vprnm_bb cols h_vprnm rhi ->
  constant_h1_displacement N fund_bb h_fund rhi_bb h_rhi vprnm_bb cols h_vprnm rhi cp1 amp1 cpr Flcos None correct = Ok (rows0, forces0, h_out) ->
  constant_h1_displacement N fund_bb h_fund rhi_bb h_rhi vprnm_bb cols h_vprnm rhi cp1 amp1 cpr Flcos (Some e) correct' = Ok (rows1, forces1, h_out1) ->
  within (backbone_control N h_fund cp1 fund_bb) amp1 ->
  h_out1 = h_out /\
  exists T Om0 Om, length T = length rows0 /\ length Om0 = length rows0 /\
    (forall k, (k < length rows0)%nat -> (forall c, nth k rows0 (fun _ => None) c = Some (nth k T vzero c)) /\ nth k T vzero (bb_size N h_out) = nth k Om0 0) /\
    increasing Om0 /\ length Om = length rows1 /\ nondecreasing Om /\ Permutation Om (e ++ Om0) /\
    forall k, (k < length rows1)%nat ->
      nth k rows1 (fun _ => None) (bb_size N h_out) = Some (nth k Om 0) /\
      (within Om0 (nth k Om 0) -> exists u, (forall c, nth k rows1 (fun _ => None) c = Some (u c)) /\ interpolated T Om0 (nth k Om 0) u) /\
      (outside Om0 (nth k Om 0) -> forall c, (c < bb_size N h_out)%nat ->
        (of_multiples N h_out rhi h_rhi c -> nth k rows1 (fun _ => None) c = None) /\
        (~ of_multiples N h_out rhi h_rhi c -> forall m, (m < length rows0)%nat -> nth k rows1 (fun _ => None) c = nth m rows0 (fun _ => None) c)).
Proof.
  intros N fund_bb h_fund rhi_bb h_rhi vprnm_bb cols h_vprnm rhi cp1 amp1 cpr Flcos e correct correct' rows0 forces0 h_out rows1 forces1 h_out1 (a & b & c & d & e0 & f & g & i & j & k).
  exact (h1_extra N fund_bb h_fund rhi_bb h_rhi vprnm_bb cols h_vprnm rhi cp1 amp1 cpr Flcos a b c d e0 f i e correct correct' rows0 forces0 h_out rows1 forces1 h_out1).
Qed.
Print Assumptions C68_extra.

(** If the requested amplitude is outside the fundamental backbone, the entries of its harmonics are missing and so are the forces. *)
Theorem C68_outside : forall N fund_bb h_fund rhi_bb h_rhi vprnm_bb cols h_vprnm rhi cp1 amp1 cpr Flcos extra correct rows forces h_out,
  rom_inputs N h_fund rhi_bb h_rhi vprnm_bb cols h_vprnm rhi ->
  constant_h1_displacement N fund_bb h_fund rhi_bb h_rhi vprnm_bb cols h_vprnm rhi cp1 amp1 cpr Flcos extra correct = Ok (rows, forces, h_out) ->
  outside (backbone_control N h_fund cp1 fund_bb) amp1 ->
  forall k c, (k < length rows)%nat -> (c < bb_size N h_out)%nat ->
    (of_multiples N h_out 1 h_fund c -> nth k rows (fun _ => None) c = None) /\
    (~ of_multiples N h_out 1 h_fund c -> ~ of_multiples N h_out rhi h_rhi c -> exists x, nth k rows (fun _ => None) c = Some x).
Proof.
  intros N fund_bb h_fund rhi_bb h_rhi vprnm_bb cols h_vprnm rhi cp1 amp1 cpr Flcos extra correct rows forces h_out (a & b & c & d & e & f & g & i & j & k).
  exact (h1_outside N fund_bb h_fund rhi_bb h_rhi vprnm_bb cols h_vprnm rhi cp1 amp1 cpr Flcos a b c d e f i extra correct rows forces h_out).
Qed.
Print Assumptions C68_outside.

(** Without the correction, the force of each row is the one for which the fundamental mode, at the requested amplitude, is in steady
    state at the row's frequency. *)
Theorem C68_forces : forall N fund_bb h_fund rhi_bb h_rhi vprnm_bb cols h_vprnm rhi cp1 amp1 cpr Flcos extra rows forces h_out,
  rom_inputs N h_fund rhi_bb h_rhi vprnm_bb cols h_vprnm rhi ->
  constant_h1_displacement N fund_bb h_fund rhi_bb h_rhi vprnm_bb cols h_vprnm rhi cp1 amp1 cpr Flcos extra false = Ok (rows, forces, h_out) ->
  let A := backbone_control N h_fund cp1 fund_bb in
  length forces = length rows /\ (outside A amp1 -> forall k, nth k forces None = None) /\
  (within A amp1 -> exists P, interpolated (map (delog N h_fund) fund_bb) A amp1 (delog N h_fund P) /\
    (bb_frequency N h_fund P <> 0 -> cos_re N h_fund Flcos P <> 0 \/ cos_im N h_fund Flcos P <> 0 ->
     forall k, (k < length rows)%nat -> exists Om f, nth k rows (fun _ => None) (bb_size N h_out) = Some Om /\ nth k forces None = Some f /\ 0 <= f /\
      (0 < Om ->
       (exists ph, steady_response (bb_frequency N h_fund P) (bb_damping N h_fund P) (f * cos_re N h_fund Flcos P) (f * cos_im N h_fund Flcos P) Om (bb_amp N h_fund P) ph) /\
       forall f' ph', steady_response (bb_frequency N h_fund P) (bb_damping N h_fund P) (f' * cos_re N h_fund Flcos P) (f' * cos_im N h_fund Flcos P) Om (bb_amp N h_fund P) ph' -> Rabs f' = f))).
Proof.
  intros N fund_bb h_fund rhi_bb h_rhi vprnm_bb cols h_vprnm rhi cp1 amp1 cpr Flcos extra rows forces h_out (a & b & c & d & e & f & g & i & j & k).
  exact (h1_forces N fund_bb h_fund rhi_bb h_rhi vprnm_bb cols h_vprnm rhi cp1 amp1 cpr Flcos a b c d e f g i j k extra rows forces h_out).
Qed.
Print Assumptions C68_forces.

(** The correction adds to each force a multiple of the superharmonic amplitude of the row, such that the row at the frequency of the
    VPRNM row has the force of the VPRNM row; nothing else changes. *)
Theorem C68_corrected : forall N fund_bb h_fund rhi_bb h_rhi vprnm_bb cols h_vprnm rhi cp1 amp1 cpr Flcos extra rows forces0 forces1 rows1 h_out h_out1,
  rom_inputs N h_fund rhi_bb h_rhi vprnm_bb cols h_vprnm rhi ->
  constant_h1_displacement N fund_bb h_fund rhi_bb h_rhi vprnm_bb cols h_vprnm rhi cp1 amp1 cpr Flcos extra false = Ok (rows, forces0, h_out) ->
  constant_h1_displacement N fund_bb h_fund rhi_bb h_rhi vprnm_bb cols h_vprnm rhi cp1 amp1 cpr Flcos extra true = Ok (rows1, forces1, h_out1) ->
  rows1 = rows /\ h_out1 = h_out /\ length forces1 = length forces0 /\
  exists v p S a q D peak, interpolated vprnm_bb (map (control_amp N h_vprnm cp1) vprnm_bb) amp1 v /\
    interpolated (map (delog N h_rhi) rhi_bb) (backbone_control N h_rhi cpr rhi_bb) (harmonic_amp rhi N h_vprnm cpr v) p /\
    response_curve N h_rhi rhi_bb (INR rhi * vprnm_frequency cols v) p S a /\
    (extra = None -> q = a /\ forall k, (k < length S)%nat -> nth k rows (fun _ => None) (bb_size N h_out) = Some (bb_frequency N h_rhi (nth k S vzero) / INR rhi)) /\
    (extra <> None -> forall k, (k < length rows)%nat -> exists Om, nth k rows (fun _ => None) (bb_size N h_out) = Some Om /\
       clamped_at (map (bb_frequency N h_rhi) S) a (INR rhi * Om) (nth k q 0)) /\
    length q = length forces0 /\ (forall k, (k < length q)%nat -> 0 < nth k q 0 <= p (bb_size N h_rhi + 2)%nat) /\
    (forall k, nth k forces0 None = None -> nth k forces1 None = None) /\
    (forall k f, nth k forces0 None = Some f -> nth k forces1 None = Some (f + D * nth k q 0)) /\
    (peak < length rows)%nat /\
    ((exists f, nth peak forces0 None = Some f) -> nth peak rows (fun _ => None) (bb_size N h_out) = Some (vprnm_frequency cols v)) /\
    (separated N h_rhi rhi_bb p -> (exists f, nth peak forces0 None = Some f) -> nth peak forces1 None = Some (vprnm_force N h_vprnm cols v)).
Proof.
  intros N fund_bb h_fund rhi_bb h_rhi vprnm_bb cols h_vprnm rhi cp1 amp1 cpr Flcos extra rows forces0 forces1 rows1 h_out h_out1 (a & b & c & d & e & f & g & i & j & k).
  exact (h1_corrected N fund_bb h_fund rhi_bb h_rhi vprnm_bb cols h_vprnm rhi cp1 amp1 cpr Flcos a b c d e f g i j k extra rows forces0 forces1 rows1 h_out h_out1).
Qed.
Print Assumptions C68_corrected.

(** The function returns when the tables are increasing in the control amplitudes, the requested amplitude is in the VPRNM table, its
    amplitude of harmonic rhi is in the superharmonic table, and p is the only row in steady state at the frequency of the peak. *)
Theorem C68_returns : forall N fund_bb h_fund rhi_bb h_rhi vprnm_bb cols h_vprnm rhi cp1 amp1 cpr Flcos correct,
  rom_inputs N h_fund rhi_bb h_rhi vprnm_bb cols h_vprnm rhi ->
  cols = (bb_size N h_vprnm + 2)%nat \/ cols = (bb_size N h_vprnm + 4)%nat ->
  let Av := map (control_amp N h_vprnm cp1) vprnm_bb in let Ar := backbone_control N h_rhi cpr rhi_bb in
  vprnm_bb <> [] -> increasing Av -> within Av amp1 ->
  rhi_bb <> [] -> increasing Ar -> (forall v, interpolated vprnm_bb Av amp1 v -> within Ar (harmonic_amp rhi N h_vprnm cpr v)) ->
  fund_bb <> [] -> increasing (backbone_control N h_fund cp1 fund_bb) ->
  (forall v p u ph, interpolated vprnm_bb Av amp1 v -> interpolated (map (delog N h_rhi) rhi_bb) Ar (harmonic_amp rhi N h_vprnm cpr v) p -> usable N h_rhi rhi_bb p u ->
     let W := INR rhi * vprnm_frequency cols v in
     steady_response (mode_frequency N h_rhi W p u) (bb_damping N h_rhi u) (resonance_force N h_rhi W p) 0 W (bb_amp N h_rhi u) ph -> bb_amp N h_rhi u = p (bb_size N h_rhi + 2)%nat) ->
  exists out, constant_h1_displacement N fund_bb h_fund rhi_bb h_rhi vprnm_bb cols h_vprnm rhi cp1 amp1 cpr Flcos None correct = Ok out.
Proof.
  intros N fund_bb h_fund rhi_bb h_rhi vprnm_bb cols h_vprnm rhi cp1 amp1 cpr Flcos correct (a & b & c & d & e & f & g & i & j & k).
  exact (h1_returns N fund_bb h_fund rhi_bb h_rhi vprnm_bb cols h_vprnm rhi cp1 amp1 cpr Flcos a b c d e f g i j k correct).
Qed.
Print Assumptions C68_returns.

(** Linear modes at 1 and 3 with 10% damping, VPRNM points at the amplitudes 1 and 10: at the point of amplitude 10 the functions return,
    a row at the frequency 1 has the motion 10 sin t + 10 cos 3t, and with the correction the row at this frequency has the force 5 of the point. *)
Example C68_case : exists rows forces0 forces1 h_out,
  vc_run 10 None false = Ok (rows, forces0, h_out) /\ vc_run 10 None true = Ok (rows, forces1, h_out) /\
  (exists k u, (k < length rows)%nat /\ (forall c, nth k rows (fun _ => None) c = Some (u c)) /\ u (bb_size 1 h_out) = 1 /\
     forall tau, point_motion 1 1 h_out vc_one u tau = 10 * sin tau /\ point_motion 3 1 h_out vc_one u tau = 10 * cos (3 * tau)) /\
  (exists k, (k < length rows)%nat /\ nth k rows (fun _ => None) (bb_size 1 h_out) = Some 1 /\ nth k forces1 None = Some 5).
Proof.
  destruct (vc_returns 1 false ltac:(lia)) as [[[rows f0] h_out] E0]. destruct (vc_returns 1 true ltac:(lia)) as [[[rows' f1] h_out'] E1]. cbn [nth] in E0, E1. pose proof E0 as R0. pose proof E1 as R1. unfold vc_run in E0, E1.
  destruct vc_amps as [AF AR].
  destruct (C68_corrected _ _ _ _ _ _ _ _ _ _ _ _ _ _ _ _ _ _ _ _ vc_inputs E0 E1) as (-> & -> & _ & v & p & S & a & q & D & peak & I1 & I2 & _ & _ & _ & _ & _ & _ & _ & Hpk & HF & HP).
  assert (W10 : within (backbone_control 1 [1%nat] vc_one vc_fund) 10) by (rewrite AF; unfold within; cbn; lra).
  assert (SEP : forall p', (forall c, p' c = delog 1 [1%nat] (nth 1 vc_rhi vzero) c) -> separated 1 [1%nat] vc_rhi p').
  { intros p' Hp u Hu Ha. destruct (vc_q 1 p' ltac:(lia) Hp) as (Q & _). change (bb_size 1 [1%nat] + 2)%nat with 4%nat in *. cbn [nth] in Q. rewrite Q in *.
    assert (B : bb_amp 1 [1%nat] u = 1 \/ bb_amp 1 [1%nat] u = 10).
    { destruct Hu as [<-|[<-|[]]]; unfold bb_amp, bb_log_amp; cbn [nth bb_size components flat_map app length Nat.mul Nat.add]; [left; apply Rpower_O; lra|right; apply Rpower_1; lra]. }
    destruct B as [B|B]; rewrite B in *; [|lra]. apply (Rlt_le_trans _ 1); [|lra]. rewrite <- Rinv_1. apply Rinv_lt_contravar; [|apply Rlt_pow_R1; [lra|lia]]. rewrite Rmult_1_l. apply pow_lt. lra. }
  assert (PT : forall v' p', interpolated vc_v (map (control_amp 1 [1%nat; 3%nat] vc_one) vc_v) 10 v' ->
     interpolated (map (delog 1 [1%nat]) vc_rhi) (backbone_control 1 [1%nat] vc_one vc_rhi) (harmonic_amp 3 1 [1%nat; 3%nat] vc_one v') p' ->
     v' = nth 1 vc_v vzero /\ (forall c, p' c = delog 1 [1%nat] (nth 1 vc_rhi vzero) c) /\ harmonic_amp 3 1 [1%nat; 3%nat] vc_one v' = 10).
  { intros v' p' J1 J2. rewrite vc_vamps in J1. pose proof (vc_node _ 1 v' ltac:(lia) J1) as Ev. assert (Ev' : v' = nth 1 vc_v vzero) by (apply vec_ext; exact Ev). subst v'.
    rewrite AR, (proj2 (vc_harm 1 ltac:(lia))) in J2. pose proof (vc_node _ 1 p' ltac:(lia) J2) as Ep. split; [reflexivity|]. split; [exact Ep|]. exact (proj2 (vc_harm 1 ltac:(lia))). }
  exists rows, f0, f1, h_out. split; [exact R0|]. split; [exact R1|]. split.
  - destruct (C68_resonance _ _ _ _ _ _ _ _ _ _ _ _ _ _ _ _ _ vc_inputs E0 W10) as (v' & p' & J1 & J2 & H).
    + intros [X|[]]; discriminate X.
    + rewrite vc_vamps. cbn; auto.
    + right. rewrite AF. cbn; auto.
    + destruct (PT v' p' J1 J2) as (-> & Ep & Ha). destruct H as (k & u & Hk & Hu & HO & Hm); [exact (SEP _ Ep)|right; rewrite Ha, AR; cbn; auto|].
      exists k, u. split; [exact Hk|]. split; [exact Hu|]. split; [rewrite HO; unfold vprnm_frequency; cbn; reflexivity|].
      intros tau. destruct (Hm tau) as [-> ->]. unfold point_motion, harmonic_part, vc_one. cbn. rewrite ?Rmult_1_l. split; [|replace ((1 + 1 + 1) * tau) with (3 * tau) by ring]; ring_simplify; try reflexivity; repeat rewrite ?Rmult_1_l, ?Rmult_1_r; try ring.
  - destruct (PT v p I1 I2) as (-> & Ep & _).
    assert (SF : exists f, nth peak f0 None = Some f).
    { destruct (C68_forces _ _ _ _ _ _ _ _ _ _ _ _ _ _ _ _ _ vc_inputs E0) as (_ & _ & H). destruct (H W10) as (P & IP & HPP).
      rewrite AF in IP. pose proof (vc_node _ 1 _ ltac:(lia) IP) as EP. cbn [nth map vc_fund] in EP.
      assert (P2 : P 2%nat = 1) by (pose proof (EP 2%nat) as X; unfold delog in X; cbn in X; exact X).
      assert (P0 : P 0%nat = 1) by (pose proof (EP 0%nat) as X; unfold delog in X; cbn in X; exact X).
      destruct HPP with (k := peak) as (Om & f & _ & Ef & _).
      - unfold bb_frequency. cbn. rewrite P2. lra.
      - left. unfold cos_re, first_cos, vc_one. cbn. rewrite P0. replace (1 * (1 * 0)) with 0 by ring. rewrite cos_0, sin_0. lra.
      - exact Hpk.
      - exists f; exact Ef. }
    exists peak. split; [exact Hpk|]. split; [rewrite (HF SF); unfold vprnm_frequency; cbn; reflexivity|].
    rewrite (HP (SEP _ Ep) SF). unfold vprnm_force, vprnm_frequency. cbn. f_equal; lra.
Qed.

(** With the additional frequency 5, above the curve of the point of amplitude 1, there is a row at this frequency whose superharmonic
    entries are missing and whose other entries are those of every row of the curve. *)
Example C68_extra_case : exists rows0 forces0 rows1 forces1 h_out k,
  vc_run 1 None false = Ok (rows0, forces0, h_out) /\ vc_run 1 (Some [5]) true = Ok (rows1, forces1, h_out) /\
  (k < length rows1)%nat /\ nth k rows1 (fun _ => None) (bb_size 1 h_out) = Some 5 /\ (0 < length rows0)%nat /\
  forall c, (c < bb_size 1 h_out)%nat ->
    (of_harmonic 1 h_out 3 c -> nth k rows1 (fun _ => None) c = None) /\
    (of_harmonic 1 h_out 1 c -> forall m, (m < length rows0)%nat -> exists x, nth m rows0 (fun _ => None) c = Some x /\ nth k rows1 (fun _ => None) c = Some x).
Proof.
  destruct (vc_returns 0 false ltac:(lia)) as [[[rows0 f0] h_out] E0]. cbn [nth] in E0. destruct vc_amps as [AF AR].
  destruct (vc_increasing _ _ _ _ E0) as (Om0 & L0 & HO & Hi & Hle).
  pose proof E0 as R0. unfold vc_run in E0.
  assert (W1 : within (backbone_control 1 [1%nat] vc_one vc_fund) 1) by (rewrite AF; unfold within; cbn; lra).
  destruct vc_inputs as (a & b & c & d & e & f & g & i & k & l).
  destruct (h1_returns_extra 1 vc_fund [1%nat] vc_rhi [1%nat] vc_v 6 [1%nat; 3%nat] 3 vc_one 1 vc_one vc_one a b c d e f i [5] false true rows0 f0 h_out Om0 E0 L0 HO Hi) as [[[rows1 f1] h1] E1].
  destruct (C68_rows _ _ _ _ _ _ _ _ _ _ _ _ _ _ _ _ _ vc_inputs E0) as (_ & v & p & S & am & _ & _ & _ & LS & HR). destruct (HR W1) as (P & pF & pS & peak & _ & Hpk & _).
  destruct (C68_extra _ _ _ _ _ _ _ _ _ _ _ _ _ _ _ _ _ _ _ _ _ _ vc_inputs E0 E1 W1) as (-> & T & Om0' & Om & LT & LO' & HT & _ & LO & _ & PO & HK).
  assert (EO : forall m, (m < length rows0)%nat -> nth m Om0' 0 <= 1).
  { intros m Hm. destruct (HT m Hm) as [A B]. pose proof (HO m Hm) as C. rewrite A, B in C. inversion C as [C']. rewrite C'. apply Hle, nth_In. lia. }
  assert (I5 : In 5 Om) by (apply (Permutation_in _ (Permutation_sym PO)); left; reflexivity). destruct (In_nth _ _ 0 I5) as (q & Hq & E5). rewrite LO in Hq.
  exists rows0, f0, rows1, f1, h_out, q. split; [exact R0|]. split; [exact E1|]. split; [exact Hq|]. destruct (HK q Hq) as (Q1 & _ & Q3). rewrite E5 in *. split; [exact Q1|]. split; [lia|].
  assert (OUT : outside Om0' 5) by (right; specialize (EO (length Om0' - 1)%nat ltac:(lia)); lra).
  intros n Hn. destruct (Q3 OUT n Hn) as [Qa Qb]. split.
  - intros H3. apply Qa. exists 1%nat. split; [left; reflexivity|]. split; [lia|exact H3].
  - intros H1 m Hm. exists (nth m T vzero n). destruct (HT m Hm) as [A _]. split; [apply A|]. rewrite <- A. apply Qb; [|exact Hm].
    intros (k' & [<-|[]] & _ & H3). unfold of_harmonic in H1, H3. destruct H1 as [H1|H1]; rewrite H1 in H3; destruct H3 as [H3|H3]; discriminate H3.
Qed.
