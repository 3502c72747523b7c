(** Properties C59, C60 and C66: reduced order models on EPMC backbones. *)
From Coq Require Import Reals List Arith Bool Lia Lra.
From Verif.Lib Require Import RSum Py.
From Verif.Spec Require Import Calculus Harmonic System Postprocess Rom.
From Verif.Model Require Import Harmonic Postprocess EpmcRom.
From Verif.Proofs Require Import EpmcRomP.
Import ListNotations.
Open Scope R_scope.

(** * C59 *)
(** Every returned point belongs to a backbone point, has a positive frequency and is a steady state of the mode at the
    backbone's amplitude under the given force; the points below resonance come first, then those above in reverse order; and
    every positive frequency at which a backbone point is a steady state (with any phase) is returned. *)
Theorem C59_constant_force : forall N h bb Fl w zeta re im rows amps phases,
  admissible h -> starts_with_1 h ->
  let W := rom_frequency N h bb w in let Z := rom_damping N h bb w zeta in
  let fr := rom_force (force_re N h) bb Fl re in let fi := rom_force (force_im N h) bb Fl im in
  (forall j, (j < length bb)%nat -> W j <> 0) ->
  constant_force N h bb Fl w zeta re im = Ok (rows, amps, phases) ->
  exists lower upper : list nat, let pts := lower ++ rev upper in
    increasing_indices lower /\ increasing_indices upper /\ (forall j, In j pts -> (j < length bb)%nat) /\
    length rows = length pts /\ length amps = length pts /\ length phases = length pts /\
    (forall k, (k < length pts)%nat -> let j := nth k pts O in let r := nth k rows vzero in
       rom_point N h (nth j bb vzero) (W j) (Z j) (fr j) (fi j) r (nth k amps 0) (nth k phases 0) /\
       ((k < length lower)%nat -> bb_frequency N h r ^ 2 <= W j ^ 2 * (1 - 2 * Z j ^ 2)) /\
       ((length lower <= k)%nat -> W j ^ 2 * (1 - 2 * Z j ^ 2) <= bb_frequency N h r ^ 2)) /\
    (forall j Om p, (j < length bb)%nat -> 0 < Om -> steady_response (W j) (Z j) (fr j) (fi j) Om (bb_amp N h (nth j bb vzero)) p ->
       exists k, (k < length pts)%nat /\ nth k pts O = j /\ bb_frequency N h (nth k rows vzero) = Om /\
         (fr j <> 0 \/ fi j <> 0 -> cos (nth k phases 0) = cos p /\ sin (nth k phases 0) = sin p)).
Proof. exact (fun N h bb Fl w zeta re im rows amps phases a b _ => constant_force_spec N h bb Fl w zeta re im a b rows amps phases). Qed.
Print Assumptions C59_constant_force.

(** the forcing is given either by coefficients or by the modal force (both parts) *)
Theorem C59_inputs : forall N h bb Fl w zeta re im, admissible h ->
  let valid := (Fl <> None /\ re = None /\ im = None) \/ (Fl = None /\ re <> None /\ im <> None) in
  (valid -> exists out, constant_force N h bb Fl w zeta re im = Ok out) /\
  (~ valid -> constant_force N h bb Fl w zeta re im = Err AssertionError).
Proof. exact (fun N h bb Fl w zeta re im a => conj (proj2 (constant_force_inputs N h bb Fl w zeta re im a)) (constant_force_raises N h bb Fl w zeta re im a)). Qed.
Print Assumptions C59_inputs.

(** for a linear mode with increasing amplitudes the returned frequencies are in increasing order *)
Theorem C59_linear_order : forall N h bb Fl w zeta re im rows amps phases,
  admissible h -> starts_with_1 h ->
  let W := rom_frequency N h bb w in let Z := rom_damping N h bb w zeta in
  let fr := rom_force (force_re N h) bb Fl re in let fi := rom_force (force_im N h) bb Fl im in
  constant_force N h bb Fl w zeta re im = Ok (rows, amps, phases) ->
  (forall i j, (i < length bb)%nat -> (j < length bb)%nat -> W i = W j /\ Z i = Z j /\ fr i = fr j /\ fi i = fi j) ->
  (forall i j, (i < j < length bb)%nat -> bb_amp N h (nth i bb vzero) <= bb_amp N h (nth j bb vzero)) ->
  forall a b, (a < b < length rows)%nat -> bb_frequency N h (nth a rows vzero) <= bb_frequency N h (nth b rows vzero).
Proof. exact (fun N h bb Fl w zeta re im rows amps phases a b => constant_force_linear N h bb Fl w zeta re im a b rows amps phases). Qed.
Print Assumptions C59_linear_order.

(** one degree of freedom, shape 1; the first point has frequency 1, the second 2 and ten times the amplitude *)
Definition rom_case_bb : list vec := [fun c => nth c [1; 0; 1; 0; 0] 0; fun c => nth c [1; 0; 2; 0; 1] 0].
Definition rom_case_F : vec := fun c => nth c [3; 0] 0.
Lemma rom_case_amp0 : bb_amp 1 [1%nat] (nth 0 rom_case_bb vzero) = 1.
Proof. unfold bb_amp, bb_log_amp. cbn. apply Rpower_O. lra. Qed.

(** the first point responds to the force 3 at frequency 2 with phase pi *)
Example C59_case : exists rows amps phases k, constant_force 1 [1%nat] rom_case_bb (Some rom_case_F) None None None None = Ok (rows, amps, phases) /\
  (k < length rows)%nat /\ bb_frequency 1 [1%nat] (nth k rows vzero) = 2 /\ nth k amps 0 = 1 /\ cos (nth k phases 0) = -1.
Proof.
  destruct one_adm as [A B].
  destruct (proj1 (C59_inputs 1 [1%nat] rom_case_bb (Some rom_case_F) None None None None A)) as [[[rows amps] phases] E].
  { left. repeat split; discriminate. }
  assert (Efr : force_re 1 [1%nat] rom_case_F (nth 0 rom_case_bb vzero) = 3).
  { unfold force_re. cbn [rsum]. destruct (one_first (nth 0 rom_case_bb vzero) 0 ltac:(lia)) as [-> ->]. destruct (one_first rom_case_F 0 ltac:(lia)) as [-> ->]. cbn. ring. }
  assert (Efi : force_im 1 [1%nat] rom_case_F (nth 0 rom_case_bb vzero) = 0).
  { unfold force_im. cbn [rsum]. destruct (one_first (nth 0 rom_case_bb vzero) 0 ltac:(lia)) as [-> ->]. destruct (one_first rom_case_F 0 ltac:(lia)) as [-> ->]. cbn. ring. }
  destruct (C59_constant_force 1 [1%nat] rom_case_bb (Some rom_case_F) None None None None rows amps phases A B) as (lower & upper & H); [|exact E|].
  { intros [|[|j]] Hj; [cbn; lra|cbn; lra|cbn in Hj; lia]. }
  cbv zeta in H. destruct H as (_ & _ & _ & Lr & La & _ & Hpt & Hc).
  destruct (Hc O 2 PI) as (k & Lk & Ek & Eo & Ep); [cbn; lia|lra| |].
  { rewrite rom_case_amp0. apply steady_algebra; [lra|]. rewrite cos_PI, sin_PI. unfold rom_force, rom_frequency, rom_damping. rewrite Efr, Efi. cbn. lra. }
  exists rows, amps, phases, k. split; [exact E|]. split; [lia|]. split; [exact Eo|].
  destruct (Hpt k Lk) as ((_ & Ea & _) & _). rewrite Ea, Ek, rom_case_amp0. split; [reflexivity|].
  destruct Ep as [-> _]; [|apply cos_PI]. left. unfold rom_force. rewrite Efr. lra.
Qed.

(** * C60 *)
(** The force F that constant_force was given is recovered: constant_displacement, asked for the frequency and the control point
    amplitude of any row that constant_force returned, returns |F| and the modal amplitude of that row. *)
Theorem C60_recovers_force : forall N h bb Fl F Fcos w zeta recov rows amps phases, admissible h -> starts_with_1 h ->
  cosine_force N h Fl (fun d => F * Fcos d) ->
  constant_force N h bb (Some Fl) w zeta None None = Ok (rows, amps, phases) ->
  increasing (backbone_control N h recov bb) ->
  (forall j, (j < length bb)%nat -> rom_frequency N h bb w j <> 0 /\ (cos_re N h Fcos (nth j bb vzero) <> 0 \/ cos_im N h Fcos (nth j bb vzero) <> 0)) ->
  forall k, (k < length rows)%nat -> let r := nth k rows vzero in
    exists P, constant_displacement bb h N Fcos [bb_frequency N h r] recov (control_amp N h recov r) w zeta = Ok ([Some (Rabs F)], Some P) /\
      bb_amp N h P = nth k amps 0.
Proof. exact roundtrip. Qed.
Print Assumptions C60_recovers_force.

(** Between the backbone points: the returned row is the linear interpolation by the control point amplitude, the returned force
    makes it a steady state at each requested frequency, and it is the only magnitude that does.  Outside the backbone nothing
    is returned. *)
Theorem C60_force : forall N h bb w zeta recov Fcos ca Omega forces pt, admissible h -> starts_with_1 h ->
  let A := backbone_control N h recov bb in let lin := linear_row N h bb w zeta in
  constant_displacement bb h N Fcos Omega recov ca w zeta = Ok (forces, pt) ->
  increasing A /\ length forces = length Omega /\
  (ca < nth 0 A 0 \/ nth (length A - 1) A 0 < ca -> pt = None /\ forall k, nth k forces None = None) /\
  (nth 0 A 0 <= ca <= nth (length A - 1) A 0 -> exists P, pt = Some P /\
     ((exists j, (j < length bb)%nat /\ ca = nth j A 0 /\ forall c, delog N h P c = lin j c) \/
      (exists j, (S j < length bb)%nat /\ nth j A 0 <= ca <= nth (S j) A 0 /\ on_line (nth j A 0) (nth (S j) A 0) (lin j) (lin (S j)) ca (delog N h P))) /\
     (bb_frequency N h P <> 0 -> cos_re N h Fcos P <> 0 \/ cos_im N h Fcos P <> 0 ->
      forall k, (k < length Omega)%nat -> exists f, nth k forces None = Some f /\ 0 <= f /\
        (0 < nth k Omega 0 -> exists p, steady_response (bb_frequency N h P) (bb_damping N h P) (f * cos_re N h Fcos P) (f * cos_im N h Fcos P) (nth k Omega 0) (bb_amp N h P) p) /\
        (forall f' p', 0 < nth k Omega 0 ->
           steady_response (bb_frequency N h P) (bb_damping N h P) (f' * cos_re N h Fcos P) (f' * cos_im N h Fcos P) (nth k Omega 0) (bb_amp N h P) p' -> Rabs f' = f))).
Proof. exact (fun N h bb w zeta recov Fcos ca Omega forces pt a b => displacement_spec N h bb w zeta recov Fcos ca a b Omega forces pt). Qed.
Print Assumptions C60_force.

(** and constant_force on that row, with the returned force, gives the requested frequency and the modal amplitude *)
Theorem C60_inverse : forall N h bb w zeta recov Fcos ca Omega forces P, admissible h -> starts_with_1 h ->
  constant_displacement bb h N Fcos Omega recov ca w zeta = Ok (forces, Some P) ->
  bb_frequency N h P <> 0 -> (cos_re N h Fcos P <> 0 \/ cos_im N h Fcos P <> 0) ->
  forall k f Fl, (k < length Omega)%nat -> 0 < nth k Omega 0 -> nth k forces None = Some f -> cosine_force N h Fl (fun d => f * Fcos d) ->
  exists rows amps phases i, constant_force N h [P] (Some Fl) None None None None = Ok (rows, amps, phases) /\ (i < length rows)%nat /\
    bb_frequency N h (nth i rows vzero) = nth k Omega 0 /\ nth i amps 0 = bb_amp N h P.
Proof. exact displacement_inverse. Qed.
Print Assumptions C60_inverse.

Lemma rom_case_control : backbone_control 1 [1%nat] (fun _ => 1) rom_case_bb = [1; 10].
Proof.
  unfold backbone_control, rom_case_bb. cbn [map]. rewrite !one_control by (cbn; lra). unfold bb_amp, bb_log_amp.
  cbn [nth bb_size components flat_map app length Nat.mul Nat.add]. rewrite Rpower_O by lra. rewrite Rpower_1 by lra. repeat f_equal; ring.
Qed.
(** the frequency 2 of C59_case needs the force 3 *)
Example C60_case : exists P, constant_displacement rom_case_bb [1%nat] 1 (fun _ => 1) [2] (fun _ => 1) 1 None None = Ok ([Some 3], Some P).
Proof.
  destruct one_adm as [A B]. destruct C59_case as (rows & amps & phases & k & E & Lk & Eo & Ea & _).
  destruct (C60_recovers_force 1 [1%nat] rom_case_bb rom_case_F 3 (fun _ => 1) None None (fun _ => 1) rows amps phases A B) with (k := k) as (P & EP & _); try assumption.
  - intros d Hd. destruct (one_first rom_case_F d Hd) as [-> ->]. cbn. lra.
  - rewrite rom_case_control. intros i j Hij. cbn [length] in Hij. assert (i = 0%nat) as -> by lia. assert (j = 1%nat) as -> by lia. cbn [nth]. lra.
  - intros j Hj. split; [destruct j as [|[|j]]; [cbn; lra|cbn; lra|cbn in Hj; lia]|]. left. unfold cos_re. cbn [rsum].
    destruct (one_first (nth j rom_case_bb vzero) 0 ltac:(lia)) as [-> _]. destruct j as [|[|j]]; [cbn; lra|cbn; lra|cbn in Hj; lia].
  - exists P. rewrite Eo in EP. rewrite (Rabs_right 3) in EP by lra. rewrite <- EP. f_equal.
    destruct (constant_force_control 1 [1%nat] rom_case_bb (Some rom_case_F) None None None None A B (fun _ => 1) rows amps phases E k Lk) as (j & Hj & _ & Ec & Eq).
    rewrite Ec. symmetry.
    assert (Eb : forall j, (j < 2)%nat -> control_amp 1 [1%nat] (fun _ => 1) (nth j rom_case_bb vzero) * bb_amp 1 [1%nat] (nth j rom_case_bb vzero) = nth j [1; 10] 0).
    { intros i Hi. rewrite <- rom_case_control. unfold backbone_control.
      rewrite (nth_indep _ 0 ((fun u => control_amp 1 [1%nat] (fun _ => 1) u * bb_amp 1 [1%nat] u) vzero)) by (rewrite map_length; exact Hi).
      rewrite (map_nth (fun u => control_amp 1 [1%nat] (fun _ => 1) u * bb_amp 1 [1%nat] u)). reflexivity. }
    rewrite Eb by exact Hj. destruct j as [|[|j]]; [reflexivity| |cbn in Hj; lia].
    exfalso. cbn [nth] in Eq. rewrite Eo in Eq. unfold rom_frequency, rom_damping, rom_force, bb_amp, bb_log_amp, bb_frequency in Eq.
    unfold force_re, force_im in Eq. cbn [rsum] in Eq.
    destruct (one_first (nth 1 rom_case_bb vzero) 0 ltac:(lia)) as [X1 X2]. rewrite X1, X2 in Eq.
    destruct (one_first rom_case_F 0 ltac:(lia)) as [X3 X4]. rewrite X3, X4 in Eq. cbn in Eq. lra.
Qed.

(** * C66 *)
(** at backbone points, and everywhere if the mode shape is the same along the backbone, the control point of the returned row
    has the requested amplitude *)
Theorem C66_control_amplitude_partial : forall N h bb w zeta recov Fcos ca Omega forces P, admissible h -> starts_with_1 h ->
  constant_displacement bb h N Fcos Omega recov ca w zeta = Ok (forces, Some P) ->
  (forall i j d, (i < length bb)%nat -> (j < length bb)%nat -> (d < N)%nat ->
     first_cos N h (nth i bb vzero) d = first_cos N h (nth j bb vzero) d /\ first_sin N h (nth i bb vzero) d = first_sin N h (nth j bb vzero) d)
  \/ In ca (backbone_control N h recov bb) ->
  control_amp N h recov P * bb_amp N h P = ca.
Proof. exact displacement_control. Qed.
Print Assumptions C66_control_amplitude_partial.

(** otherwise it has not: shape 1 and 2, amplitude 1 and 10 at the two points; for 21/2 the returned row moves by 33/4 *)
Theorem C66_control_amplitude_refuted : exists bb ca P forces, constant_displacement bb [1%nat] 1 (fun _ => 1) [] (fun _ => 1) ca None None = Ok (forces, Some P) /\
  control_amp 1 [1%nat] (fun _ => 1) P * bb_amp 1 [1%nat] P <> ca.
Proof. exact control_wrong. Qed.
Print Assumptions C66_control_amplitude_refuted.

Example C66_case : exists P forces, constant_displacement rom_case_bb [1%nat] 1 (fun _ => 1) [] (fun _ => 1) 4 None None = Ok (forces, Some P) /\
  control_amp 1 [1%nat] (fun _ => 1) P * bb_amp 1 [1%nat] P = 4.
Proof.
  destruct one_adm as [A B].
  assert (Hi : increasing (backbone_control 1 [1%nat] (fun _ => 1) rom_case_bb)) by (rewrite rom_case_control; intros [|i] [|[|j]] Hij; cbn in *; lia || lra).
  destruct (displacement_ok 1 [1%nat] rom_case_bb None None (fun _ => 1) (fun _ => 1) 4 [] A B Hi ltac:(discriminate)) as (forces & pt & E).
  destruct (C60_force 1 [1%nat] rom_case_bb None None (fun _ => 1) (fun _ => 1) 4 [] forces pt A B E) as (_ & _ & _ & Hin).
  rewrite rom_case_control in Hin. cbn [length nth Nat.sub] in Hin. destruct (Hin ltac:(lra)) as (P & -> & _). exists P, forces. split; [exact E|].
  apply (C66_control_amplitude_partial 1 [1%nat] rom_case_bb None None (fun _ => 1) (fun _ => 1) 4 [] forces P A B E). left.
  intros i j d Hi' Hj Hd. destruct (one_first (nth i rom_case_bb vzero) d Hd) as [-> ->]. destruct (one_first (nth j rom_case_bb vzero) d Hd) as [-> ->].
  destruct i as [|[|i]]; destruct j as [|[|j]]; cbn in Hi', Hj |- *; split; lia || lra.
Qed.
