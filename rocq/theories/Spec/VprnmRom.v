(** Vocabulary of the properties of the reduced order model of a superharmonic resonance. *)
From Coq Require Import Reals List Arith Sorting.Sorted.
From Verif.Lib Require Import RSum.
From Verif.Spec Require Import Harmonic System Postprocess Rom.
Import ListNotations.
Open Scope R_scope.

(** r is the row of the table at the reference value x: a row of it, or on the straight line between two consecutive rows *)
Definition interpolated (tab : list vec) (refs : list R) (x : R) (r : vec) : Prop :=
  (exists j, (j < length refs)%nat /\ x = nth j refs 0 /\ forall c, r c = nth j tab vzero c) \/
  (exists j, (S j < length refs)%nat /\ nth j refs 0 < nth (S j) refs 0 /\ nth j refs 0 <= x <= nth (S j) refs 0 /\
     on_line (nth j refs 0) (nth (S j) refs 0) (nth j tab vzero) (nth (S j) tab vzero) x r).

(** amplitude of harmonic k of recov . u, and the motion of recov . u in harmonic k *)
Definition harmonic_amp (k N : nat) (h : list nat) (recov u : vec) : R :=
  sqrt (rsum N (fun d => recov d * harm_cos k N h u d) ^ 2 + rsum N (fun d => recov d * harm_sin k N h u d) ^ 2).
Definition point_motion (k N : nat) (h : list nat) (recov u : vec) (tau : R) : R :=
  rsum N (fun d => recov d * harmonic_part k N h u 1 d tau).

(** a VPRNM row with cols columns: [.., f_cos, f_sin, frequency, amplitude] or [.., frequency, force] *)
Definition vprnm_frequency (cols : nat) (v : vec) : R := v (cols - 2)%nat.
Definition vprnm_force (N : nat) (h : list nat) (cols : nat) (v : vec) : R :=
  if Nat.eqb cols (bb_size N h + 4) then sqrt (v (cols - 4)%nat ^ 2 + v (cols - 3)%nat ^ 2) else v (cols - 1)%nat.

(** the backbone rows the superharmonic may use: those with a smaller modal amplitude than the interpolated row p (whose last
    entry is the amplitude itself), and p *)
Definition usable (N : nat) (h : list nat) (bb : list vec) (p u : vec) : Prop :=
  (In u bb /\ bb_amp N h u < p (bb_size N h + 2)%nat) \/ (forall c, delog N h u c = p c).

(** steady state of the superharmonic mode on row u: the frequencies of the backbone scaled so that p has the frequency W, and the
    modal force for which p is in resonance at W *)
Definition mode_frequency (N : nat) (h : list nat) (W : R) (p u : vec) : R := bb_frequency N h u * W / bb_frequency N h p.
Definition resonance_force (N : nat) (h : list nat) (W : R) (p : vec) : R := 2 * bb_damping N h p * W ^ 2 * p (bb_size N h + 2)%nat.
Definition on_curve (N : nat) (h : list nat) (bb : list vec) (W : R) (p r : vec) (a : R) : Prop :=
  exists u ph, usable N h bb p u /\
    rom_point N h u (mode_frequency N h W p u) (bb_damping N h u) (resonance_force N h W p) 0 r a ph.

(** S, with modal amplitudes a, are all the steady states of the mode *)
Definition response_curve (N : nat) (h : list nat) (bb : list vec) (W : R) (p : vec) (S : list vec) (a : list R) : Prop :=
  length a = length S /\
  (forall k, (k < length S)%nat -> on_curve N h bb W p (nth k S vzero) (nth k a 0)) /\
  (forall u Om ph, usable N h bb p u -> 0 < Om ->
     steady_response (mode_frequency N h W p u) (bb_damping N h u) (resonance_force N h W p) 0 Om (bb_amp N h u) ph ->
     exists k, (k < length S)%nat /\ bb_frequency N h (nth k S vzero) = Om /\ nth k a 0 = bb_amp N h u).

(** the row u of the result: the static part of the VPRNM row v, the harmonics of the fundamental row P at its amplitude delayed by
    pF, and on the multiples of rhi those of the superharmonic row r delayed by pS *)
Definition assembled (N : nat) (h_v h_fund h_rhi h_out : list nat) (rhi : nat) (v P : vec) (pF : R) (r : vec) (pS : R) (u : vec) : Prop :=
  (forall d tau, (d < N)%nat -> harmonic_part 0 N h_out u 1 d tau = static_part h_v v d) /\
  (forall k d tau, (0 < k)%nat -> (d < N)%nat ->
     harmonic_part k N h_out u 1 d tau =
     harmonic_part k N h_fund (amplitude_scaled N h_fund P (bb_log_amp N h_fund P)) 1 d (tau - pF) +
     (if Nat.eqb (k mod rhi) 0 then harmonic_part (k / rhi) N h_rhi r 1 d (INR rhi * tau - pS) else 0)).

(** the harmonics of the result *)
Definition result_harmonics (h_v h_fund h_rhi : list nat) (rhi : nat) (h_out : list nat) : Prop :=
  (forall i j, (i < j < length h_out)%nat -> (nth i h_out O < nth j h_out O)%nat) /\
  forall k, In k h_out <-> k = hd O h_v \/ In k h_fund \/ exists j, In j h_rhi /\ k = (j * rhi)%nat.

(** the rows below p differ from it in amplitude by more than the tolerance of the check in the code *)
Definition separated (N : nat) (h : list nat) (bb : list vec) (p : vec) : Prop :=
  forall u, In u bb -> bb_amp N h u < p (bb_size N h + 2)%nat -> / 10 ^ 12 < p (bb_size N h + 2)%nat - bb_amp N h u.

Definition nondecreasing (l : list R) : Prop := forall i j, (i < j < length l)%nat -> nth i l 0 <= nth j l 0.

(** entry c of a row with harmonics h belongs to harmonic k, and to one of the harmonics ks multiplied by m *)
Definition of_harmonic (N : nat) (h : list nat) (k c : nat) : Prop :=
  nth (c / N) (components h) (Cos O) = Cos k \/ nth (c / N) (components h) (Cos O) = Sin k.
Definition of_multiples (N : nat) (h : list nat) (m : nat) (ks : list nat) (c : nat) : Prop :=
  exists k, In k ks /\ (0 < k)%nat /\ of_harmonic N h (m * k) c.

(** y is the value at x of the piecewise linear function through (xs, fs), constant beyond the ends *)
Definition clamped_at (xs fs : list R) (x y : R) : Prop :=
  (x < nth 0 xs 0 -> y = nth 0 fs 0) /\ (nth (length xs - 1) xs 0 < x -> y = nth (length xs - 1) fs 0) /\
  (forall j, (j < length xs)%nat -> x = nth j xs 0 -> y = nth j fs 0) /\
  (forall j, (S j < length xs)%nat -> nth j xs 0 <= x <= nth (S j) xs 0 ->
     (nth (S j) xs 0 - nth j xs 0) * y = (nth (S j) xs 0 - x) * nth j fs 0 + (x - nth j xs 0) * nth (S j) fs 0).

(** the mode shape does not change along the backbone *)
Definition same_shape (N : nat) (h : list nat) (bb : list vec) : Prop :=
  forall u w d, In u bb -> In w bb -> (d < N)%nat -> first_cos N h u d = first_cos N h w d /\ first_sin N h u d = first_sin N h w d.

(** sorted harmonic lists that start with 1 (after 0 if it is there), rhi one of the harmonics of the VPRNM solution, positive frequencies *)
Definition rom_inputs (N : nat) (h_fund : list nat) (rhi_bb : list vec) (h_rhi : list nat) (vprnm_bb : list vec) (cols : nat) (h_vprnm : list nat) (rhi : nat) : Prop :=
  StronglySorted lt h_vprnm /\ StronglySorted lt h_fund /\ StronglySorted lt h_rhi /\
  starts_with_1 h_vprnm /\ starts_with_1 h_fund /\ starts_with_1 h_rhi /\ In rhi h_vprnm /\ (1 < rhi)%nat /\
  (forall u, In u rhi_bb -> 0 < bb_frequency N h_rhi u) /\ (forall u, In u vprnm_bb -> 0 < vprnm_frequency cols u).
Definition within (refs : list R) (x : R) : Prop := nth 0 refs 0 <= x <= nth (length refs - 1) refs 0.
Definition outside (refs : list R) (x : R) : Prop := x < nth 0 refs 0 \/ nth (length refs - 1) refs 0 < x.
