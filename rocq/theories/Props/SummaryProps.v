(** Property C77: the summary files written during a continuation. *)
From Coq Require Import Reals List Arith Bool.
From Verif.Lib Require Import RSum Py.
From Verif.Spec Require Import Harmonic System Summary.
From Verif.Model Require Import Harmonic VibSys SummaryFiles.
From Verif.Proofs Require Import SummaryP.
Import ListNotations.
Open Scope R_scope.

(** * C77 *)
(** The reported response is the amplitude of the requested harmonic k > 0 of the requested derivative at the output point, and that
    amplitude is determined by the motion. *)
Theorem C77_response_partial : forall N m h X recov w order k, admissible h -> ordered_at k h -> (length (components h) * N <= m)%nat -> 0 < w ->
  exists v, calc_harmonic_resp (entries m X) w h order (entries N recov) k = Ok v /\ output_amplitude N h X w order recov k v.
Proof. exact resp_spec. Qed.
Print Assumptions C77_response_partial.

Theorem C77_determined : forall N h X w order recov k v v', ordered_at k h -> 0 < w ->
  output_amplitude N h X w order recov k v -> output_amplitude N h X w order recov k v' -> v = v'.
Proof. exact amplitude_unique. Qed.
Print Assumptions C77_determined.

(** EPMC unknowns [U, w, xi, log amplitude]: log amplitude, frequency in Hz and the fraction of critical damping zeta, xi = 2 zeta w. *)
Theorem C77_epmc : forall n X, X n <> 0 ->
  exists zeta, epmc_row (entries (n + 3) X) = Ok [X (n + 2)%nat; X n / (2 * PI); zeta] /\ X (n + 1)%nat = 2 * zeta * X n.
Proof. exact epmc_row_spec. Qed.
Print Assumptions C77_epmc.

(** Amplitude control, unknowns [U, F, w]. *)
Theorem C77_hbm_amp : forall N h X order recov k, admissible h -> ordered_at k h ->
  let n := (length (components h) * N)%nat in 0 < X (n + 1)%nat ->
  exists v, hbm_amp_row h order (entries N recov) k (entries (n + 2) X) = Ok [X (n + 1)%nat / (2 * PI); X n; v] /\
    output_amplitude N h X (X (n + 1)%nat) order recov k v.
Proof. exact hbm_amp_row_spec. Qed.
Print Assumptions C77_hbm_amp.

(** At a zero of hbm_amp_control_res the reported amplitude of the control point is the amplitude that was asked for. *)
Theorem C77_controlled : forall s h Nt X Fl recov amp order outs Rr G, admissible h -> starts_with_1 h ->
  let N := vs_N s in let n := (length (components h) * N)%nat in let w := X (n + 1)%nat in 0 < w -> 0 <= amp ->
  Forall2 (fun f o => nl_aft f (take n X) w h Nt = Ok o) (vs_forces s) outs ->
  hbm_amp_control_res s X Fl h recov amp order Nt true = Ok (Rr, Some G) -> (forall i, (i < n + 1)%nat -> Rr i = 0) ->
  hbm_amp_row h order (entries N recov) 1 (entries (n + 2) X) = Ok [w / (2 * PI); X n; amp].
Proof. exact controlled_amplitude. Qed.
Print Assumptions C77_controlled.

(** Amplitude and phase control, unknowns [U, Fc, Fs, lam], frequency and amplitude given by the user. *)
Theorem C77_hbm_amp_phase : forall N h X freq amp order recov k, admissible h -> ordered_at k h ->
  let n := (length (components h) * N)%nat in 0 < freq ->
  exists v, hbm_amp_phase_row freq amp h order (entries N recov) k (entries (n + 3) X) = Ok [freq / (2 * PI); amp; X n; X (n + 1)%nat; v] /\
    output_amplitude N h X freq order recov k v.
Proof. exact hbm_amp_phase_row_spec. Qed.
Print Assumptions C77_hbm_amp_phase.

(** VPRNM, unknowns [U, w, F], a list of outputs. *)
Theorem C77_vprnm : forall N h X order outs, admissible h -> Forall (fun o => ordered_at (snd o) h) outs ->
  let n := (length (components h) * N)%nat in 0 < X n ->
  exists vs, vprnm_row h order (map (fun o => (entries N (fst o), snd o)) outs) (entries (n + 2) X) = Ok (X (n + 1)%nat :: X n / (2 * PI) :: vs) /\
    Forall2 (fun o v => output_amplitude N h X (X n) order (fst o) (snd o) v) outs vs.
Proof. exact vprnm_row_spec. Qed.
Print Assumptions C77_vprnm.

(** VPRNM with amplitude and phase control, unknowns [U, Fc, Fs, w, A]. *)
Theorem C77_vprnm_amp_phase : forall N h X order outs, admissible h -> Forall (fun o => ordered_at (snd o) h) outs ->
  let n := (length (components h) * N)%nat in 0 < X (n + 2)%nat ->
  exists vs, vprnm_amp_phase_row h order (map (fun o => (entries N (fst o), snd o)) outs) (entries (n + 4) X)
      = Ok (X (n + 3)%nat :: X n :: X (n + 1)%nat :: X (n + 2)%nat / (2 * PI) :: vs) /\
    Forall2 (fun o v => output_amplitude N h X (X (n + 2)%nat) order (fst o) (snd o) v) outs vs.
Proof. exact vprnm_amp_phase_row_spec. Qed.
Print Assumptions C77_vprnm_amp_phase.

(** A run of calls adds one row each, in order; a new file starts with the header, an existing file keeps its lines. *)
Theorem C77_file :
  (forall Xs f rows, Forall2 (fun X r => epmc_row X = Ok r) Xs rows ->
     callback_run print_epmc_stats f Xs = (expected_file f epmc_header rows, Ok tt)) /\
  (forall h order recov k Xs f rows, Forall2 (fun X r => hbm_amp_row h order recov k X = Ok r) Xs rows ->
     callback_run (fun f X => print_hbm_amp_stats f X h order recov k) f Xs = (expected_file f (hbm_amp_header order) rows, Ok tt)) /\
  (forall freq amp h order recov k Xs f rows, Forall2 (fun X r => hbm_amp_phase_row freq amp h order recov k X = Ok r) Xs rows ->
     callback_run (fun f X => print_hbm_amp_phase_stats f X freq amp h order recov k) f Xs = (expected_file f (hbm_amp_phase_header order) rows, Ok tt)) /\
  (forall h order l Xs f rows, Forall2 (fun X r => vprnm_row h order l X = Ok r) Xs rows ->
     callback_run (fun f X => print_vprnm_stats f X h order l) f Xs = (expected_file f (vprnm_header order l) rows, Ok tt)) /\
  (forall h co order l Xs f rows, Forall2 (fun X r => vprnm_amp_phase_row h order l X = Ok r) Xs rows ->
     callback_run (fun f X => print_vprnm_amp_phase_stats f X h co order l) f Xs = (expected_file f (vprnm_amp_phase_header co order l) rows, Ok tt)).
Proof. exact run_files. Qed.
Print Assumptions C77_file.

(** Every row has one number under each heading. *)
Theorem C77_columns_partial :
  (forall X r, epmc_row X = Ok r -> same_columns epmc_header r) /\
  (forall h order recov k X r, hbm_amp_row h order recov k X = Ok r -> same_columns (hbm_amp_header order) r) /\
  (forall f a h order recov k X r, hbm_amp_phase_row f a h order recov k X = Ok r -> same_columns (hbm_amp_phase_header order) r) /\
  (forall h order l X r, vprnm_row h order l X = Ok r -> same_columns (vprnm_header order l) r /\ length (label_line l) = length r) /\
  (forall h co order l X r, vprnm_amp_phase_row h order l X = Ok r ->
     same_columns (vprnm_amp_phase_header co order l) r /\ length r = (length (label_line l) + 2)%nat).
Proof. exact (conj columns_epmc (conj columns_hbm_amp (conj columns_hbm_amp_phase (conj columns_vprnm columns_vprnm_amp_phase)))). Qed.
Print Assumptions C77_columns_partial.

(** Harmonic 0: the motion has the mean value 1, the file says the square root of 2 (the cosine of harmonic 1 is taken in). *)
Theorem C77_mean_refuted : exists v, hbm_amp_row [0; 1]%nat 0 [1] 0 (entries 5 mean_X) = Ok [2 / (2 * PI); 5; v] /\
  (forall t, rsum 1 (fun j => 1 * harmonic_part 0 1 [0; 1]%nat mean_X 2 j t) = 1) /\ v ^ 2 = 2.
Proof. exact mean_wrong. Qed.
Print Assumptions C77_mean_refuted.

(** print_vprnm_amp_phase_stats: the label line is two columns short, so the label of the response stands above the sine force. *)
Theorem C77_labels_refuted : exists r, vprnm_amp_phase_row [1%nat] 0 label_out (entries 6 label_X) = Ok r /\ nth 4 r 0 = 1 /\ nth 2 r 0 = 6 /\
  nth 2 (label_line label_out) (Heading HBlank) = Heading (HLabel 0 1) /\
  nth 2 (nth 0 (vprnm_amp_phase_header 0 0 label_out) []) (Heading HBlank) = Heading HForceSine /\ length (label_line label_out) = 3%nat /\ length r = 5%nat.
Proof. exact labels_wrong. Qed.
Print Assumptions C77_labels_refuted.

(** Three points, one degree of freedom, acceleration output. *)
Example C77_case : callback_run (fun f X => print_hbm_amp_stats f X [1%nat] 2 [1] 1) None (map (fun a => entries 4 (run_X a)) [1; 2; 3]) =
  (Some [[Heading HFrequencyHz; Heading HForceScaling; Heading (HRecov 2)];
         [Value (2 / (2 * PI)); Value 1; Value (20 * 1)]; [Value (2 / (2 * PI)); Value 2; Value (20 * 2)]; [Value (2 / (2 * PI)); Value 3; Value (20 * 3)]], Ok tt).
Proof. exact run_case. Qed.
