(** Model of the summary callbacks in tmdsimpy/utils/continuation.py.
    A text file is the list of its lines, a line the list of its cells (text between the separators '&').
    Headings are a finite type in place of their text; numbers are kept exactly (the code prints 3 digits). *)
From Coq Require Import Reals List Arith.
From Verif.Lib Require Import RSum Py.
From Verif.Model Require Import Harmonic.
Import ListNotations.
Open Scope R_scope.

Inductive heading :=
| HLogAmplitude | HFrequencyHz | HDampingFraction | HForceScaling | HForceCosine | HForceSine
| HControl (order : nat)                  (* 'Amplitude [m/s^order]', 'Amp Control [m/s^order]' *)
| HRecov (order : nat)                    (* 'Recov Amp [m/s^order]' *)
| HLabel (ind harmonic : nat)             (* 'dof=ind, h=harmonic' *)
| HBlank.
Inductive cell := Heading (x : heading) | Value (x : R).
Definition line := list cell.
(** None: the file does not exist *)
Definition text_file := option (list line).

(** l[-k] *)
Definition from_end (l : list R) (k : nat) : result R :=
  if Nat.ltb (length l) k then Err IndexError else Ok (nth (length l - k) l 0).
(** a @ b of one-dimensional arrays *)
Definition vec_matmul (a b : list R) : result R :=
  if Nat.eqb (length a) (length b) then Ok (rsum (length a) (fun i => nth i a 0 * nth i b 0)) else Err ValueError.
(** l[a:b] *)
Definition slice_list (l : list R) (a b : nat) : list R := firstn (b - a) (skipn a l).

(** _calc_harmonic_resp, utils/continuation.py 733-776 *)
Definition calc_harmonic_resp (U : list R) (w : R) (h : list nat) (order : nat) (output_recov : list R) (output_harmonic : nat) : result R :=
  let Ndof := length output_recov in
  do Nhc_before <- Nhc (filter (fun x => Nat.ltb x output_harmonic) h);
  do amp_cos <- vec_matmul output_recov (slice_list U (Nhc_before * Ndof) ((Nhc_before + 1) * Ndof));
  do amp_sin <- vec_matmul output_recov (slice_list U ((Nhc_before + 1) * Ndof) ((Nhc_before + 2) * Ndof));
  Ok (sqrt (amp_cos ^ 2 + amp_sin ^ 2) * (INR output_harmonic * w) ^ order).

(** the amp_list loops, utils/continuation.py 570-578 and 716-726 *)
Fixpoint amp_list (XlamP : list R) (w : R) (h : list nat) (order : nat) (l : list (list R * nat)) : result (list R) :=
  match l with
  | [] => Ok []
  | rh :: rest =>
      do a <- calc_harmonic_resp XlamP w h order (fst rh) (snd rh);
      do r <- amp_list XlamP w h order rest;
      Ok (a :: r)
  end.

(** with open(fname, 'a'): the header lines are written if the file did not exist, then the row if no exception was raised *)
Definition append_stats (f : text_file) (header : list line) (row : result (list R)) : text_file * result unit :=
  let start := match f with None => header | Some l => l end in
  match row with
  | Ok r => (Some (start ++ [map Value r]), Ok tt)
  | Err e => (Some start, Err e)
  end.

(** print_epmc_stats, utils/continuation.py 118-195.  Division by zero (frequency 0) gives inf or nan in the code. *)
Definition epmc_header : list line := [[Heading HLogAmplitude; Heading HFrequencyHz; Heading HDampingFraction]].
Definition epmc_row (X : list R) : result (list R) :=
  do Amp <- from_end X 1;
  do w <- from_end X 3;
  do xi <- from_end X 2;
  Ok [Amp; w / 2 / PI; xi / 2 / w].
Definition print_epmc_stats (f : text_file) (X : list R) : text_file * result unit := append_stats f epmc_header (epmc_row X).

(** print_hbm_amp_stats, utils/continuation.py 197-304 *)
Definition hbm_amp_header (order : nat) : list line := [[Heading HFrequencyHz; Heading HForceScaling; Heading (HRecov order)]].
Definition hbm_amp_row (h : list nat) (order : nat) (recov : list R) (k : nat) (X : list R) : result (list R) :=
  do w <- from_end X 1;
  do force <- from_end X 2;
  do amp <- calc_harmonic_resp X w h order recov k;
  Ok [w / 2 / PI; force; amp].
Definition print_hbm_amp_stats (f : text_file) (X : list R) (h : list nat) (order : nat) (recov : list R) (k : nat) : text_file * result unit :=
  append_stats f (hbm_amp_header order) (hbm_amp_row h order recov k X).

(** print_hbm_amp_phase_stats, utils/continuation.py 306-449 *)
Definition hbm_amp_phase_header (order : nat) : list line :=
  [[Heading HFrequencyHz; Heading (HControl order); Heading HForceCosine; Heading HForceSine; Heading (HRecov order)]].
Definition hbm_amp_phase_row (freq amp : R) (h : list nat) (order : nat) (recov : list R) (k : nat) (X : list R) : result (list R) :=
  do amp_recov <- calc_harmonic_resp X freq h order recov k;
  do fc <- from_end X 3;
  do fs <- from_end X 2;
  Ok [freq / 2 / PI; amp; fc; fs; amp_recov].
Definition print_hbm_amp_phase_stats (f : text_file) (X : list R) (freq amp : R) (h : list nat) (order : nat) (recov : list R) (k : nat)
  : text_file * result unit := append_stats f (hbm_amp_phase_header order) (hbm_amp_phase_row freq amp h order recov k X).

(** the label line of the two VPRNM callbacks, utils/continuation.py 556-561 and 700-705 *)
Definition label_line (l : list (list R * nat)) : line :=
  [Heading HBlank; Heading HBlank] ++ map (fun p => Heading (HLabel (fst p) (snd (snd p)))) (combine (seq 0 (length l)) l).

(** print_vprnm_stats, utils/continuation.py 452-582 *)
Definition vprnm_header (order : nat) (l : list (list R * nat)) : list line :=
  [[Heading HForceScaling; Heading HFrequencyHz] ++ repeat (Heading (HRecov order)) (length l); label_line l].
Definition vprnm_row (h : list nat) (order : nat) (l : list (list R * nat)) (X : list R) : result (list R) :=
  do force <- from_end X 1;
  do w <- from_end X 2;
  do amps <- amp_list X w h order l;
  Ok (force :: w / 2 / PI :: amps).
Definition print_vprnm_stats (f : text_file) (X : list R) (h : list nat) (order : nat) (l : list (list R * nat)) : text_file * result unit :=
  append_stats f (vprnm_header order l) (vprnm_row h order l X).

(** print_vprnm_amp_phase_stats, utils/continuation.py 584-731 *)
Definition vprnm_amp_phase_header (control_order output_order : nat) (l : list (list R * nat)) : list line :=
  [[Heading (HControl control_order); Heading HForceCosine; Heading HForceSine; Heading HFrequencyHz]
     ++ repeat (Heading (HRecov output_order)) (length l); label_line l].
Definition vprnm_amp_phase_row (h : list nat) (output_order : nat) (l : list (list R * nat)) (X : list R) : result (list R) :=
  do amp_control <- from_end X 1;
  do fc <- from_end X 4;
  do fs <- from_end X 3;
  do w <- from_end X 2;
  do amps <- amp_list X w h output_order l;
  Ok (amp_control :: fc :: fs :: w / 2 / PI :: amps).
Definition print_vprnm_amp_phase_stats (f : text_file) (X : list R) (h : list nat) (control_order output_order : nat) (l : list (list R * nat))
  : text_file * result unit := append_stats f (vprnm_amp_phase_header control_order output_order l) (vprnm_amp_phase_row h output_order l X).

(** a callback called with the solutions Xs one after the other (an exception ends the run) *)
Fixpoint callback_run (call : text_file -> list R -> text_file * result unit) (f : text_file) (Xs : list (list R)) : text_file * result unit :=
  match Xs with
  | [] => (f, Ok tt)
  | X :: rest => match call f X with
                 | (f', Ok _) => callback_run call f' rest
                 | (f', Err e) => (f', Err e)
                 end
  end.
