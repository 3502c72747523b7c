(** tmdsimpy/roms/epmc.py: reduced order models on EPMC backbones.  A backbone is a list of rows; with n = Nhc*Ndof the
    columns are: 0..n-1 harmonic coefficients, n frequency, n+1 xi, n+2 log10 of the modal amplitude. *)
From Coq Require Import Reals List Arith Bool.
From Verif.Lib Require Import RSum Py.
From Verif.Model Require Import Harmonic Postprocess.
Import ListNotations.
Open Scope R_scope.

(** np.arctan2, by its documented cases (signed zeros are not modelled) *)
Definition atan2 (y x : R) : R :=
  if Rltb 0 x then atan (y / x)
  else if Rltb x 0 then (if Rleb 0 y then atan (y / x) + PI else atan (y / x) - PI)
  else if Rltb 0 y then PI / 2 else if Rltb y 0 then - (PI / 2) else 0.

Definition log10 (x : R) : R := ln x / ln 10.

(** a[mask] for a boolean mask of the same length *)
Definition bmask {A} (mask : list bool) (a : list A) : list A := map snd (filter fst (combine mask a)).
(** elementwise operation of two arrays *)
Definition map2 {A B C} (f : A -> B -> C) (a : list A) (b : list B) : list C := map (fun p => f (fst p) (snd p)) (combine a b).

(** constant_force, roms/epmc.py 38-309.  [w], [zeta], [phiH_Fl_real], [phiH_Fl_imag] are given per backbone point (a scalar
    argument is a constant function); arrays of other lengths are not modelled.  The harmonic list is taken to contain
    harmonic 1 first (after 0), as documented; then the slices of 218-222 have Ndof entries.  [arr] is the array over the
    backbone points. *)
Definition constant_force (Ndof : nat) (h : list nat) (epmc_bb : list vec) (Fl : option vec)
    (w_in zeta_in phiH_Fl_real_in phiH_Fl_imag_in : option vec) : result (list vec * list R * list R) :=
  match h with [] => Err IndexError | _ =>
  do Nhc <- Nhc h;
  let n := (Nhc * Ndof)%nat in
  let h0 := zi h in
  let M := length epmc_bb in
  let arr := fun {A} (f : nat -> A) => map f (seq 0 M) in
  let w := match w_in with None => fun j => row epmc_bb j n | Some w => w end in
  let zeta := match zeta_in with None => fun j => row epmc_bb j (n + 1)%nat / (2 * w j) | Some z => z end in
  do phiH_Fl <-
    (match phiH_Fl_real_in, phiH_Fl_imag_in, Fl with
     | None, None, Some Fl =>
         let Fl_cos := fun i => Fl (h0 * Ndof + i)%nat in
         let Fl_sin := fun i => Fl ((1 + h0) * Ndof + i)%nat in
         let phi_cos := fun j i => row epmc_bb j (h0 * Ndof + i)%nat in
         let phi_sin := fun j i => row epmc_bb j ((1 + h0) * Ndof + i)%nat in
         Ok ((fun j => dot Ndof Fl_cos (phi_cos j) + dot Ndof Fl_sin (phi_sin j)),
             (fun j => dot Ndof Fl_cos (phi_sin j) - dot Ndof Fl_sin (phi_cos j)))
     | Some re, Some im, None => Ok (re, im)
     | _, _, _ => Err AssertionError
     end);
  let phiH_Fl_real := fst phiH_Fl in
  let phiH_Fl_imag := snd phiH_Fl in
  let phi_Fl := fun j => sqrt (phiH_Fl_real j ^ 2 + phiH_Fl_imag j ^ 2) in
  let q := fun j => Rpower 10 (row epmc_bb j (n + 2)%nat) in
  let p2 := fun j => w j ^ 2 - 2 * (zeta j * w j) ^ 2 in
  let root_arg0 := fun j => p2 j ^ 2 - w j ^ 4 + phi_Fl j ^ 2 / q j ^ 2 in
  let root_pos := fun j => Rleb 0 (root_arg0 j) in
  let root_arg := fun j => if root_pos j then root_arg0 j else 0 in
  let both := fun {A} (f : nat -> A) => arr f ++ rev (arr f) in
  let Omega_sq := arr (fun j => p2 j + 1 * sqrt (root_arg j)) ++ rev (arr (fun j => p2 j + (-1) * sqrt (root_arg j))) in
  let mask := map2 andb (map (fun x => Rltb 0 x) Omega_sq) (both root_pos) in
  let Omega := map sqrt (bmask mask Omega_sq) in
  let real_frc := bmask mask (both phiH_Fl_real) in
  let imag_frc := bmask mask (both phiH_Fl_imag) in
  let wn_frc := bmask mask (both w) in
  let zeta_frc := bmask mask (both zeta) in
  let modal_amplitude := bmask mask (both q) in
  let damp := map2 Rmult (map2 (fun Om wn => 2 * Om * wn) Omega wn_frc) zeta_frc in
  let stiff := map2 (fun wn Om => wn ^ 2 - Om ^ 2) wn_frc Omega in
  let arg_real := map2 Rplus (map2 Rmult real_frc stiff) (map2 Rmult imag_frc damp) in
  let arg_imag := map2 Rminus (map2 Rmult real_frc damp) (map2 Rmult imag_frc stiff) in
  let modal_phase := map2 atan2 arg_imag arg_real in
  let mode_ind := bmask mask (both (fun j => j)) in
  let scaled := map2 (fun j a => fun c : nat =>
      if Nat.ltb c n then (if Nat.leb (h0 * Ndof) c then row epmc_bb j c * a else row epmc_bb j c) else 0) mode_ind modal_amplitude in
  let FRC0 := map2 (fun r Om => fun c : nat => if Nat.eqb c n then Om else r c) scaled Omega in
  let FRC := map2 (fun r p => rotate_subtract_phase r Ndof h p 1) FRC0 modal_phase in
  Ok (rev FRC, rev modal_amplitude, rev modal_phase)
  end.

(** constant_displacement, roms/epmc.py 312-466, for backbones with Nhc*Ndof + 3 columns (documented shape).  [w], [zeta] as
    above.  When the control amplitude is outside the backbone linear_interp returns nan: the forces and the point are None. *)
Definition constant_displacement (epmc_bb : list vec) (h : list nat) (Ndof : nat) (Flcos : vec) (Omega : list R)
    (control_point : vec) (control_amplitude : R) (w zeta : option vec) : result (list (option R) * option vec) :=
  match h with [] => Err IndexError | _ =>
  let h0 := zi h in
  let n := ((2 * count_nonzero h + count_zero h) * Ndof)%nat in
  let bb := map (fun j =>
      let r := row epmc_bb j in
      let wj := match w with None => r n | Some w => w j end in
      let xi := match zeta with None => r (n + 1)%nat | Some z => wj * 2 * z j end in
      fun c : nat => if Nat.eqb c (n + 2) then Rpower 10 (r c) else if Nat.eqb c n then wj else if Nat.eqb c (n + 1) then xi else r c)
    (seq 0 (length epmc_bb)) in
  let epmc_amp := map (fun r : vec =>
      let amp_cos := dot Ndof (fun i => r (h0 * Ndof + i)%nat) control_point in
      let amp_sin := dot Ndof (fun i => r ((h0 + 1) * Ndof + i)%nat) control_point in
      sqrt (amp_cos ^ 2 + amp_sin ^ 2) * r (n + 2)%nat) bb in
  do points <- linear_interp (n + 3) bb [control_amplitude] (Some epmc_amp);
  match hd None points with
  | None => Ok (map (fun _ => None) Omega, None)
  | Some epmc_point =>
    let modal_q := epmc_point (n + 2)%nat in
    let modal_w := epmc_point n in
    let modal_z := epmc_point (n + 1)%nat / (2 * modal_w) in
    let phiH_Fl_real := dot Ndof (fun i => epmc_point (h0 * Ndof + i)%nat) Flcos in
    let phiH_Fl_imag := dot Ndof (fun i => - epmc_point ((h0 + 1) * Ndof + i)%nat) Flcos in
    let phiH_Fl_abs := sqrt (phiH_Fl_real ^ 2 + phiH_Fl_imag ^ 2) in
    let p2 := modal_w ^ 2 - 2 * (modal_w * modal_z) ^ 2 in
    Ok (map (fun Om => Some (modal_q * sqrt (Om ^ 4 - 2 * Om ^ 2 * p2 + modal_w ^ 4) / phiH_Fl_abs)) Omega,
        Some (fun c => if Nat.eqb c (n + 2) then log10 (epmc_point c) else epmc_point c))
  end
  end.
