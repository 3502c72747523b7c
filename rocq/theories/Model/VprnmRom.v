(** tmdsimpy/roms/vprnm.py: reduced order model of a superharmonic resonance.  Tables are lists of rows as in EpmcRom. *)
From Coq Require Import Reals List Arith Bool.
From Verif.Lib Require Import RSum Py.
From Verif.Model Require Import Harmonic Postprocess EpmcRom Predict.
Import ListNotations.
Open Scope R_scope.

(** hutils.Nhc(h[h < k]); the assert in Nhc cannot fail here because h has no repeated entry when this is reached *)
Definition low_index (h : list nat) (k : nat) : nat :=
  let l := filter (fun x => Nat.ltb x k) h in (2 * count_nonzero l + count_zero l)%nat.

(** v[a:a+m] += x *)
Definition add_slice (a m : nat) (x v : vec) : vec := fun i => if Nat.leb a i && Nat.ltb i (a + m) then v i + x (i - a)%nat else v i.

(** _extract_harmonic_amplitude, roms/vprnm.py 444-494, for one row; [last] is the index of the last column, used if is_epmc.
    hi is taken to be in h, as documented. *)
Definition extract_harmonic_amplitude (Ndof : nat) (u : vec) (h : list nat) (hi : nat) (recov : vec) (is_epmc : bool) (last : nat) : R :=
  let hi_index := low_index h hi in
  let Xcos := dot Ndof (fun i => u (Ndof * hi_index + i)%nat) recov in
  let Xsin := dot Ndof (fun i => u (Ndof * (hi_index + 1) + i)%nat) recov in
  let amplitude := sqrt (Xcos ^ 2 + Xsin ^ 2) in
  if is_epmc then amplitude * Rpower 10 (u last) else amplitude.

(** np.argmin (first index of the smallest entry); None: ValueError for an empty array *)
Fixpoint argmin (l : list R) : option nat :=
  match l with
  | [] => None
  | x :: t => match argmin t with None => Some O | Some k => if Rleb x (nth k t 0) then Some O else Some (S k) end
  end.

(** np.unique on integers *)
Fixpoint insert_unique (k : nat) (l : list nat) : list nat :=
  match l with [] => [k] | x :: t => if Nat.ltb k x then k :: l else if Nat.eqb k x then l else x :: insert_unique k t end.
Definition np_unique (l : list nat) : list nat := fold_right insert_unique [] l.

(** np.sort *)
Fixpoint insert_sorted (x : R) (l : list R) : list R :=
  match l with [] => [x] | y :: t => if Rleb x y then x :: l else y :: insert_sorted x t end.
Definition np_sort (l : list R) : list R := fold_right insert_sorted [] l.

(** np.interp(x, xp, fp) for one x; values outside are those at the ends *)
Definition np_interp_ends (x : R) (xp fp : list R) : R :=
  if Rltb x (hd 0 xp) then hd 0 fp else match np_interp x xp fp with Some y => y | None => last fp 0 end.

Definition lmax (l : list R) : R := match l with [] => 0 | x :: t => fold_left Rmax t x end.

(** the phase np.arctan2(recov @ u[(c+1) block], recov @ u[c block]) *)
Definition block_phase (Ndof : nat) (recov u : vec) (c : nat) : R :=
  atan2 (dot Ndof recov (fun i => u ((c + 1) * Ndof + i)%nat)) (dot Ndof recov (fun i => u (c * Ndof + i)%nat)).

(** steps 1-2 (239-307): the interpolated VPRNM point, the interpolated superharmonic EPMC point and the superharmonic response curve *)
Definition superharmonic_curve (Ndof : nat) (epmc_rhi_bb : list vec) (h_rhi : list nat) (vprnm_bb : list vec) (cols : nat) (h_vprnm : list nat) (rhi : nat)
    (control_point_h1 : vec) (control_amp_h1 : R) (control_point_rhi : vec) : result (vec * vec * list vec * list R) :=
  do nr <- Nhc h_rhi;
  let Nr := (nr * Ndof)%nat in
  let lin_q := map (fun u : vec => fun c : nat => if Nat.eqb c (Nr + 2) then Rpower 10 (u c) else u c) epmc_rhi_bb in
  let amp_h1 := map (fun u => extract_harmonic_amplitude Ndof u h_vprnm 1 control_point_h1 false 0) vprnm_bb in
  do pv <- linear_interp cols vprnm_bb [control_amp_h1] (Some amp_h1);
  let amp_rhi := map (fun u => extract_harmonic_amplitude Ndof u h_rhi 1 control_point_rhi true (Nr + 2)) epmc_rhi_bb in
  let A_rhi := match hd None pv with Some v => [extract_harmonic_amplitude Ndof v h_vprnm rhi control_point_rhi false 0] | None => [] end in
  do pr <- linear_interp (Nr + 3) lin_q A_rhi (Some amp_rhi);
  match hd None pv, hd None pr with
  | Some v, Some p =>
    let Omega := v (cols - 2)%nat in
    let W := INR rhi * Omega in
    let q := p (Nr + 2)%nat in
    let zeta := p (Nr + 1)%nat / (2 * p Nr) in
    let F := 2 * q * W ^ 2 * zeta in
    let mask := map (fun u : vec => Rltb (u (Nr + 2)%nat) q) lin_q in
    let abbrev := bmask mask lin_q ++ [p] in
    let z := map (fun u : vec => u (Nr + 1)%nat / (2 * u Nr)) abbrev in
    let bb := map (fun u : vec => fun c : nat => if Nat.eqb c (Nr + 2) then log10 (u c) else u c) abbrev in
    let w := bmask mask (map (fun u : vec => u Nr * W / p Nr) lin_q) ++ [W] in
    do (Uq, _) <- constant_force Ndof h_rhi bb None (Some (fun j => nth j w 0)) (Some (fun j => nth j z 0)) (Some (fun _ => F)) (Some (fun _ => 0));
    Ok (v, p, fst Uq, snd Uq)
  | _, _ => Err ValueError
  end.

(** step 5 (390-421): one row of the result; [v] VPRNM point, [P] rotated fundamental point, [r] rotated superharmonic row *)
Definition assemble_row (Ndof : nat) (h_vprnm h_fund h_rhi h_out : list nat) (rhi : nat) (v P r : vec) (Om : R) : vec :=
  let base := if Nat.eqb (zi h_vprnm) 1 then set_slice 0 Ndof v vzero else vzero in
  let with_fund := fold_left (fun acc k => set_slice (low_index h_out k * Ndof) (2 * Ndof) (fun i => P (low_index h_fund k * Ndof + i)%nat) acc)
                     (skipn (zi h_fund) h_fund) base in
  let with_rhi := fold_left (fun acc k => add_slice (low_index h_out (k * rhi) * Ndof) (2 * Ndof) (fun i => r (low_index h_rhi k * Ndof + i)%nat) acc)
                     (skipn (zi h_rhi) h_rhi) with_fund in
  fun c => if Nat.eqb c ((2 * count_nonzero h_out + count_zero h_out) * Ndof) then Om else with_rhi c.

(** the entries of that row that are nan because the fundamental point ([P_nan]) or the superharmonic row ([r_nan]) is *)
Definition nan_mask (Ndof : nat) (h_fund h_rhi h_out : list nat) (rhi : nat) (P_nan r_nan : bool) (c : nat) : bool :=
  let inside := fun k => Nat.leb (low_index h_out k * Ndof) c && Nat.ltb c (low_index h_out k * Ndof + 2 * Ndof) in
  (P_nan && existsb inside (skipn (zi h_fund) h_fund)) || (r_nan && existsb (fun k => inside (k * rhi)%nat) (skipn (zi h_rhi) h_rhi)).
Definition entries (mask : nat -> bool) (u : vec) (c : nat) : option R := if mask c then None else Some (u c).

(** constant_h1_displacement, roms/vprnm.py 54-441.  [cols] = vprnm_bb.shape[1].  Entries of the returned rows and forces are
    None where the code returns nan.  When an interpolation point is outside its table, all entries are nan and the reduced model of the
    superharmonic has no points: ValueError of argmin.  The harmonic lists are sorted, h_rhi and h_vprnm start with 1 (after 0), as
    documented.  The exception raised first may differ when several apply. *)
Definition constant_h1_displacement (Ndof : nat) (epmc_fund_bb : list vec) (h_fund : list nat) (epmc_rhi_bb : list vec) (h_rhi : list nat)
    (vprnm_bb : list vec) (cols : nat) (h_vprnm : list nat) (rhi : nat) (control_point_h1 : vec) (control_amp_h1 : R) (control_point_rhi : vec)
    (Flcos : vec) (extra_Omega : option (list R)) (correct_force : bool) : result (list (nat -> option R) * list (option R) * list nat) :=
  match h_vprnm with [] => Err IndexError | h_first :: _ =>
  do nv <- Nhc h_vprnm;
  let Nv := (nv * Ndof)%nat in
  if negb (Nat.eqb cols (Nv + 4) || Nat.eqb cols (Nv + 2)) then Err AssertionError else
  do (vpr, amps) <- superharmonic_curve Ndof epmc_rhi_bb h_rhi vprnm_bb cols h_vprnm rhi control_point_h1 control_amp_h1 control_point_rhi;
  do nr <- Nhc h_rhi;
  let Nr := (nr * Ndof)%nat in
  let v := fst (fst vpr) in
  let p := snd (fst vpr) in
  let Uw_S := snd vpr in
  let W := INR rhi * v (cols - 2)%nat in
  let f_mag := if Nat.eqb cols (Nv + 4) then sqrt (v (cols - 4)%nat ^ 2 + v (cols - 3)%nat ^ 2) else v (cols - 1)%nat in
  match argmin (map (fun r : vec => Rabs (r Nr - W)) Uw_S) with None => Err ValueError | Some peak =>
  if negb (Rleb (Rabs (nth peak amps 0 - p (Nr + 2)%nat)) (/ 10 ^ 12)) then Err AssertionError else
  let phi_rot_S := block_phase Ndof control_point_rhi v (low_index h_vprnm rhi) - block_phase Ndof control_point_rhi (nth peak Uw_S vzero) (zi h_rhi) in
  let Uw_S := map (fun r => rotate_subtract_phase r Ndof h_rhi phi_rot_S 1) Uw_S in
  let freqs := map (fun r : vec => r Nr) Uw_S in
  do (Sws, peak) <-
    (match extra_Omega with
     | None => Ok (map Some Uw_S, freqs, amps, peak)
     | Some extra =>
       let new_w := np_sort (map (fun x => INR rhi * x) extra ++ freqs) in
       let peak' := (peak + length (filter (fun x => Rltb (INR rhi * x) (nth peak freqs 0%R)) extra))%nat in
       do U2 <- linear_interp (Nr + 1) Uw_S new_w None;
       Ok (U2, new_w, map (fun x => np_interp_ends x freqs amps) new_w, peak')
     end);
  let Ss := fst (fst Sws) in
  let ws := snd (fst Sws) in
  let q_S := snd Sws in
  let Omega := map (fun x => x / INR rhi) ws in
  do (force_magnitude, fund) <- constant_displacement epmc_fund_bb h_fund Ndof Flcos Omega control_point_h1 control_amp_h1 None None;
  do nf <- Nhc h_fund;
  let Nf := (nf * Ndof)%nat in
  let h_out := np_unique (h_first :: h_fund ++ map (fun k => k * rhi)%nat h_rhi) in
  let P0 := match fund with Some P => P | None => vzero end in
  let P := fun c => if Nat.leb (zi h_fund * Ndof) c && Nat.ltb c Nf then P0 c * Rpower 10 (P0 (Nf + 2)%nat) else P0 c in
  let phi_rot_F := block_phase Ndof control_point_h1 v (zi h_vprnm) - block_phase Ndof control_point_h1 P (zi h_fund) in
  let P := rotate_subtract_phase P Ndof h_fund phi_rot_F 1 in
  let rows := map2 (fun Sr Om => entries (nan_mask Ndof h_fund h_rhi h_out rhi (match fund with None => true | _ => false end) (match Sr with None => true | _ => false end))
      (assemble_row Ndof h_vprnm h_fund h_rhi h_out rhi v P (match Sr with None => vzero | Some r => r end) Om)) Ss Omega in
  let force_out :=
    if correct_force then
      match nth peak force_magnitude None with
      | None => map (fun _ => None) force_magnitude
      | Some fp => let Delta := f_mag - fp in
          map2 (fun f q => match f with None => None | Some f => Some (f + Delta * q / lmax q_S) end) force_magnitude q_S
      end
    else force_magnitude in
  Ok (rows, force_out, h_out)
  end
  end.
