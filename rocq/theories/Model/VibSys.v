(** Model of /repo/tmdsimpy/vibration_system.py.
    N degrees of freedom; arrays are functions with explicit sizes; inputs of the wrong size are not modelled.  With n = Nhc*N, the harmonic
    unknowns are entries 0..n-1 of the argument and further unknowns follow.  float64 -> R.
    A nonlinear force is given by the results of its methods in its current state; how aft and
    force change that state is modelled in the files of the elements. *)
From Coq Require Import Reals List Arith Bool ZArith.
From Verif.Lib Require Import RSum Py.
From Verif.Model Require Import Jenkins Harmonic Aft.
Import ListNotations.
Open Scope R_scope.

(** v[m:] = 0 and v[:m] = 0 *)
Definition clear_from (m : nat) (v : vec) : vec := fun i => if Nat.ltb i m then v i else 0.
Definition clear_to (m : nat) (v : vec) : vec := fun i => if Nat.ltb i m then 0 else v i.
(** index i lies in the slice a:b *)
Definition in_block (a b i : nat) : bool := (Nat.leb a i && Nat.ltb i b)%bool.
(** the slice v[:m] as a vector of length m *)
Definition take (m : nat) (v : vec) : vec := clear_from m v.

Record nlforce := mkForce {
  nl_type : nat;                                   (* nl_force_type(): 0 instantaneous, 1 hysteretic *)
  nl_force : vec -> result (vec * mat);            (* force(U) *)
  nl_aft : vec -> R -> list nat -> nat -> result (vec * mat * vec); (* aft(U, w, h, Nt, tol) *)
  nl_aft_F : vec -> R -> list nat -> nat -> result vec  (* aft(U, w, h, Nt, tol, calc_grad=False)[0] *)
}.

Record vibsys := mkSys {
  vs_N : nat;
  vs_M : mat;
  vs_K : mat;
  vs_C : mat;
  vs_ab : option (R * R);
  vs_forces : list nlforce
}.

(** ab[0]*M + ab[1]*K *)
Definition prop_damping (M K : mat) (ab : R * R) : mat := fun i j => fst ab * M i j + snd ab * K i j.

(** __init__, vibration_system.py 42-60 *)
Definition vs_new (N : nat) (M K : mat) (C : option mat) (ab : option (R * R)) : vibsys :=
  match ab with
  | Some p => mkSys N M K (prop_damping M K p) (Some p) []
  | None => mkSys N M K (match C with Some c => c | None => mzero end) None []
  end.

(** add_nl_force, vibration_system.py 62-78 *)
Definition vs_add_nl_force (s : vibsys) (f : nlforce) : vibsys :=
  mkSys (vs_N s) (vs_M s) (vs_K s) (vs_C s) (vs_ab s) (vs_forces s ++ [f]).

(** set_new_C, vibration_system.py 225-269 *)
Definition vs_set_new_C (s : vibsys) (C : option mat) (ab : option (R * R)) : vibsys :=
  match ab with
  | Some p => mkSys (vs_N s) (vs_M s) (vs_K s) (prop_damping (vs_M s) (vs_K s) p) (Some p) (vs_forces s)
  | None => mkSys (vs_N s) (vs_M s) (vs_K s) (match C with Some c => c | None => mzero end) (vs_ab s) (vs_forces s)
  end.

(** loop of static_res, vibration_system.py 306-314 *)
Fixpoint static_loop (fs : list nlforce) (U : vec) (acc : vec * mat) : result (vec * mat) :=
  match fs with
  | [] => Ok acc
  | f :: fs' =>
      do (Fc, dFc) <- nl_force f U;
      static_loop fs' U (vadd (fst acc) Fc, madd (snd acc) dFc)
  end.

(** static_res, vibration_system.py 271-319 *)
Definition static_res (s : vibsys) (U Fstatic : vec) : result (vec * mat) :=
  do (Fnl, dFnl) <- static_loop (vs_forces s) U (vzero, mzero);
  Ok (fun i => matvec (vs_N s) (vs_K s) U i + Fnl i - Fstatic i, madd (vs_K s) dFnl).

(** total_aft, vibration_system.py 321-396: loop with gradients (379-384) and without (390-393) *)
Fixpoint aft_loop (fs : list nlforce) (U : vec) (w : R) (h : list nat) (Nt : nat)
         (acc : vec * mat * vec) : result (vec * mat * vec) :=
  match fs with
  | [] => Ok acc
  | f :: fs' =>
      do (FdU, dw) <- nl_aft f U w h Nt;
      aft_loop fs' U w h Nt (vadd (fst (fst acc)) (fst FdU), madd (snd (fst acc)) (snd FdU), vadd (snd acc) dw)
  end.
Fixpoint aft_loop_F (fs : list nlforce) (U : vec) (w : R) (h : list nat) (Nt : nat) (acc : vec) : result vec :=
  match fs with
  | [] => Ok acc
  | f :: fs' => do F <- nl_aft_F f U w h Nt; aft_loop_F fs' U w h Nt (vadd acc F)
  end.
Definition total_aft (s : vibsys) (U : vec) (w : R) (h : list nat) (Nt : nat) (calc_grad : bool)
  : result (vec * option (mat * vec)) :=
  do _ <- Nhc h;
  if calc_grad
  then do (FdU, dw) <- aft_loop (vs_forces s) U w h Nt (vzero, mzero, vzero);
       Ok (fst FdU, Some (snd FdU, dw))
  else do F <- aft_loop_F (vs_forces s) U w h Nt vzero; Ok (F, None).

(** hbm_res, vibration_system.py 398-483 *)
Definition hbm_res (s : vibsys) (Uw Fl : vec) (h : list nat) (Nt : nat) (calc_grad : bool)
  : result (vec * option (mat * vec)) :=
  let n := (aft_Nhc h * vs_N s)%nat in
  let w := Uw n in
  do (E, dE) <- harmonic_stiffness (vs_N s) (vs_M s) (vs_C s) (vs_K s) w h calc_grad false;
  do (Fnl, G) <- total_aft s (take n Uw) w h Nt calc_grad;
  let Rr : vec := fun i => matvec n E Uw i + Fnl i - Fl i in
  match dE, G with
  | Some dEdw, Some (dFnldU, dFnldw) => Ok (Rr, Some (madd E dFnldU, fun i => matvec n dEdw Uw i + dFnldw i))
  | _, _ => Ok (Rr, None)
  end.

(** replace entry n (hstack of the first n entries and a value) *)
Definition with_entry (n : nat) (v : vec) (x : R) : vec := fun i => if Nat.ltb i n then v i else x.

(** hbm_res_dFl, vibration_system.py 485-564; h[0] of an empty h raises IndexError *)
Definition hbm_res_dFl (s : vibsys) (UF : vec) (w : R) (Fl : vec) (h : list nat) (Nt : nat) (calc_grad : bool)
  : result (vec * option (mat * vec)) :=
  match h with
  | [] => Err IndexError
  | _ =>
    let n := (aft_Nhc h * vs_N s)%nat in
    let Fstat := clear_from (zi h * vs_N s) Fl in
    let Fdyn := clear_to (zi h * vs_N s) Fl in
    do (Rr, G) <- hbm_res s (with_entry n UF w) (fun i => UF n * Fdyn i + Fstat i) h Nt calc_grad;
    match G with
    | Some (dRdU, _) => Ok (Rr, Some (dRdU, fun i => - Fdyn i))
    | None => Ok (Rr, None)
    end
  end.

(** modal response used by linear_frf (630-643) and linear_frf_base (1012-1035): cosine and sine part of one mode *)
Definition modal_zeta (ab : R * R) (wn : R) : R := fst ab / wn / 2 + snd ab * wn / 2.
Definition modal_cos (wn w z f fsin : R) : R :=
  ((wn ^ 2 - w ^ 2) * f - (2 * wn * w * z) * fsin) / ((wn ^ 2 - w ^ 2) ^ 2 + (2 * wn * w * z) ^ 2).
Definition modal_sin (wn w z f fsin : R) : R :=
  ((2 * wn * w * z) * f + (wn ^ 2 - w ^ 2) * fsin) / ((wn ^ 2 - w ^ 2) ^ 2 + (2 * wn * w * z) ^ 2).

(** linear_frf, vibration_system.py 567-647, for one frequency; [eigs K M k] stands for
    solver.eigs(K, M, subset_by_index=[0, k-1]): the k eigenvalues and the matrix of eigenvectors.
    Returns the cosine and sine response (the row Xw without its last entry w). *)
Definition linear_frf (s : vibsys) (w : R) (Fl : vec) (eigs : mat -> mat -> nat -> vec * mat) (neigs : nat)
           (Flsin : option vec) : result (vec * vec) :=
  match vs_ab s with
  | None => Err AssertionError
  | Some ab =>
    let k := Nat.min neigs (vs_N s) in
    let fsin := match Flsin with Some v => v | None => vzero end in
    let (wnsq, V) := eigs (vs_K s) (vs_M s) k in
    let wn := fun m => sqrt (wnsq m) in
    let mf := vecmat (vs_N s) Fl V in
    let mfs := vecmat (vs_N s) fsin V in
    let z := fun m => modal_zeta ab (wn m) in
    Ok (matvec k V (fun m => modal_cos (wn m) w (z m) (mf m) (mfs m)),
        matvec k V (fun m => modal_sin (wn m) w (z m) (mf m) (mfs m)))
  end.

(** epmc_res, vibration_system.py 650-830; unknowns Uwxa = [U, w, xi, log10 amplitude].
    Rows n and n+1 are the modal mass and the phase constraint. *)
Definition epmc_ascale (N : nat) (h : list nat) (Amp : R) : vec := fun i => if Nat.ltb i (zi h * N) then 1 else Amp.
Definition epmc_dascale (N : nat) (h : list nat) (dAmp : R) : vec := fun i => if Nat.ltb i (zi h * N) then 0 else dAmp.
Definition epmc_res (s : vibsys) (Uwxa Fl : vec) (h : list nat) (Nt : nat) (calc_grad : bool)
  : result (vec * option (mat * vec)) :=
  match h with
  | [] => Err IndexError
  | _ =>
    let N := vs_N s in
    let n := (aft_Nhc h * N)%nat in
    let h0 := zi h in
    do _ <- Nhc h;
    let la := Uwxa (n + 2)%nat in
    let Amp := Rpower 10 la in
    let Ascale := epmc_ascale N h Amp in
    let Fstat := clear_from (h0 * N) Fl in
    let Fdyn := clear_to (h0 * N) Fl in
    let w := Uwxa n in
    let xi := Uwxa (n + 1)%nat in
    let Us : vec := fun i => Ascale i * Uwxa i in
    do (E, dE) <- harmonic_stiffness N (vs_M s) (fun i j => vs_C s i j - xi * vs_M s i j) (vs_K s) w h calc_grad false;
    do (Fnl, G) <- total_aft s (take n Us) w h Nt calc_grad;
    let u1c : vec := fun i => Uwxa (h0 * N + i)%nat in
    let u1s : vec := fun i => Uwxa ((h0 + 1) * N + i)%nat in
    let Rr : vec := fun i =>
      if Nat.ltb i n then matvec n E Us i + Fnl i - Fstat i
      else if Nat.eqb i n
      then dot N u1c (matvec N (vs_M s) u1c) + dot N u1s (matvec N (vs_M s) u1s) - 1
      else dot n Fdyn Uwxa in
    match dE, G with
    | Some dEdw, Some (dFnldU, dFnldw) =>
      do (dEdxi, _) <- harmonic_stiffness N mzero (fun i j => - vs_M s i j) mzero w h false true;
      let dAscale := epmc_dascale N h (Amp * ln 10) in
      let J : mat := fun i j =>
        if Nat.ltb i n then
          if Nat.ltb j n then (E i j + dFnldU i j) * Ascale j
          else if Nat.eqb j n then matvec n dEdw Us i + dFnldw i
          else matvec n dEdxi Us i
        else if Nat.eqb i n then
          if in_block (h0 * N) ((h0 + 1) * N) j then vecmat N (fun k => 2 * u1c k) (vs_M s) (j - h0 * N)%nat
          else if in_block ((h0 + 1) * N) ((h0 + 2) * N) j then vecmat N (fun k => 2 * u1s k) (vs_M s) (j - (h0 + 1) * N)%nat
          else 0
        else if Nat.ltb j n then Fdyn j else 0 in
      let dRda : vec := fun i =>
        if Nat.ltb i n then matvec n (madd E dFnldU) (fun k => dAscale k * Uwxa k) i else 0 in
      Ok (Rr, Some (J, dRda))
    | _, _ => Ok (Rr, None)
    end
  end.

(** boolean masks: number of selected entries before i, and the list of selected indices *)
Definition mask_rank (p : nat -> bool) (i : nat) : nat := length (filter p (seq 0 i)).
Definition mask_index (p : nat -> bool) (n k : nat) : nat := nth k (filter p (seq 0 n)) O.

(** hbm_base_res, vibration_system.py 832-913; base_flag selects the base degrees of freedom *)
Definition base_full (N n : nat) (base_flag : nat -> bool) (Uw Ub : vec) : vec :=
  let mask := fun i => (Nat.ltb i n && base_flag (i mod N))%bool in
  fun i => if mask i then Ub (mask_rank mask i) else Uw (mask_rank (fun k => negb (mask k)) i).
Definition hbm_base_res (s : vibsys) (Uw Ub : vec) (base_flag : nat -> bool) (h : list nat) (Nt : nat)
  : result (vec * mat * vec) :=
  let N := vs_N s in
  let n := (aft_Nhc h * N)%nat in
  let free := fun k => mask_index (fun i => negb (base_flag (i mod N))) n k in
  do _ <- Nhc h;
  do (Rr, G) <- hbm_res s (base_full N n base_flag Uw Ub) vzero h Nt true;
  match G with
  | Some (dRdU, dRdw) => Ok (fun k => Rr (free k), fun k l => dRdU (free k) (free l), fun k => dRdw (free k))
  | None => Err TypeError
  end.

(** linear_frf_base, vibration_system.py 915-1044: one column of the table of responses, for one frequency and the base degree
    of freedom of number col; Ub holds the cosine and the sine part of the base motion.  A missing ab raises TypeError. *)
Definition frf_base_column (s : vibsys) (w : R) (Ub : vec) (base_flag : nat -> bool)
           (eigs : mat -> mat -> nat -> vec * mat) (neigs : nat) (col : nat) : result (vec * vec) :=
  let N := vs_N s in
  let nf := mask_rank (fun d => negb (base_flag d)) N in
  let fr := mask_index (fun d => negb (base_flag d)) N in
  let b := mask_index base_flag N col in
  let k := Nat.min neigs nf in
  let (wnsq, V) := eigs (fun i j => vs_K s (fr i) (fr j)) (fun i j => vs_M s (fr i) (fr j)) k in
  match vs_ab s with
  | None => Err TypeError
  | Some ab =>
    let wn := fun m => sqrt (wnsq m) in
    let f_cos : vec := fun i => - vs_K s (fr i) b * Ub 0%nat - vs_C s (fr i) b * Ub 1%nat * w in
    let f_sin : vec := fun i => - vs_K s (fr i) b * Ub 1%nat + vs_C s (fr i) b * Ub 0%nat * w in
    let mf := vecmat nf f_cos V in
    let mfs := vecmat nf f_sin V in
    let z := fun m => modal_zeta ab (wn m) in
    Ok (matvec k V (fun m => modal_cos (wn m) w (z m) (mf m) (mfs m)),
        matvec k V (fun m => modal_sin (wn m) w (z m) (mf m) (mfs m)))
  end.

(** one frequency and one base degree of freedom *)
Definition linear_frf_base (s : vibsys) (w : R) (Ub : vec) (base_flag : nat -> bool)
           (eigs : mat -> mat -> nat -> vec * mat) (neigs : nat) : result (vec * vec) := frf_base_column s w Ub base_flag eigs neigs 0.

(** hbm_amp_control_res, vibration_system.py 1517-1642; unknowns [U, F, w].  w**(2*order-1) is powerRZ. *)
Definition hbm_amp_control_res (s : vibsys) (UFw Fl : vec) (h : list nat) (recov : vec) (amp : R) (order : nat)
           (Nt : nat) (calc_grad : bool) : result (vec * option (mat * vec)) :=
  match h with
  | [] => Err IndexError
  | _ =>
    let N := vs_N s in
    let n := (aft_Nhc h * N)%nat in
    let h0 := zi h in
    let F := UFw n in
    let w := UFw (n + 1)%nat in
    let Fstat := clear_from (h0 * N) Fl in
    let Fdyn := clear_to (h0 * N) Fl in
    do (Rh, G) <- hbm_res s (with_entry n UFw w) (fun i => Fstat i + Fdyn i * F) h Nt calc_grad;
    let udofc := dot N recov (fun i => UFw (h0 * N + i)%nat) in
    let udofs := dot N recov (fun i => UFw ((h0 + 1) * N + i)%nat) in
    let Raug := w ^ (2 * order) * (udofc ^ 2 + udofs ^ 2) - amp ^ 2 in
    let Rr : vec := fun i => if Nat.ltb i n then Rh i else Raug in
    match G with
    | Some (dRdU, dRdw) =>
      let dRaugdUF : vec := fun j =>
        if in_block (h0 * N) ((h0 + 1) * N) j then w ^ (2 * order) * (2 * udofc * recov (j - h0 * N)%nat)
        else if in_block ((h0 + 1) * N) ((h0 + 2) * N) j then w ^ (2 * order) * (2 * udofs * recov (j - (h0 + 1) * N)%nat)
        else 0 in
      let dRaugdw := INR (2 * order) * powerRZ w (Z.of_nat (2 * order) - 1) * (udofc ^ 2 + udofs ^ 2) in
      Ok (Rr, Some (fun i j => if Nat.ltb i n then (if Nat.ltb j n then dRdU i j else - Fdyn i) else dRaugdUF j,
                    fun i => if Nat.ltb i n then dRdw i else dRaugdw))
    | None => Ok (Rr, None)
    end
  end.

(** hbm_amp_phase_control_res, vibration_system.py 1644-1769; unknowns [U, Fc, Fs, w] *)
Definition hbm_amp_phase_control_res (s : vibsys) (X Fl : vec) (h : list nat) (recov : vec) (amp : R) (order : nat)
           (Nt : nat) (calc_grad : bool) : result (vec * option (mat * vec)) :=
  match h with
  | [] => Err IndexError
  | _ =>
    let N := vs_N s in
    let n := (aft_Nhc h * N)%nat in
    let h0 := zi h in
    let Fc := X n in
    let Fs := X (n + 1)%nat in
    let w := X (n + 2)%nat in
    let Fl_hbm : vec := fun i =>
      if Nat.ltb i (h0 * N) then Fl i
      else if Nat.ltb i ((h0 + 1) * N) then Fc * Fl i
      else if Nat.ltb i ((h0 + 2) * N) then Fs * Fl (i - N)%nat
      else 0 in
    do (Rh, G) <- hbm_res s (with_entry n X w) Fl_hbm h Nt calc_grad;
    let amp_cos := w ^ order * dot N recov (fun i => X (h0 * N + i)%nat) in
    let amp_sin := w ^ order * dot N recov (fun i => X ((h0 + 1) * N + i)%nat) in
    let Rr : vec := fun i => if Nat.ltb i n then Rh i else if Nat.eqb i n then amp_cos - amp else amp_sin in
    match G with
    | Some (dRdU, dRdw) =>
      Ok (Rr, Some (fun i j =>
                      if Nat.ltb i n then
                        if Nat.ltb j n then dRdU i j
                        else if Nat.eqb j n then (if in_block (h0 * N) ((h0 + 1) * N) i then - Fl i else 0)
                        else (if in_block ((h0 + 1) * N) ((h0 + 2) * N) i then - Fl (i - N)%nat else 0)
                      else if Nat.eqb i n then
                        (if in_block (h0 * N) ((h0 + 1) * N) j then w ^ order * recov (j - h0 * N)%nat else 0)
                      else
                        (if in_block ((h0 + 1) * N) ((h0 + 2) * N) j then w ^ order * recov (j - (h0 + 1) * N)%nat else 0),
                    fun i => if Nat.ltb i n then dRdw i
                             else if Nat.eqb i n then INR order * amp_cos / w else INR order * amp_sin / w))
    | None => Ok (Rr, None)
    end
  end.

(** hbm_amp_phase_control_dA_res, vibration_system.py 1771-1869; unknowns [U, Fc, Fs, A] *)
Definition hbm_amp_phase_control_dA_res (s : vibsys) (X Fl : vec) (h : list nat) (recov : vec) (w : R) (order : nat)
           (Nt : nat) (calc_grad : bool) : result (vec * option (mat * vec)) :=
  let n := (aft_Nhc h * vs_N s)%nat in
  do (Rr, G) <- hbm_amp_phase_control_res s (with_entry (n + 2) X w) Fl h recov (X (n + 2)%nat) order Nt calc_grad;
  match G with
  | Some (J, _) => Ok (Rr, Some (J, fun i => if Nat.eqb i n then -1 else 0))
  | None => Ok (Rr, None)
  end.

(** vprnm_single_eqn, vibration_system.py 1155-1350.  [flt] is superharmonic_filter.
    norm of the first m entries: np.sqrt(np.sum(v**2)) *)
Definition norm2 (m : nat) (v : vec) : R := sqrt (rsum m (fun i => v i ^ 2)).
(** hstack((phi @ v[:N], phi @ v[N:])) *)
Definition filter2 (N : nat) (phi v : vec) : vec :=
  fun i => if Nat.eqb i 0 then dot N phi v else dot N phi (fun k => v (N + k)%nat).
(** v @ kron(eye(2), phi) for v of length 2 *)
Definition unfilter2 (N : nat) (phi v : vec) : vec := fun j => if Nat.ltb j N then v O * phi j else v 1%nat * phi (j - N)%nat.

Definition vprnm_rhi_index (h : list nat) (rhi : nat) : result nat := Nhc (filter (fun k => Nat.ltb k rhi) h).
Definition vprnm_single_eqn (s : vibsys) (U : vec) (w : R) (h : list nat) (rhi : nat) (Nt : nat) (calc_grad : bool)
           (flt : option vec) : result (R * option vec) :=
  let N := vs_N s in
  do nhc <- Nhc h;
  do ri <- vprnm_rhi_index h rhi;
  let b := (N * ri)%nat in
  do (Fint, G) <- total_aft s (clear_from b U) w h Nt calc_grad;
  let Frhi0 : vec := fun i => - Fint (b + i)%nat in
  let Xrhi0 : vec := fun i => U (b + i)%nat in
  let m := match flt with None => (2 * N)%nat | Some _ => 2%nat end in
  let Frhi := match flt with None => Frhi0 | Some phi => filter2 N phi Frhi0 end in
  let Xrhi := match flt with None => Xrhi0 | Some phi => filter2 N (vecmat N phi (vs_M s)) Xrhi0 end in
  let Fnorm := norm2 m Frhi in
  let Xnorm := norm2 m Xrhi in
  let Rr := dot m Frhi Xrhi / (Xnorm * Fnorm) in
  match G with
  | None => Ok (Rr, None)
  | Some (dFintdU, dFintdw) =>
    let dF0 : nat -> vec := fun j i => - dFintdU (b + i)%nat j in
    let dFw0 : vec := fun i => - dFintdw (b + i)%nat in
    let dF : nat -> vec := match flt with None => dF0 | Some phi => fun j => filter2 N phi (dF0 j) end in
    let dFw := match flt with None => dFw0 | Some phi => filter2 N phi dFw0 end in
    let FX := dot m Frhi Xrhi in
    let back := fun v : vec => match flt with None => v | Some phi => unfilter2 N (vecmat N phi (vs_M s)) v end in
    let n := (nhc * N)%nat in
    Ok (Rr, Some (fun j =>
      if Nat.ltb j b then dot m (dF j) Xrhi / (Xnorm * Fnorm) - FX / (Xnorm * Fnorm ^ 3) * dot m (dF j) Frhi
      else if Nat.ltb j (b + 2 * N) then back Frhi (j - b)%nat / (Xnorm * Fnorm) - FX / (Xnorm ^ 3 * Fnorm) * back Xrhi (j - b)%nat
      else if Nat.eqb j n then dot m dFw Xrhi / (Xnorm * Fnorm) - FX / (Xnorm * Fnorm ^ 3) * dot m dFw Frhi
      else 0))
  end.

(** vprnm_res, vibration_system.py 1353-1515; unknowns [U, w, F].  The last row is constraint_scale times the
    VPRNM equation. *)
Definition vprnm_res (s : vibsys) (UwF : vec) (h : list nat) (rhi : nat) (Fl : vec) (Nt : nat) (calc_grad : bool)
           (flt : option vec) (cscale : R) : result (vec * option (mat * vec)) :=
  match h with
  | [] => Err IndexError
  | _ =>
    let N := vs_N s in
    let n := (aft_Nhc h * N)%nat in
    do _ <- Nhc h;
    let Fscale : vec := fun i => if Nat.ltb i (zi h * N) then Fl i else Fl i * UwF (n + 1)%nat in
    do (Rh, G) <- hbm_res s UwF Fscale h Nt calc_grad;
    do (Rv, Gv) <- vprnm_single_eqn s UwF (UwF n) h rhi Nt calc_grad flt;
    let Rr : vec := fun i => if Nat.ltb i n then Rh i else cscale * Rv in
    match G, Gv with
    | Some (dRdU, dRdw), Some gv =>
      Ok (Rr, Some (fun i j => if Nat.ltb i n then (if Nat.ltb j n then dRdU i j else dRdw i) else cscale * gv j,
                    fun i => if Nat.ltb i (N * zi h) then 0 else if Nat.ltb i n then - Fl i else 0))
    | _, _ => Ok (Rr, None)
    end
  end.

(** vprnm_amp_phase_res, vibration_system.py 1872-2025; unknowns [U, Fc, Fs, w, A] *)
Definition vprnm_amp_phase_res (s : vibsys) (X Fl : vec) (h : list nat) (rhi : nat) (recov : vec) (order : nat)
           (Nt : nat) (calc_grad : bool) (flt : option vec) (cscale : R) : result (vec * option (mat * vec)) :=
  let n := (aft_Nhc h * vs_N s)%nat in
  do (Rh, G) <- hbm_amp_phase_control_res s X Fl h recov (X (n + 3)%nat) order Nt calc_grad;
  do (Rv, Gv) <- vprnm_single_eqn s X (X (n + 2)%nat) h rhi Nt calc_grad flt;
  let Rr : vec := fun i => if Nat.ltb i (n + 2) then Rh i else cscale * Rv in
  match G, Gv with
  | Some (J, dw), Some gv =>
    Ok (Rr, Some (fun i j => if Nat.ltb i (n + 2) then (if Nat.ltb j (n + 2) then J i j else dw i)
                             else if Nat.ltb j n then cscale * gv j
                             else if Nat.ltb j (n + 2) then 0 else cscale * gv n,
                  fun i => if Nat.eqb i n then -1 else 0))
  | _, _ => Ok (Rr, None)
  end.

(** _shooting_state_space, vibration_system.py 2028-2120.
    The state holds U, V, the matrix dUVdUV0 (row-major) and dUVdw.  [inv] is np.linalg.inv.
    The loop variable Fnl of the last iteration is used in rhs (2093); without forces it is unbound (NameError). *)
Fixpoint shooting_loop (fs : list nlforce) (U : vec) (last : option vec) (dtot : mat) : result (option vec * mat) :=
  match fs with
  | [] => Ok (last, dtot)
  | f :: fs' => do (F, dF) <- nl_force f U; shooting_loop fs' U (Some F) (madd dtot dF)
  end.
Definition shooting_dg (N : nat) (Minv K C dF : mat) : mat := fun r c =>
  if Nat.ltb r N then (if Nat.ltb c N then 0 else if Nat.eqb (c - N) r then 1 else 0)
  else if Nat.ltb c N then matmul N Minv (fun i j => - K i j - dF i j) (r - N)%nat c
  else matmul N Minv (fun i j => - C i j) (r - N)%nat (c - N)%nat.
Definition shooting_state_space (inv : mat -> mat) (t : R) (y : vec) (s : vibsys) (Fl : vec) (omega : R) : result vec :=
  let N := vs_N s in
  let D := (2 * N)%nat in
  let U : vec := y in
  let V : vec := fun i => y (N + i)%nat in
  let Phi : mat := fun r c => y (D + (r * D + c))%nat in
  let dw : vec := fun i => y (D + D * D + i)%nat in
  do (last, dtot) <- shooting_loop (vs_forces s) U None mzero;
  match last with
  | None => Err NameError
  | Some Fnl =>
    let Fext : vec := fun i => Fl i * cos (omega * t) + Fl (N + i)%nat * sin (omega * t) in
    let rhs : vec := fun i => - (matvec N (vs_C s) V i + matvec N (vs_K s) U i + Fnl i) + Fext i in
    let Minv := inv (vs_M s) in
    let dg := shooting_dg N Minv (vs_K s) (vs_C s) dtot in
    let dFextdw : vec := fun i => - t * Fl i * sin (omega * t) + t * Fl (N + i)%nat * cos (omega * t) in
    Ok (fun i =>
          if Nat.ltb i N then V i
          else if Nat.ltb i D then matvec N Minv rhs (i - N)%nat
          else if Nat.ltb i (D + D * D) then matmul D dg Phi ((i - D) / D)%nat ((i - D) mod D)%nat
          else let r := (i - D - D * D)%nat in
               (if Nat.ltb r N then 0 else matvec N Minv dFextdw (r - N)%nat) + matvec D dg dw r)
  end.

(** shooting_res, vibration_system.py 1046-1153.  [ivp f T y0] is the final state of solve_ivp on (0, T);
    an exception raised by the right hand side propagates. *)
Definition shooting_y0 (N : nat) (Uw : vec) : vec := fun i =>
  let D := (2 * N)%nat in
  if Nat.ltb i D then Uw i
  else if Nat.ltb i (D + D * D) then (if Nat.eqb ((i - D) / D) ((i - D) mod D) then 1 else 0) else 0.
Definition shooting_res (ivp : (R -> vec -> result vec) -> R -> vec -> result vec) (inv : mat -> mat)
           (s : vibsys) (Uw Fl : vec) : result (vec * mat * vec * mat) :=
  let N := vs_N s in
  let D := (2 * N)%nat in
  if forallb (fun f => Nat.eqb (nl_type f) 0) (vs_forces s) then
    let w := Uw D in
    let Period := 2 * PI / w in
    let ydot := fun t y => shooting_state_space inv t y s Fl w in
    do Y <- ivp ydot Period (shooting_y0 N Uw);
    do Yd <- ydot Period Y;
    let mono : mat := fun r c => Y (D + (r * D + c))%nat in
    Ok (fun i => Y i - Uw i, fun r c => mono r c - (if Nat.eqb r c then 1 else 0),
        fun i => Yd i * (2 * PI) * (-1 / w ^ 2) + Y (D + D * D + i)%nat, mono)
  else Err AssertionError.
