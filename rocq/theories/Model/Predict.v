(** tmdsimpy/utils/harmonic.py: predict_harmonic_solution, an initial guess from the linear response. *)
From Coq Require Import Reals List Arith Bool.
From Verif.Lib Require Import RSum Py.
From Verif.Model Require Import Harmonic Aft VibSys EpmcRom.
Import ListNotations.
Open Scope R_scope.

(** the argument [equation] after upper(); EqOther is any other string *)
Inductive equation_kind := EqHBM | EqAmp | EqAmpPhase | EqVprnmAmpPhase | EqOther.

(** an argument left at its default None is used in arithmetic: TypeError *)
Definition given {A} (o : option A) : result A := match o with Some x => Ok x | None => Err TypeError end.

(** v[a:a+m] = x *)
Definition set_slice (a m : nat) (x v : vec) : vec := fun i => if in_block a (a + m) i then x (i - a)%nat else v i.

(** 628-629: Ulam0[:Ndof] = Xstat *)
Definition with_static (N : nat) (h : list nat) (Xstat : option vec) (v : vec) : vec :=
  match Xstat with Some x => if Nat.eqb (zi h) 1 then set_slice 0 N x v else v | None => v end.

(** 549-555 and 628-629, the 'HBM' guess *)
Definition predict_hbm (s : vibsys) (w : R) (Fl : vec) (h : list nat) (eigs : mat -> mat -> nat -> vec * mat)
    (Xstat : option vec) (fmag : R) (neigs : nat) : result vec :=
  match h with [] => Err IndexError | _ =>
  let N := vs_N s in
  do nhc <- Nhc h;
  let h0 := zi h in
  do (xc, xs) <- linear_frf s w (fun i => fmag * Fl (h0 * N + i)%nat) eigs neigs (Some (fun i => fmag * Fl ((h0 + 1) * N + i)%nat));
  let Ulam0 := set_slice (h0 * N) N xc (set_slice ((h0 + 1) * N) N xs (set_slice (nhc * N) 1 (fun _ => w) vzero)) in
  Ok (with_static N h Xstat Ulam0)
  end.

(** predict_harmonic_solution, utils/harmonic.py 398-653.  [eigs] as in linear_frf; control_order a nonnegative integer.  None: the guess
    has entries that are not finite (division by a zero amplitude).  In the 'VPRNM' case the recursive call is written with predict_hbm. *)
Definition predict_harmonic_solution (s : vibsys) (w : R) (Fl : vec) (h : list nat) (eigs : mat -> mat -> nat -> vec * mat)
    (equation : equation_kind) (Xstat : option vec) (fmag control_amp : option R) (control_recov : option vec) (control_order : option nat)
    (rhi : option nat) (neigs : nat) (vib_sys_nl : option vibsys) (vprnm_calc_grad : bool) : result (option vec) :=
  match h with [] => Err IndexError | _ =>
  let N := vs_N s in
  do nhc <- Nhc h;
  let n := (nhc * N)%nat in
  let h0 := zi h in
  match equation with
  | EqHBM => do m <- given fmag; do v <- predict_hbm s w Fl h eigs Xstat m neigs; Ok (Some v)
  | EqOther => do _ <- predict_hbm s w Fl h eigs Xstat 1 neigs; Err NameError
  | _ =>
    let phase_control := match equation with EqAmp => false | _ => true end in
    if phase_control && negb (Reqb (rsum N (fun i => Rabs (Fl ((h0 + 1) * N + i)%nat))) 0) then Err AssertionError else
    do (xc, xs) <- linear_frf s w (fun i => 1 * Fl (h0 * N + i)%nat) eigs neigs (Some (fun i => 1 * Fl ((h0 + 1) * N + i)%nat));
    do recov <- given control_recov;
    let amp_cos := dot N recov xc in
    let amp_sin := dot N recov xs in
    do order <- given control_order;
    let lin_amp := sqrt (amp_cos ^ 2 + amp_sin ^ 2) * w ^ order in
    do amp <- given control_amp;
    if Reqb lin_amp 0 then Ok None else
    let fmag_initial := amp / lin_amp in
    let xc := fun i => xc i * fmag_initial in
    let xs := fun i => xs i * fmag_initial in
    let phase := atan2 amp_sin amp_cos in
    let rc := fun i => cos phase * xc i + sin phase * xs i in
    let rs := fun i => - sin phase * xc i + cos phase * xs i in
    match equation with
    | EqAmp =>
        Ok (Some (with_static N h Xstat (set_slice (h0 * N) N xc (set_slice ((h0 + 1) * N) N xs
              (set_slice n 1 (fun _ => fmag_initial) (set_slice (n + 1) 1 (fun _ => w) vzero))))))
    | EqAmpPhase =>
        Ok (Some (with_static N h Xstat (set_slice (h0 * N) N rc (set_slice ((h0 + 1) * N) N rs
              (set_slice n 1 (fun _ => cos phase * fmag_initial) (set_slice (n + 1) 1 (fun _ => - sin phase * fmag_initial)
              (set_slice (n + 2) 1 (fun _ => w) vzero)))))))
    | _ =>
        let Ulam0 := with_static N h Xstat (set_slice (h0 * N) N rc (set_slice ((h0 + 1) * N) N rs
              (set_slice n 1 (fun _ => cos phase * fmag_initial) (set_slice (n + 1) 1 (fun _ => - sin phase * fmag_initial)
              (set_slice (n + 2) 1 (fun _ => w) (set_slice (n + 3) 1 (fun _ => amp) vzero)))))) in
        do nl <- (match vib_sys_nl with Some x => Ok x | None => Err AttributeError end);
        do (Fnl_int, _) <- total_aft nl (take n Ulam0) w h 128 vprnm_calc_grad;
        do r <- given rhi;
        do ri <- vprnm_rhi_index h r;
        do Ulam_rhi <- predict_hbm s (INR r * w) (fun i => - Fnl_int (N * ri + i)%nat) [1%nat] eigs None 1 neigs;
        Ok (Some (set_slice (N * ri) (2 * N) Ulam_rhi Ulam0))
    end
  end
  end.
