(** Model of /repo/tmdsimpy/utils/harmonic.py (and of the identical functions in
    /repo/tmdsimpy/jax/harmonic_utils.py 26-222).
    Harmonic lists are lists of naturals.  Matrices are functions of (row, column).
    Functions that treat every column (degree of freedom) independently are modelled for one column. *)
From Coq Require Import Reals List Arith Bool.
From Verif.Lib Require Import RSum Py.
Import ListNotations.
Open Scope R_scope.

(** (h != 0).sum() and (h == 0).sum() *)
Definition count_nonzero (h : list nat) : nat := length (filter (fun k => negb (Nat.eqb k 0)) h).
Definition count_zero (h : list nat) : nat := length (filter (fun k => Nat.eqb k 0) h).

(** Nhc, harmonic.py 13-47: AssertionError when np.unique shortens the list *)
Definition Nhc (h : list nat) : result nat :=
  if Nat.eqb (length (nodup Nat.eq_dec h)) (length h)
  then Ok (2 * count_nonzero h + count_zero h)%nat
  else Err AssertionError.

(** zi = 1*(h[0] == 0); h[0] of an empty list raises IndexError in Python and is guarded by callers *)
Definition zi (h : list nat) : nat := if Nat.eqb (hd 1%nat h) 0 then 1 else 0.

(** slice assignment E[r0:r0+n, c0:c0+n] = B *)
Definition set_block (n : nat) (E : mat) (r0 c0 : nat) (B : mat) : mat :=
  fun r c => if (Nat.leb r0 r && Nat.ltb r (r0 + n) && (Nat.leb c0 c && Nat.ltb c (c0 + n)))%bool
             then B (r - r0)%nat (c - c0)%nat else E r c.

Definition mscal (a : R) (A : mat) : mat := fun i j => a * A i j.

(** harmonic_stiffness, harmonic.py 117-158: body of the loop over hind for E (119-136) and
    for dEdw (138-158) *)
Definition hs_step (nd : nat) (M C K : mat) (w : R) (h : list nat) (only_C : bool) (E : mat) (hind : nat) : mat :=
  let k := INR (nth hind h O) in
  let b := (hind * 2 - zi h)%nat in
  let E1 := set_block nd E (nd * b) (nd * (b + 1)) (mscal (1 * k * w) C) in
  let E2 := set_block nd E1 (nd * (b + 1)) (nd * b) (mscal (-1 * k * w) C) in
  if only_C then E2 else
  let D := fun i j => K i j + (-1 * (k * w) ^ 2) * M i j in
  let E3 := set_block nd E2 (nd * b) (nd * b) D in
  set_block nd E3 (nd * (b + 1)) (nd * (b + 1)) D.

Definition hs_dstep (nd : nat) (M C : mat) (w : R) (h : list nat) (only_C : bool) (E : mat) (hind : nat) : mat :=
  let k := INR (nth hind h O) in
  let b := (hind * 2 - zi h)%nat in
  let E1 := set_block nd E (nd * b) (nd * (b + 1)) (mscal k C) in
  let E2 := set_block nd E1 (nd * (b + 1)) (nd * b) (mscal (-1 * k) C) in
  if only_C then E2 else
  let E3 := set_block nd E2 (nd * b) (nd * b) (mscal (-2 * w * k ^ 2) M) in
  set_block nd E3 (nd * (b + 1)) (nd * (b + 1)) (mscal (-2 * w * k ^ 2) M).

(** range(zi, h.shape[0]) *)
Definition hs_range (h : list nat) : list nat := seq (zi h) (length h - zi h).

(** harmonic_stiffness, harmonic.py 49-163. Returns E and, with calc_grad, dEdw.
    An empty list raises IndexError at h[0] (109). *)
Definition harmonic_stiffness (nd : nat) (M C K : mat) (w : R) (h : list nat)
           (calc_grad only_C : bool) : result (mat * option mat) :=
  do _ <- Nhc h;
  match h with
  | [] => Err IndexError
  | _ =>
    let E0 : mat := if (Nat.eqb (zi h) 1 && negb only_C)%bool then set_block nd mzero 0 0 K else mzero in
    let E := fold_left (hs_step nd M C K w h only_C) (hs_range h) E0 in
    if calc_grad
    then Ok (E, Some (fold_left (hs_dstep nd M C w h only_C) (hs_range h) mzero))
    else Ok (E, None)
  end.

(** ---- time_series_deriv, harmonic.py 165-264 ---- *)
Definition vset (v : vec) (i : nat) (x : R) : vec := fun j => if Nat.eqb j i then x else v j.

(** 210-218: X0full, one column; rows 2k-1 and 2k receive the cosine and sine coefficient of
    harmonic k.  (A second zero in h, which would index row -1, is not modelled.) *)
Definition x0full (h : list nat) (X0 : vec) : vec :=
  fold_left (fun acc p => let k := nth (p + zi h) h O in
                          vset (vset acc (2 * k - 1) (X0 (2 * p + zi h)%nat)) (2 * k) (X0 (2 * p + 1 + zi h)%nat))
            (seq 0 (length h - zi h))
            (if Nat.eqb (zi h) 1 then vset vzero 0 (X0 O) else vzero).

(** 223-235: D1 *)
Definition mset (A : mat) (i j : nat) (x : R) : mat :=
  fun r c => if (Nat.eqb r i && Nat.eqb c j)%bool then x else A r c.
Definition D1 (h : list nat) : mat :=
  fold_left (fun D k => let cosrow := ((k - 1) * 2 + 1)%nat in
                        let sinrow := ((k - 1) * 2 + 2)%nat in
                        mset (mset D cosrow sinrow (INR k)) sinrow cosrow (-1 * INR k))
            (filter (fun k => negb (Nat.eqb k 0)) h) mzero.

(** np.linalg.matrix_power for exponents >= 0 *)
Fixpoint matrix_power (n : nat) (A : mat) (p : nat) : mat :=
  match p with O => mid | S p' => matmul n A (matrix_power n A p') end.

(** complex spectra as (real part, imaginary part) *)
(** 248-258: the spectrum Xf of Nt = 2*Nht+2 entries built from the padded coefficients *)
Definition spectrum (Nht : nat) (xp : vec) (f : nat) : R * R :=
  let Nt := (2 * Nht + 2)%nat in
  let scale := INR Nt / 2 in
  if Nat.eqb f 0 then (2 * xp O * scale, 0)
  else if Nat.leb f Nht then (xp (2 * f - 1)%nat * scale, - xp (2 * f)%nat * scale)
  else if Nat.eqb f (Nht + 1) then (0, 0)
  else let j := (Nt - f)%nat in (xp (2 * j - 1)%nat * scale, xp (2 * j)%nat * scale).

(** real(numpy.fft.ifft(Xf)), the inverse discrete Fourier transform *)
Definition real_ifft (Nt : nat) (Xf : nat -> R * R) (n : nat) : R :=
  / INR Nt * rsum Nt (fun f => fst (Xf f) * cos (2 * PI * INR f * INR n / INR Nt)
                             - snd (Xf f) * sin (2 * PI * INR f * INR n / INR Nt)).

(** real and imaginary part of numpy.fft.fft(x) *)
Definition fft (Nt : nat) (x : vec) (k : nat) : R * R :=
  (rsum Nt (fun n => x n * cos (2 * PI * INR k * INR n / INR Nt)),
   - rsum Nt (fun n => x n * sin (2 * PI * INR k * INR n / INR Nt))).

(** time_series_deriv, harmonic.py 165-264: number of samples and the samples of one column.
    An empty list raises ValueError in np.max (208). *)
Definition time_series_deriv (Nt : nat) (h : list nat) (X0 : vec) (order : nat) : result (nat * vec) :=
  if negb (Nat.eqb (count_zero h) 0 || Nat.eqb (hd 1%nat h) 0) then Err AssertionError
  else match h with
  | [] => Err ValueError
  | _ =>
    let Nh := list_max h in
    let X := x0full h X0 in
    if negb (Nat.ltb (2 * Nh + 1) Nt) then Err AssertionError
    else
      let n := (2 * Nh + 1)%nat in
      let X1 := if Nat.ltb 0 order then matvec n (matrix_power n (D1 h) order) X else X in
      let Nht := (Nt / 2 - 1)%nat in
      let Xp := fun i => if Nat.ltb i n then X1 i else 0 in
      Ok ((2 * Nht + 2)%nat, real_ifft (2 * Nht + 2) (spectrum Nht Xp))
  end.

(** get_fourier_coeff, harmonic.py 266-321, one column of Nt samples *)
Definition get_fourier_coeff (h : list nat) (Nt : nat) (x : vec) : result vec :=
  match h with
  | [] => Err IndexError
  | _ =>
    if negb (Nat.eqb (count_zero h) 0 || Nat.eqb (hd 1%nat h) 0) then Err AssertionError
    else if existsb (fun k => Nat.leb Nt k) h then Err IndexError
    else
      let v0 := if Nat.eqb (zi h) 1 then vset vzero 0 (fst (fft Nt x 0) / INR Nt) else vzero in
      Ok (fold_left (fun v i => let hi := nth (i + zi h) h O in
                      vset (vset v (2 * i + zi h) (fst (fft Nt x hi) / (INR Nt / 2)))
                           (2 * i + 1 + zi h) (- snd (fft Nt x hi) / (INR Nt / 2)))
                    (seq 0 (length h - zi h)) v0)
  end.

(** ---- harmonic_wise_conditioning, harmonic.py 323-396 ---- *)
Inductive delta_arg := DScalar (d : R) | DArray (d : vec) (len : nat).

Definition vmean (a b : nat) (X : vec) : R := rsum (b - a) (fun i => Rabs (X (a + i)%nat)) / INR (b - a).

(** CtoP[a:b] = np.maximum(CtoP[a:b], np.mean(np.abs(X[a:b]))), line 391 *)
Definition cond_slice (X : vec) (a b : nat) (C : vec) : vec :=
  fun i => if (Nat.leb a i && Nat.ltb i b)%bool then Rmax (C i) (vmean a b X) else C i.

(** the loop 380-391 over the remaining harmonics; [hindex] the index of the next one *)
Fixpoint cond_loop (X : vec) (Ndof hindex haszero : nat) (hs : list nat) (C : vec) : result vec :=
  match hs with
  | [] => Ok C
  | k :: hs' =>
      if Nat.eqb k 0
      then if Nat.eqb hindex 0
           then cond_loop X Ndof (S hindex) 1 hs' (cond_slice X 0 Ndof C)
           else Err AssertionError
      else cond_loop X Ndof (S hindex) haszero hs'
             (cond_slice X ((2 * hindex - haszero) * Ndof) ((2 * hindex + 2 - haszero) * Ndof) C)
  end.

(** [len] is X.shape[0]; len >= Nhc*Ndof is assumed (a shorter X is not modelled).
    Result: number of entries and entries of CtoP. *)
Definition harmonic_wise_conditioning (X : vec) (len Ndof : nat) (h : list nat) (delta : delta_arg)
  : result (nat * vec) :=
  do nhc <- Nhc h;
  let m := (len - nhc * Ndof)%nat in
  let extras := Nat.ltb 0 m in
  do (n, C) <- (match delta with
       | DScalar d => Ok (len, fun _ => d)
       | DArray d dlen =>
           (* ones((2*Ndof, H+extras))*atleast_2d(delta), column-major, then [Ndof*h0:] *)
           let cols := (length h + (if extras then 1 else 0))%nat in
           if negb (Nat.eqb dlen cols || Nat.eqb dlen 1) then Err ValueError
           else
             let off := (Ndof * zi h)%nat in
             let full := (2 * Ndof * cols - off)%nat in
             let v := fun i => d (if Nat.eqb dlen 1 then O else ((i + off) / (2 * Ndof))%nat) in
             (* CtoP[:(m-2*Ndof)] with Python's negative index *)
             let n := if extras
                      then if Nat.ltb m (2 * Ndof) then (full - (2 * Ndof - m))%nat
                           else Nat.min full (m - 2 * Ndof)
                      else full in
             Ok (n, v)
       end);
  do C1 <- cond_loop X Ndof 0 0 h C;
  if extras
  then if Nat.ltb n m then Err ValueError      (* CtoP[-m:] is shorter than X[-m:] *)
       else Ok (n, fun i => if (Nat.leb (n - m) i && Nat.ltb i n)%bool
                            then Rmax (C1 i) (Rabs (X (len - m + (i - (n - m)))%nat)) else C1 i)
  else Ok (n, C1).

(** ---- zero_crossing, harmonic.py 655-685 ([tol] = None is the default numpy.inf) ---- *)
Definition zero_crossing (n : nat) (X : vec) (tol : option R) (i : nat) : bool :=
  ((match tol with None => true | Some t => Rltb (Rabs (X i)) t end)
   && (Nat.ltb (S i) n && Rltb (X i * X (S i)) 0))%bool.

(** ---- shift_pm_pi, harmonic.py 687-710; Python float remainder a % 2 = a - 2*floor(a/2) ---- *)
Definition Rfloor (x : R) : Z := (up x - 1)%Z.
Definition fmod (a b : R) : R := a - b * IZR (Rfloor (a / b)).
Definition shift_pm_pi (phase : R) : R := fmod (phase + PI) 2 * PI - PI.

(** ---- rotate_subtract_phase, harmonic.py 712-790: one solution row ---- *)
Definition rot_step (U : vec) (Ndof : nat) (h : list nat) (p1 : R) (acc : vec) (hi : nat) : vec :=
  let h0 := zi h in
  let k := INR (nth (hi + h0) h O) in
  let c0 := ((h0 + 2 * hi) * Ndof)%nat in
  let c1 := ((h0 + 2 * hi + 1) * Ndof)%nat in
  let c2 := ((h0 + 2 * hi + 2) * Ndof)%nat in
  let acc1 := fun i => if (Nat.leb c0 i && Nat.ltb i c1)%bool
                       then U i * cos (k * p1) - U (c1 + (i - c0))%nat * sin (k * p1) else acc i in
  fun i => if (Nat.leb c1 i && Nat.ltb i c2)%bool
           then U (c0 + (i - c1))%nat * sin (k * p1) + U i * cos (k * p1) else acc1 i.
Definition rotate_subtract_phase (U : vec) (Ndof : nat) (h : list nat) (phase_angle : R) (h_rotate : nat) : vec :=
  fold_left (rot_step U Ndof h (phase_angle / INR h_rotate)) (seq 0 (length h - zi h)) U.
