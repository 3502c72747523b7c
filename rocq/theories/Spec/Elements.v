(** Documented laws of the instantaneous elements, written without reference to the model. *)
From Coq Require Import Reals List Arith.
From Verif.Lib Require Import RSum Py.
From Verif.Spec Require Import Calculus Harmonic.
Open Scope R_scope.

(** spring with a gap delta, stiffness k and preload Np *)
Definition unilateral_law (k Np delta u : R) : R :=
  if Rle_dec u delta then - Np else k * (u - delta) - Np.

(** u_0^e_0 * u_1^e_1 * ... * u_(n-1)^e_(n-1) *)
Definition monomial (n : nat) (e : nat -> nat) (u : vec) : R :=
  fold_right Rmult 1 (map (fun j => u j ^ e j) (seq 0 n)).

(** displacement at which macroslip starts *)
Definition macroslip (kt Fs chi beta : R) : R :=
  Fs * (1 + beta) / (kt * (beta + (chi + 1) / (chi + 2))).

(** loading curve of the 4-parameter Iwan model: microslip up to [macroslip], then Fs *)
Definition iwan_loading (kt Fs chi beta a : R) : R :=
  if Rlt_dec a (macroslip kt Fs chi beta)
  then kt * a - kt * a / ((1 + beta) * (chi + 2)) * Rpower (a / macroslip kt Fs chi beta) (1 + chi)
  else Fs.

(** force of the backbone at displacement u *)
Definition iwan_backbone (kt Fs chi beta u : R) : R :=
  if Rlt_dec u 0 then - iwan_loading kt Fs chi beta (- u)
  else if Rlt_dec 0 u then iwan_loading kt Fs chi beta u else 0.

(** at each of the Nt samples of the motion U at frequency w, fu and fv are the derivatives of the
    local forces f with respect to local displacement and velocity *)
Definition exact_samples (N nnl : nat) (Q : mat) (f fu fv : nat -> R -> R -> R) (h : list nat) (Nt : nat)
           (U : vec) (w : R) : Prop :=
  forall d n (v : R), (d < nnl)%nat -> (n < Nt)%nat ->
    derivable_pt_lim (local_motion N Q h U d) (sample_phase Nt n) v ->
    exact_partials (f d) (local_motion N Q h U d (sample_phase Nt n)) (w * v)
      (fu d (local_motion N Q h U d (sample_phase Nt n)) (w * v))
      (fv d (local_motion N Q h U d (sample_phase Nt n)) (w * v)).

(** first harmonic coefficient of the local displacement 0 *)
Definition local_first_coef (N : nat) (Q : mat) (U : vec) : R := rsum N (fun j => Q O j * U j).

(** What an alternating frequency-time evaluation should return for the local forces f: for every
    coefficient vector U and frequency w the call succeeds with (F, dU, dw) where
    - F holds the Fourier coefficients of the sampled forces T f(Q u, Q du/dt),
    - dU is the Jacobian of F with respect to U, and
    - for w <> 0, dU and dw are together the derivative of F with respect to (U, w),
    the last two wherever [regular] holds. *)
Definition aft_is_exact (aft : vec -> R -> result (vec * mat * vec)) (N nnl : nat) (Q T : mat)
           (f : nat -> R -> R -> R) (h : list nat) (Nt : nat) (regular : vec -> R -> Prop) : Prop :=
  let m := (length (components h) * N)%nat in
  exists (F : vec -> R -> vec) (dU : vec -> R -> mat) (dw : vec -> R -> vec),
    (forall U w, aft U w = Ok (F U w, dU U w, dw U w)) /\
    (forall U w (v : nat -> R -> R), (forall d tau, derivable_pt_lim (local_motion N Q h U d) tau (v d tau)) ->
       forall c i, (c < length (components h))%nat -> (i < N)%nat ->
         F U w (c * N + i)%nat = fourier_coef Nt (fun n => rsum nnl (fun d => T i d *
             f d (local_motion N Q h U d (sample_phase Nt n)) (w * v d (sample_phase Nt n))))
             (nth c (components h) (Cos O))) /\
    (forall U w, regular U w -> is_jacobian m m (fun U => F U w) U (dU U w)) /\
    (forall U w, w <> 0 -> regular U w -> is_joint_jacobian m m F U w (dU U w) (dw U w)).
