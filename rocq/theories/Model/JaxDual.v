(** Forward-mode automatic differentiation as used by the JAX elements (jax.jacfwd).
    Every traced number is a value with its tangents with respect to the inputs that are differentiated.
    The rules are those of the JAX primitives (an external library, part of the trusted base):
    linear operations act on value and tangents alike, jnp.minimum and jnp.maximum take the tangents of the selected
    argument and the mean of both tangents when the two values are equal, jnp.where takes those of the selected branch. *)
From Coq Require Import Reals List Arith Bool.
From Verif.Lib Require Import RSum Py.
From Verif.Model Require Import Harmonic LocalForces Aft.
Open Scope R_scope.

Record dual := mkDual { dv : R; dt : vec }.

Definition dconst (c : R) : dual := mkDual c (fun _ => 0).
Definition dadd (x y : dual) : dual := mkDual (dv x + dv y) (fun i => dt x i + dt y i).
Definition dsub (x y : dual) : dual := mkDual (dv x - dv y) (fun i => dt x i - dt y i).
Definition dscal (a : R) (x : dual) : dual := mkDual (a * dv x) (fun i => a * dt x i).
Definition dmean (v : R) (x y : dual) : dual := mkDual v (fun i => (dt x i + dt y i) / 2).
(** jnp.minimum and jnp.maximum *)
Definition dmin (x y : dual) : dual :=
  if Rltb (dv x) (dv y) then x else if Rltb (dv y) (dv x) then y else dmean (dv x) x y.
Definition dmax (x y : dual) : dual :=
  if Rltb (dv y) (dv x) then x else if Rltb (dv x) (dv y) then y else dmean (dv x) x y.
(** jnp.where on a traced condition *)
Definition dwhere (b : bool) (x y : dual) : dual := if b then x else y.

(** The inputs of jacfwd: input i has tangent 1 with respect to itself. *)
Definition dseed (x : vec) (i : nat) : dual := mkDual (x i) (fun j => if Nat.eqb j i then 1 else 0).

(** jhutils.time_series_deriv(Nt, htuple, X, 0) and jhutils.get_fourier_coeff(htuple, x),
    /repo/tmdsimpy/jax/harmonic_utils.py 26-222, column by column.  They are linear, so the tangents are
    transformed like the values.  X c d is component c of column d; the result is indexed by time and column. *)
Definition ts_dual (Nt : nat) (h : list nat) (X : nat -> nat -> dual) : result (nat * (nat -> nat -> dual)) :=
  do (n, x) <- ts_cols Nt h (fun d c => dv (X c d)) 0;
  Ok (n, fun t d => mkDual (x d t)
                      (fun i => match time_series_deriv Nt h (fun c => dt (X c d) i) 0 with Ok (_, y) => y t | Err _ => 0 end)).
Definition gfc_dual (h : list nat) (n : nat) (x : nat -> nat -> dual) : result (nat -> nat -> dual) :=
  do F <- gfc_cols h n (fun d t => dv (x t d));
  Ok (fun c d => mkDual (F d c)
                   (fun i => match get_fourier_coeff h n (fun t => dt (x t d) i) with Ok v => v c | Err _ => 0 end)).

(** jax.lax.fori_loop(a, b, body, init) *)
Definition fori_loop {A} (a b : nat) (body : nat -> A -> A) (init : A) : A := fold_left (fun x i => body i x) (seq a (b - a)) init.

(** The part shared by the aft methods of the JAX elements, e.g. elastic_dry_fric_2d.py 308-373 (with calc_grad) and 646-686:
    local_coefs h n ... maps the local coefficients (component, local degree of freedom), seeded for differentiation, to the
    local force coefficients.  Uwlocal holds the nhc*nnl local coefficients, component by component, and the frequency last.
    647: Ndnl = int(Uwlocal.shape[0] / Nhc); the reshape on 655 raises TypeError if that does not fit.
    367-369: the frequency derivative is reshaped row by row (not 'F'). *)
Definition jax_aft (N nnl : nat) (Q T : mat) (local_coefs : (nat -> nat -> dual) -> result (nat -> nat -> dual))
           (U : vec) (w : R) (h : list nat) : result (vec * mat * vec) :=
  let nhc := aft_Nhc h in
  let Uwlocal := dseed (fun i => if Nat.ltb i (nhc * nnl) then aft_Unl N Q U (i / nnl) (i mod nnl) else w) in
  do nhc' <- Nhc h;
  if Nat.eqb nhc' 0 then Err ZeroDivisionError else
  let Ndnl := ((nhc * nnl + 1) / nhc')%nat in
  if negb (Nat.eqb (Ndnl * nhc') (nhc * nnl)) then Err TypeError else
  do F <- local_coefs (fun c d => Uwlocal (c * nnl + d)%nat);
  let Flocal := fun r => F (r / nnl)%nat (r mod nnl)%nat in
  let J : mat := fun r s => dt (Flocal r) s in
  Ok (aft_global N nnl T (fun d c => dv (F c d)),
      aft_dU N nnl nhc Q T J,
      fun r => matvec nnl T (fun d => J (d * nhc + r / N)%nat (nhc * nnl)%nat) (r mod N)%nat).
