(** Forward-mode automatic differentiation with values that need not be finite, for the rough contact element.
    A traced number has a value and tangents with respect to the inputs that are differentiated (as in JaxDual.v).  Either is None when it
    is not a finite number: nan or infinite (which of the two is not recorded).  Arithmetic with None gives None, comparisons with None
    are false and jnp.where takes value and tangents of the selected branch.  That is exact for nan; the theorems show where None occurs.
    The rules are those of the JAX primitives (an external library, part of the trusted base). *)
From Coq Require Import Reals List Arith Bool.
From Verif.Lib Require Import RSum Py.
From Verif.Model Require Import JaxDual.
Import ListNotations.
Open Scope R_scope.

Record fdual := mkF { fval : option R; ftan : option vec }.

Definition fnan : fdual := mkF None None.
Definition fconst (c : R) : fdual := mkF (Some c) (Some (fun _ => 0)).
(** a number that is not differentiated, e.g. a stored history value *)
Definition fstored (o : option R) : fdual := match o with Some c => fconst c | None => fnan end.
Definition fdual_of (x : dual) : fdual := mkF (Some (dv x)) (Some (dt x)).

(** g is the function and g' its derivative; both may be undefined (not finite) at a point *)
Definition fun1 (g g' : R -> option R) (x : fdual) : fdual :=
  match fval x with
  | None => fnan
  | Some a =>
    match g a with
    | None => fnan
    | Some y => mkF (Some y) (match g' a, ftan x with Some d, Some t => Some (fun i => d * t i) | _, _ => None end)
    end
  end.
Definition fun2 (g ga gb : R -> R -> option R) (x y : fdual) : fdual :=
  match fval x, fval y with
  | Some a, Some b =>
    match g a b with
    | None => fnan
    | Some z => mkF (Some z) (match ga a b, gb a b, ftan x, ftan y with
                              | Some da, Some db, Some t, Some s => Some (fun i => da * t i + db * s i)
                              | _, _, _, _ => None end)
    end
  | _, _ => fnan
  end.

Definition fadd := fun2 (fun a b => Some (a + b)) (fun _ _ => Some 1) (fun _ _ => Some 1).
Definition fsub := fun2 (fun a b => Some (a - b)) (fun _ _ => Some 1) (fun _ _ => Some (-1)).
Definition fmul := fun2 (fun a b => Some (a * b)) (fun _ b => Some b) (fun a _ => Some a).
Definition fdiv :=
  fun2 (fun a b => if Reqb b 0 then None else Some (a / b)) (fun _ b => if Reqb b 0 then None else Some (/ b))
       (fun a b => if Reqb b 0 then None else Some (- a / (b * b))).
(** multiplication by a constant *)
Definition fscal (c : R) := fun1 (fun a => Some (c * a)) (fun _ => Some c).
(** division by a constant that is not zero *)
Definition fdivc (x : fdual) (c : R) := fun1 (fun a => Some (a / c)) (fun _ => Some (/ c)) x.
Definition fsqrt := fun1 (fun a => if Rltb a 0 then None else Some (sqrt a)) (fun a => if Rltb 0 a then Some (/ (2 * sqrt a)) else None).
(** x ** p with a constant p > 0 that is not an integer; d/dx = p x ** (p - 1) *)
Definition powr (a p : R) : option R := if Rltb a 0 then None else if Reqb a 0 then Some 0 else Some (Rpower a p).
Definition fpow (x : fdual) (p : R) : fdual :=
  fun1 (fun a => powr a p)
       (fun a => if Rltb 0 a then Some (p * Rpower a (p - 1)) else if Rltb 1 p then Some 0 else None) x.
(** x ** n with an integer n *)
Definition fipow (x : fdual) (n : nat) : fdual := fun1 (fun a => Some (a ^ n)) (fun a => Some (INR n * a ^ (n - 1))) x.
(** c ** x with a constant c > 0 *)
Definition fcpow (c : R) (x : fdual) : fdual := fun1 (fun a => Some (Rpower c a)) (fun a => Some (ln c * Rpower c a)) x.
Definition fexp := fun1 (fun a => Some (exp a)) (fun a => Some (exp a)).
Definition fcos := fun1 (fun a => Some (cos a)) (fun a => Some (- sin a)).

Definition fle (x y : fdual) : bool := match fval x, fval y with Some a, Some b => Rleb a b | _, _ => false end.
Definition flt (x y : fdual) : bool := match fval x, fval y with Some a, Some b => Rltb a b | _, _ => false end.
Definition fwhere (b : bool) (x y : fdual) : fdual := if b then x else y.

(** mean of the tangents, for equal arguments *)
Definition tmean (x y : fdual) : option vec :=
  match ftan x, ftan y with Some t, Some s => Some (fun i => (t i + s i) / 2) | _, _ => None end.
(** jnp.minimum and jnp.maximum propagate nan *)
Definition fmin (x y : fdual) : fdual :=
  match fval x, fval y with
  | Some a, Some b => if Rltb a b then x else if Rltb b a then y else mkF (Some a) (tmean x y)
  | _, _ => fnan
  end.
Definition fmax (x y : fdual) : fdual :=
  match fval x, fval y with
  | Some a, Some b => if Rltb b a then x else if Rltb a b then y else mkF (Some a) (tmean x y)
  | _, _ => fnan
  end.

(** sum of n terms *)
Fixpoint fsum (n : nat) (x : nat -> fdual) : fdual := match n with O => fconst 0 | S m => fadd (fsum m x) (x m) end.

(** x[:n].max() of finite numbers: the tangents are the mean of those of all entries equal to the maximum *)
Definition vmax (n : nat) (v : vec) : R := fold_left (fun a t => Rmax a (v t)) (seq 1 (n - 1)) (v O).
Definition fmaximum (n : nat) (x : nat -> dual) : fdual :=
  let mx := vmax n (fun t => dv (x t)) in
  let ties := filter (fun t => Reqb (dv (x t)) mx) (seq 0 n) in
  mkF (Some mx) (Some (fun i => fold_right Rplus 0 (map (fun t => dt (x t) i) ties) / INR (length ties))).

(** are all of the first n numbers finite? then these are they *)
Definition is_some {A} (o : option A) : bool := match o with Some _ => true | None => false end.
Definition getR (o : option R) : R := match o with Some v => v | None => 0 end.
Definition getV (o : option vec) : vec := match o with Some v => v | None => fun _ => 0 end.
Definition fdual_get (x : fdual) : dual := mkDual (getR (fval x)) (getV (ftan x)).
Definition all_values (n : nat) (x : nat -> fdual) : bool := forallb (fun t => is_some (fval (x t))) (seq 0 n).
Definition all_tangents (n : nat) (x : nat -> fdual) : bool := forallb (fun t => is_some (ftan (x t))) (seq 0 n).
