(** Vocabulary of the continuation and solver properties. *)
From Coq Require Import Reals List Arith Bool ZArith.
From Verif.Lib Require Import RSum Py.
From Verif.Spec Require Import Calculus System.
From Verif.Model Require Import Solver Continuation.
Import ListNotations.
Open Scope R_scope.

(** inner product of the arc-length metric: weight b on the parameter (entry n), weight 1-b on the n unknowns, relative to
    the size of the reference point X0 *)
Definition arc_dot (n : nat) (b : R) (X0 u v : vec) : R :=
  (1 - b) / rsum n (fun i => X0 i ^ 2) * rsum n (fun i => u i * v i) + b * (u n * v n).
Definition nonzero (n : nat) (v : vec) : Prop := exists i, (i < n)%nat /\ v i <> 0.

(** y solves the first n equations A y = r *)
Definition solves (n : nat) (A : mat) (y r : vec) : Prop := forall i, (i < n)%nat -> rsum n (fun j => A i j * y j) = r i.

(** a residual function returning value and optional Jacobian has an exact Jacobian at X *)
Definition exact_square (n : nat) (res : vec -> bool -> result (vec * option mat)) (X : vec) : Prop :=
  exists (Rf : vec -> vec) (J : mat),
    (forall X', exists G, res X' true = Ok (Rf X', Some G)) /\ res X true = Ok (Rf X, Some J) /\ is_jacobian n n Rf X J.

(** the solver only reports success at points where the residuals are at most tol: n of them for the initial point (call 0),
    n + 1 afterwards *)
Definition sound_solver (n : nat) (tol : R) (W : world) : Prop :=
  forall k f x0 Xc nfev, w_nsolve W k f x0 = Ok (Xc, true, nfev) ->
    exists Rr G, f Xc true = Ok (Rr, G) /\ forall i, (i < (if Nat.eqb k 0 then n else n + 1))%nat -> Rabs (Rr i) <= tol.

(** the residual of the user at p is at most tol after scaling by s *)
Definition residual_below (W : world) (n : nat) (s tol : R) (p : vec) : Prop :=
  exists Rr G, w_fun W p true = Ok (Rr, G) /\ forall i, (i < n)%nat -> Rabs (s * Rr i) <= tol.

(** relation between consecutive elements *)
Fixpoint consecutive {A} (P : A -> A -> Prop) (l : list A) : Prop :=
  match l with x :: l' => match l' with y :: _ => P x y | [] => True end /\ consecutive P l' | [] => True end.

(** callback calls of a run, in order *)
Definition is_callback (e : event) : bool := match e with Attempt _ _ _ => false | _ => true end.
Definition callbacks (t : list event) : list event := filter is_callback t.

(** in the event list, a failed attempt with a step above dsmin is followed at once by an attempt with half the step (but not
    less than dsmin) and the same weight *)
Definition halving (dsmin : R) (t : list event) : Prop :=
  forall before ds b after, t = before ++ Attempt ds b false :: after -> dsmin < ds ->
    exists ok after', after = Attempt (Rmax (ds / 2) dsmin) b ok :: after'.

(** the residual function and the linear solver return (possibly with an exception of their own), and so does the solver when
    its function does *)
Definition world_returns (W : world) : Prop :=
  (forall X g, w_fun W X g <> Err NoReturn) /\ (forall k A b, w_lin W k A b <> Err NoReturn) /\
  (forall k f x0, (forall X g, f X g <> Err NoReturn) -> w_nsolve W k f x0 <> Err NoReturn).

(** continuation objects: a new one, or what a run has made of one *)
Inductive reachable : cont -> Prop :=
| reach_new CtoP RPtoC conf : reachable (cont_new CtoP RPtoC conf)
| reach_run self fuel W n X lam0 lam1 pts self' tr :
    reachable self -> continuation fuel W n self X lam0 lam1 = Ok (pts, self', tr) -> reachable self'.

(** the residual scaling of the object is the number r (1 if the user gave none) *)
Definition scaling (self : cont) (r : R) : Prop :=
  (k_setRPtoC self = true /\ r = 1) \/ (k_setRPtoC self = false /\ k_RPtoC self = Num r).

(** d is in the kernel of the Jacobian of the residual at p *)
Definition tangent (W : world) (n : nat) (p d : vec) : Prop :=
  forall Rr dX dl, w_fun W p true = Ok (Rr, Some (dX, dl)) ->
    forall i, (i < n)%nat -> rsum (n + 1) (fun j => hcat n dX dl i j * d j) = 0.
Definition sound_linear_solver (n : nat) (W : world) : Prop := forall k A r d, w_lin W k A r = Ok d -> solves (n + 1) A d r.

(** p' is what a successful call of the solver on the corrector equations started from p returned (in physical units) *)
Definition found_by (W : world) (n : nat) (corr : corrector) (p p' : vec) : Prop :=
  exists k CtoP RP b ds dirC x0 Xc nf, (0 < k)%nat /\
    w_nsolve W k (correct_res W n CtoP RP b corr (fun i => p i / CtoP i) ds dirC) x0 = Ok (Xc, true, nf) /\
    p' = (fun i => CtoP i * Xc i).

(** what a caller sees of a run *)
Definition outcome (r : result (list vec * cont * list event)) : result (list vec * list event) :=
  match r with Ok (pts, _, tr) => Ok (pts, tr) | Err e => Err e end.

(** conditions under which a run leaves the settings as they are *)
Definition kept_settings (self : cont) : Prop :=
  (0 <= c_verbose (k_conf self))%Z /\ c_FracLamList (k_conf self) = [c_FracLam (k_conf self)] /\
  (k_setCtoP self = true \/ c_DynamicCtoP (k_conf self) = false) /\
  (k_setRPtoC self = true \/ (c_DynamicCtoP (k_conf self) = false /\ exists r, k_RPtoC self = Num r)).

(** any number of earlier runs *)
Inductive after_runs (self : cont) : cont -> Prop :=
| ar_nil : after_runs self self
| ar_step self1 fuel W n X lam0 lam1 pts self2 tr : after_runs self self1 ->
    continuation fuel W n self1 X lam0 lam1 = Ok (pts, self2, tr) -> after_runs self self2.


(** the settings of the object: scaling of residual i and of unknown i (1 if the user gave none) *)
Definition residual_scale (self : cont) (i : nat) : R := if k_setRPtoC self then 1 else sc (k_RPtoC self) i.
Definition unknown_scale (self : cont) (i : nat) : R := if k_setCtoP self then 1 else k_CtoP self i.

(** m is the largest absolute value among the first n entries *)
Definition largest (n : nat) (d : vec) (m : R) : Prop := (exists i, (i < n)%nat /\ m = Rabs (d i)) /\ forall i, (i < n)%nat -> Rabs (d i) <= m.

(** with DynamicCtoP: the residual at p' is small relative to the largest diagonal entry of the Jacobian at p, its columns
    multiplied by the size of the unknowns at p (at least the size C given by the user); m = 0 is a division by zero in the code *)
Definition relative_below (W : world) (n : nat) (C : vec) (tol : R) (p p' : vec) : Prop :=
  exists Rr dX dl m, w_fun W p true = Ok (Rr, Some (dX, dl)) /\ largest n (fun i => dX i i * Rmax (Rabs (p i)) (C i)) m /\
    (0 < m -> residual_below W n 1 (tol * m) p').

(** what a caller sees of a run, apart from the length of the direction in the last callback call *)
Definition hide_end (e : event) : event := match e with CbEnd _ => CbEnd (fun _ => 0) | _ => e end.
Definition visible (r : result (list vec * cont * list event)) : result (list vec * list event) :=
  match r with Ok (pts, _, tr) => Ok (pts, map hide_end tr) | Err e => Err e end.

(** conditions under which a run leaves the settings as they are, apart from the weight FracLam *)
Definition kept_scales (self : cont) : Prop :=
  (0 <= c_verbose (k_conf self))%Z /\
  (k_setCtoP self = true \/ c_DynamicCtoP (k_conf self) = false) /\
  (k_setRPtoC self = true \/ (c_DynamicCtoP (k_conf self) = false /\ exists r, k_RPtoC self = Num r)).
