(** Specification: what "derivative" and "Jacobian" mean in the property theorems.
    Only the standard library's [derivable_pt_lim] is used. *)
From Coq Require Import Reals.
From Verif.Lib Require Import RSum.
Open Scope R_scope.

(** J (with n columns) is the Jacobian of F (n inputs, m outputs) at X:
    along every curve g through X whose first n coordinates are differentiable at t0 with velocity v,
    every output F_i(g(t)) is differentiable at t0 with derivative sum_j J i j * v j. *)
Definition is_jacobian (n m : nat) (F : vec -> vec) (X : vec) (J : mat) : Prop :=
  forall (g : R -> vec) (v : vec) (t0 : R),
    (forall j, (j < n)%nat -> g t0 j = X j) ->
    (forall j, (j < n)%nat -> derivable_pt_lim (fun t => g t j) t0 (v j)) ->
    forall i, (i < m)%nat ->
      derivable_pt_lim (fun t => F (g t) i) t0 (rsum n (fun j => J i j * v j)).

(** the same for a scalar-valued function *)
Definition is_gradient (n : nat) (f : vec -> R) (X : vec) (G : vec) : Prop :=
  forall (g : R -> vec) (v : vec) (t0 : R),
    (forall j, (j < n)%nat -> g t0 j = X j) ->
    (forall j, (j < n)%nat -> derivable_pt_lim (fun t => g t j) t0 (v j)) ->
    derivable_pt_lim (fun t => f (g t)) t0 (rsum n (fun j => G j * v j)).

(** the same for a function of a vector and a scalar (frequency): J and Jw are the derivatives of F with
    respect to both arguments at (X, w), valid along every curve that moves both together *)
Definition is_joint_jacobian (n m : nat) (F : vec -> R -> vec) (X : vec) (w : R) (J : mat) (Jw : vec) : Prop :=
  forall (g : R -> vec) (v : vec) (om : R -> R) (dom t0 : R),
    (forall j, (j < n)%nat -> g t0 j = X j) -> om t0 = w ->
    (forall j, (j < n)%nat -> derivable_pt_lim (fun t => g t j) t0 (v j)) ->
    derivable_pt_lim om t0 dom ->
    forall i, (i < m)%nat ->
      derivable_pt_lim (fun t => F (g t) (om t) i) t0 (rsum n (fun j => J i j * v j) + Jw i * dom).

(** replace coordinate j of X by t *)
Definition upd (X : vec) (j : nat) (t : R) : vec := fun k => if Nat.eqb k j then t else X k.

(** ordinary partial derivatives: entry (i,j) is dF_i/dX_j *)
Definition partials (n m : nat) (F : vec -> vec) (X : vec) (J : mat) : Prop :=
  forall i j, (i < m)%nat -> (j < n)%nat ->
    derivable_pt_lim (fun t => F (upd X j t) i) (X j) (J i j).

(** directional derivatives *)
Definition directional (n m : nat) (F : vec -> vec) (X : vec) (J : mat) : Prop :=
  forall v i, (i < m)%nat ->
    derivable_pt_lim (fun t => F (fun k => X k + t * v k) i) 0 (rsum n (fun j => J i j * v j)).

(** a and b are the partial derivatives of f at (u, v), in the sense of the chain rule along every
    differentiable curve through (u, v) *)
Definition exact_partials (f : R -> R -> R) (u v a b : R) : Prop :=
  forall (x y : R -> R) (t dx dy : R), x t = u -> y t = v ->
    derivable_pt_lim x t dx -> derivable_pt_lim y t dy ->
    derivable_pt_lim (fun s => f (x s) (y s)) t (a * dx + b * dy).
