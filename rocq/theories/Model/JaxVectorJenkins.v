(** Model of the JAX vectorised Jenkins element, /repo/tmdsimpy/jax/nlforces/vector_jenkins.py (one local degree of freedom,
    as the class requires).  Arrays of traced numbers as in Model/JaxDual.v; comparisons and signs only see the values. *)
From Coq Require Import Reals List Arith Bool.
From Verif.Lib Require Import RSum Py.
From Verif.Model Require Import Harmonic LocalForces Aft JaxDual JaxFriction.
Import ListNotations.
Open Scope R_scope.

(** dup, dun and vector_set, 312-316: jnp.roll wraps around; vector_set[0] = True *)
Definition jv_dup (Nt : nat) (u : nat -> R) (i : nat) : R := u i - u (prev_row Nt i).
Definition jv_dun (Nt : nat) (u : nat -> R) (i : nat) : R := u ((i + 1) mod Nt)%nat - u i.
Definition jv_vector_set (Nt : nat) (u : nat -> R) (i : nat) : bool :=
  if Nat.eqb i 0 then true else negb (Reqb (Rsign (jv_dup Nt u i)) (Rsign (jv_dun Nt u i))).

(** the indices of jax.lax.top_k(vector_set, k), 322: the true entries first, equal entries in the order of their index.
    top_k raises if k exceeds the number of entries. *)
Definition top_k (Nt k : nat) (b : nat -> bool) : result (list nat) :=
  if Nat.ltb Nt k then Err ValueError
  else Ok (firstn k (filter b (seq 0 Nt) ++ filter (fun i => negb (b i)) (seq 0 Nt))).

(** jnp.sort, 324 *)
Fixpoint insert (x : nat) (l : list nat) : list nat :=
  match l with [] => [x] | y :: l' => if Nat.leb x y then x :: l else y :: insert x l' end.
Definition sort (l : list nat) : list nat := fold_right insert [] l.

(** one update of the loop over the kept points, 340-346; inds[cind-1] is the last entry for cind = 0 *)
Definition jv_body (inds : list nat) (unlt : nat -> nat -> dual) (kt Fs : R) (cind : nat) (ft : nat -> nat -> dual) : nat -> nat -> dual :=
  let i := nth cind inds O in
  let p := nth (prev_row (length inds) cind) inds O in
  let fcurr := fun d => dmin (dadd (dscal kt (dsub (unlt i d) (unlt p d))) (ft p d)) (dconst Fs) in
  aset ft i (fun d => dmax (fcurr d) (dconst (- Fs))).

(** 332-374: the slider start at the last kept point, two passes over the kept points, and one pass of the ordinary loop from
    sample 1 on.  (inds is extended by Nt on 348 and not used afterwards.) *)
Definition jv_run (Nt : nat) (inds : list nat) (unlt : nat -> nat -> dual) (kt Fs : R) (u0 : dual) : nat -> nat -> dual :=
  let lst := nth (length inds - 1) inds O in
  let ft0 := aset (fun _ _ => dconst 0) lst (fun d => dscal kt (dsub (unlt lst d) u0)) in
  let ft := fold_left (fun ft _ => fori_loop 0 (length inds) (jv_body inds unlt kt Fs) ft) (seq 0 2) ft0 in
  fori_loop 1 Nt (jj_body Nt unlt kt Fs) ft.

(** Ncrit = htuple[-1]*2+1, 320 *)
Definition jv_Ncrit (h : list nat) : nat := (last h O * 2 + 1)%nat.
Definition jv_inds (h : list nat) (Nt : nat) (u : nat -> R) : result (list nat) :=
  do inds <- top_k Nt (jv_Ncrit h) (jv_vector_set Nt u); Ok (sort inds).

(** _local_aft_jenkins, 235-400; u0 = None: Ulocal[0, 0:1] *)
Definition jv_local (kt Fs : R) (u0 : option R) (h : list nat) (Nt : nat) (Ulocal : nat -> nat -> dual)
  : result (nat -> nat -> dual) :=
  do (n, unlt) <- ts_dual Nt h Ulocal;
  do inds <- jv_inds h n (fun t => dv (unlt t O));
  let start := match u0 with None => Ulocal O O | Some x => dconst x end in
  gfc_dual h n (jv_run n inds unlt kt Fs start).

(** VectorJenkins.aft, 77-176 *)
Definition jax_vector_jenkins_aft (N : nat) (Q T : mat) (kt Fs : R) (u0 : option R) (U : vec) (w : R) (h : list nat) (Nt : nat)
  : result (vec * mat * vec) := jax_aft N 1 Q T (jv_local kt Fs u0 h Nt) U w h.
