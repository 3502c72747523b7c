(** Vocabulary for statements about a change of coordinates u = V q: other numbering, modal coordinates, reduced models. *)
From Coq Require Import Reals List Arith.
From Verif.Lib Require Import RSum Py.
From Verif.Model Require Import VibSys SysElements Jenkins Iwan JaxFriction RoughContact SysHistory.
Import ListNotations.
Open Scope R_scope.

(** V has N rows (degrees of freedom) and n columns (coordinates).  Matrices of the system become V'AV, the columns of Q become the
    coordinates, and forces V'f. *)
Definition congruent (N : nat) (V A : mat) : mat := fun k m => rsum N (fun i => rsum N (fun j => V i k * A i j * V j m)).
Definition columns (N : nat) (V Q : mat) : mat := fun d m => rsum N (fun j => Q d j * V j m).
Definition rows (N : nat) (V T : mat) : mat := fun k d => rsum N (fun i => V i k * T i d).

(** harmonic coefficients: in each of the nb blocks, Y = V X *)
Definition expands (nb N n : nat) (V : mat) (X Y : vec) : Prop :=
  forall c i, (c < nb)%nat -> (i < N)%nat -> Y (c * N + i)%nat = rsum n (fun k => V i k * X (c * n + k)%nat).
(** forces and residuals: in each block, G = V'F *)
Definition projects (nb N n : nat) (V : mat) (F G : vec) : Prop :=
  forall c k, (c < nb)%nat -> (k < n)%nat -> G (c * n + k)%nat = rsum N (fun i => V i k * F (c * N + i)%nat).
(** Jacobians: in each block, B = V'AV *)
Definition projects_jacobian (nb N n : nat) (V A B : mat) : Prop :=
  forall c k c' m, (c < nb)%nat -> (k < n)%nat -> (c' < nb)%nat -> (m < n)%nat ->
    B (c * n + k)%nat (c' * n + m)%nat = congruent N V (fun i j => A (c * N + i)%nat (c' * N + j)%nat) k m.

(** both calls return related values, or both raise the same exception *)
Definition same_result {A B : Type} (P : A -> B -> Prop) (a : result A) (b : result B) : Prop :=
  match a, b with Ok x, Ok y => P x y | Err x, Err y => x = y | _, _ => False end.
(** both values are finite and related, or both are not *)
Definition both {A B : Type} (P : A -> B -> Prop) (a : option A) (b : option B) : Prop :=
  match a, b with Some x, Some y => P x y | None, None => True | _, _ => False end.

(** the same element in the coordinates of V *)
Inductive same_class (N n : nat) (V : mat) : nlforce -> nlforce -> Prop :=
| same_cubic nnl Q T k : same_class N n V (cubic_nl N nnl Q T k) (cubic_nl n nnl (columns N V Q) (rows N V T) k)
| same_quintic nnl Q T k : same_class N n V (quintic_nl N nnl Q T k) (quintic_nl n nnl (columns N V Q) (rows N V T) k)
| same_damping nnl Q T c : same_class N n V (damping_nl N nnl Q T c) (damping_nl n nnl (columns N V Q) (rows N V T) c)
| same_unilateral nnl Q T k Np delta :
    same_class N n V (unilateral_nl N nnl Q T k Np delta) (unilateral_nl n nnl (columns N V Q) (rows N V T) k Np delta)
| same_iwan nnl Q T kt Fs chi beta :
    same_class N n V (iwan_nl N nnl Q T kt Fs chi beta) (iwan_nl n nnl (columns N V Q) (rows N V T) kt Fs chi beta)
| same_poly nnl cnl Q T E qq : same_class N n V (poly_nl N nnl cnl Q T E qq) (poly_nl n nnl cnl (columns N V Q) (rows N V T) E qq)
| same_jenkins s Q T : same_class N n V (jenkins_nl s N Q T) (jenkins_nl s n (columns N V Q) (rows N V T)).

Inductive same_element (N n : nat) (V : mat) : element -> element -> Prop :=
| same_instant f g : same_class N n V f g -> same_element N n V (ElInstant f) (ElInstant g)
| same_el_jenkins Q T s : same_element N n V (ElJenkins Q T s) (ElJenkins (columns N V Q) (rows N V T) s)
| same_el_iwan Q T s : same_element N n V (ElIwan Q T s) (ElIwan (columns N V Q) (rows N V T) s)
| same_el_eldry p ne Q T s : same_element N n V (ElEldry p ne Q T s) (ElEldry p ne (columns N V Q) (rows N V T) s)
| same_el_rough Q T r s : same_element N n V (ElRough Q T r s) (ElRough (columns N V Q) (rows N V T) r s)
| same_el_jax Q T kt u0 Fs rf pf :
    same_element N n V (ElJaxJenkins Q T kt u0 Fs rf pf) (ElJaxJenkins (columns N V Q) (rows N V T) kt u0 Fs rf pf).

(** the same calls, with displacements u = V q *)
Definition same_call (N n : nat) (V : mat) (a b : sys_call) : Prop :=
  match a, b with
  | SInit, SInit | SPrestress, SPrestress | SReset, SReset => True
  | SUpdate U, SUpdate q | SAftInit U, SAftInit q => expands 1 N n V q U
  | SStatic U F, SStatic q G => expands 1 N n V q U /\ projects 1 N n V F G
  | _, _ => False
  end.

(** the whole system in the coordinates of V *)
Definition same_system (N n : nat) (V : mat) (s r : vibsys) : Prop :=
  vs_N s = N /\ vs_N r = n /\ vs_M r = congruent N V (vs_M s) /\ vs_C r = congruent N V (vs_C s) /\ vs_K r = congruent N V (vs_K s) /\
  Forall2 (same_class N n V) (vs_forces s) (vs_forces r).
