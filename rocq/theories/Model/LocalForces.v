(** Model of the instantaneous nonlinear elements of /repo/tmdsimpy/nlforces.
    A separable element has one law per local degree of freedom d: displacement and velocity give
    (force, d force/d displacement, d force/d velocity).  Arrays over local degrees of freedom are
    vectors indexed by d; a scalar parameter is a constant vector.  Every row (instant) of
    local_force_history is treated alike, so a row is modelled. *)
From Coq Require Import Reals List Arith Bool.
From Verif.Lib Require Import RSum Py.
Open Scope R_scope.

Definition local_law := nat -> R -> R -> R * R * R.
Definition law_f (l : local_law) d u v : R := fst (fst (l d u v)).
Definition law_du (l : local_law) d u v : R := snd (fst (l d u v)).
Definition law_dv (l : local_law) d u v : R := snd (l d u v).

(** CubicForce.local_force_history, cubic_stiffness.py 56-97 *)
Definition cubic_history (kalpha : vec) : local_law :=
  fun d u _ => (kalpha d * u ^ 3, 3 * kalpha d * u ^ 2, 0).

(** QuinticForce.local_force_history, quintic_stiffness.py 54-95 *)
Definition quintic_history (kalpha : vec) : local_law :=
  fun d u _ => (kalpha d * u ^ 5, 5 * kalpha d * u ^ 4, 0).

(** CubicDamping.local_force_history, cubic_damping.py 66-107 *)
Definition damping_history (calpha : vec) : local_law :=
  fun d _ v => (calpha d * v ^ 3, 0, 3 * calpha d * v ^ 2).

(** UnilateralSpring.local_force_history, unilateral_spring.py 84-129 *)
Definition unilateral_history (k Npreload delta : vec) : local_law :=
  fun d u _ =>
    let f := Rmax (k d * (u - delta d) - Npreload d) (- Npreload d) in
    (f, k d * (if Rltb (- Npreload d) f then 1 else 0), 0).

(** numpy float power x**y for x >= 0 (y > 0 whenever x = 0 in the modelled uses) *)
Definition npow (x y : R) : R :=
  if Reqb x 0 then (if Reqb y 0 then 1 else 0) else Rpower x y.

(** ConservativeIwanBB: phi_max and coef_E, iwan_bb_conserve.py 82-87 and 147-152 *)
Definition iwan_phi_max (kt Fs chi beta : R) : R :=
  Fs * (1 + beta) / (kt * (beta + (chi + 1) / (chi + 2))).
Definition iwan_coef_E (kt Fs chi beta : R) : R :=
  kt * npow (kt * (beta + (chi + 1) / (chi + 2)) / (Fs * (1 + beta))) (1 + chi)
  / ((1 + beta) * (chi + 2)).

(** ConservativeIwanBB.local_force_history, iwan_bb_conserve.py 106-164 *)
Definition iwan_history (kt Fs chi beta : R) : local_law :=
  fun _ u _ =>
    let phi_max := iwan_phi_max kt Fs chi beta in
    let E := iwan_coef_E kt Fs chi beta in
    let s := Rsign u in
    let a := s * u in
    let below := if Rltb a phi_max then 1 else 0 in
    let above := if Rleb phi_max a then 1 else 0 in
    (((kt * a - E * npow a (2 + chi)) * below + Fs * above) * s,
     (kt - E * (2 + chi) * npow a (1 + chi)) * below, 0).

(** diag(v) *)
Definition mdiag (v : vec) : mat := fun i j => if Nat.eqb i j then v i else 0.

(** the method force of the separable elements: unl = Q X, F = T f(unl), dFdX = T diag(f') Q.
    CubicForce.force, cubic_stiffness.py 28-54 *)
Definition cubic_force (N nnl : nat) (Q T : mat) (kalpha X : vec) : vec * mat :=
  let unl := matvec N Q X in
  (matvec nnl T (fun d => kalpha d * unl d ^ 3),
   matmul nnl (matmul nnl T (mdiag (fun d => 3 * kalpha d * unl d ^ 2))) Q).

(** QuinticForce.force, quintic_stiffness.py 26-52 *)
Definition quintic_force (N nnl : nat) (Q T : mat) (kalpha X : vec) : vec * mat :=
  let unl := matvec N Q X in
  (matvec nnl T (fun d => kalpha d * unl d ^ 5),
   matmul nnl (matmul nnl T (mdiag (fun d => 5 * kalpha d * unl d ^ 4))) Q).

(** CubicDamping.force (its argument is the velocity), cubic_damping.py 33-64 *)
Definition damping_force (N nnl : nat) (Q T : mat) (calpha V : vec) : vec * mat :=
  let unldot := matvec N Q V in
  (matvec nnl T (fun d => calpha d * unldot d ^ 3),
   matmul nnl (matmul nnl T (mdiag (fun d => 3 * calpha d * unldot d ^ 2))) Q).

(** UnilateralSpring.force, unilateral_spring.py 54-82 *)
Definition unilateral_force (N nnl : nat) (Q T : mat) (k Npreload delta X : vec) : vec * mat :=
  let unl := matvec N Q X in
  let fnl := fun d => Rmax (k d * (unl d - delta d) - Npreload d) (- Npreload d) in
  (matvec nnl T fnl,
   matmul nnl (matmul nnl T (mdiag (fun d => (if Rltb (- Npreload d) (fnl d) then 1 else 0) * k d))) Q).

(** ConservativeIwanBB.force, iwan_bb_conserve.py 60-104 *)
Definition iwan_force (N nnl : nat) (Q T : mat) (kt Fs chi beta : R) (X : vec) : vec * mat :=
  let unl0 := matvec N Q X in
  let phi_max := iwan_phi_max kt Fs chi beta in
  let E := iwan_coef_E kt Fs chi beta in
  let s := fun d => Rsign (unl0 d) in
  let unl := fun d => s d * unl0 d in
  (matvec nnl T (fun d => ((kt * unl d - E * npow (unl d) (2 + chi)) * (if Rltb (unl d) phi_max then 1 else 0)
                           + Fs * (if Rleb phi_max (unl d) then 1 else 0)) * s d),
   matmul nnl (matmul nnl T (mdiag (fun d => (kt - E * (2 + chi) * npow (unl d) (1 + chi))
                                             * (if Rltb (unl d) phi_max then 1 else 0)))) Q).

(** product over indices, np.prod *)
Fixpoint rprod (n : nat) (f : nat -> R) : R :=
  match n with O => 1 | S n' => rprod n' f * f n' end.

(** GenPolyForce.__init__, general_poly_stiffness.py 41-51: qd[i,c,j] (exponents of the derivative by
    local displacement i); qq c j are the exponents *)
Definition poly_qd (qq : nat -> nat -> nat) (i c j : nat) : nat :=
  if Nat.eqb j i then (qq c j - (if Nat.eqb (qq c j) 0 then 0 else 1))%nat else qq c j.

(** np.prod(unl ** qq, axis=1) and qq * np.prod(unl ** qd, axis=2).T *)
Definition poly_terms (nnl : nat) (qq : nat -> nat -> nat) (unl : vec) : vec :=
  fun c => rprod nnl (fun j => unl j ^ qq c j).
Definition poly_dterms (nnl : nat) (qq : nat -> nat -> nat) (unl : vec) : mat :=
  fun c i => INR (qq c i) * rprod nnl (fun j => unl j ^ poly_qd qq i c j).

(** one row of GenPolyForce.local_force_history, general_poly_stiffness.py 82-129 *)
Definition poly_history (nnl cnl : nat) (Emat : mat) (qq : nat -> nat -> nat) (unl : vec) : vec * mat :=
  (matvec cnl Emat (poly_terms nnl qq unl), matmul cnl Emat (poly_dterms nnl qq unl)).

(** GenPolyForce.force, general_poly_stiffness.py 53-80 *)
Definition poly_force (N nnl cnl : nat) (Q T Emat : mat) (qq : nat -> nat -> nat) (X : vec) : vec * mat :=
  let unl := matvec N Q X in
  (matvec nnl T (matvec cnl Emat (poly_terms nnl qq unl)),
   matmul nnl (matmul cnl (matmul nnl T Emat) (poly_dterms nnl qq unl)) Q).
