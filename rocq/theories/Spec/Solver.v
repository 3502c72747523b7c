(** Vocabulary of the nonlinear solver properties. *)
From Coq Require Import Reals List Arith Bool.
From Verif.Lib Require Import RSum Py.
From Verif.Model Require Import JaxSolver.
Import ListNotations.
Open Scope R_scope.

(** the quantity each tolerance is documented for (class documentation, jax/solvers.py 43-62) *)
Definition documented_value (m : measures) (k : tol_name) : option R :=
  match k with Xtol => m_u m | Rtol => m_r m | Etol => m_e m | XtolRel => m_u_rel m | RtolRel => m_r_rel m | EtolRel => m_e_rel m end.

Definition below (v t : option R) : Prop := exists x y, v = Some x /\ t = Some y /\ Rabs x < y.

(** the inverse Hessian approximation of BFGS (Nocedal and Wright, 6.17) as an operator; latest pair (s, y) first:
    H+ = (I - rho s y') H (I - rho y s') + rho s s',  rho = 1 / (s . y) *)
Fixpoint bfgs_inverse (n : nat) (H0 : vec -> vec) (ps : list (vec * vec)) (v : vec) : vec :=
  match ps with
  | [] => H0 v
  | (s, y) :: older =>
      let rho := 1 / dot n s y in
      let w := bfgs_inverse n H0 older (fun i => v i - rho * dot n s v * y i) in
      fun i => w i - rho * dot n y w * s i + rho * dot n s v * s i
  end.

(** the linear solver returns solutions *)
Definition sound_lu (n : nat) (lu_solve : mat -> vec -> option vec) : Prop :=
  forall A b x, lu_solve A b = Some x -> forall i, (i < n)%nat -> matvec n A x i = b i.

(** ---- a run of a quasi-Newton method ----
    X i: iterates, Rs i: residuals, d i: directions, al i: step fractions *)
Section Run.
  Variables (n rf : nat) (fn : residual) (lu_solve : mat -> vec -> option vec).
  Variables (X Rs d : nat -> vec) (al : nat -> R).

  Definition diff (q : nat -> vec) (i : nat) : vec := fun k => q (S i) k - q i k.

  (** the last k steps and residual changes before iterate i, latest first *)
  Definition last_pairs (i k : nat) : list (vec * vec) := map (fun m => (diff X (i - 1 - m), diff Rs (i - 1 - m))) (seq 0 k).

  (** iteration i: Newton direction with a fresh Jacobian if i is a multiple of rf, otherwise the BFGS direction built from the
      last Jacobian and the steps since; a fraction al i of it is taken *)
  Definition iteration (i : nat) : Prop :=
    (exists Jo, fn (X i) (Nat.eqb (i mod rf) 0) = Ok (Some (Rs i), Jo)) /\
    (forall k, X (S i) k = X i k + al i * d i k) /\
    0 < al i <= 1 /\
    ((i mod rf = 0)%nat -> exists J q, fn (X i) true = Ok (Some (Rs i), Some J) /\ lu_solve J (Rs i) = Some q /\ forall k, d i k = - q k) /\
    ((i mod rf <> 0)%nat ->
       exists R0 J, fn (X (i - i mod rf)) true = Ok (R0, Some J) /\
         dot n (diff X (i - 1)) (diff Rs (i - 1)) <> 0 /\
         forall H0, (forall v, lu_solve J v = Some (H0 v)) ->
           forall k, d i k = bfgs_inverse n H0 (last_pairs i (i mod rf)) (fun k => - Rs i k) k).

  Definition norm (v : vec) : R := sqrt (dot n v v).
  Definition energy (i : nat) : option R := if Nat.eqb i 0 then None else Some (dot n (Rs i) (diff X (i - 1))).
  Definition ratio (a b : option R) : option R :=
    match a, b with Some x, Some y => if Req_EM_T y 0 then None else Some (x / y) | _, _ => None end.

  (** the documented quantities of iteration i: residual at X i, length of the direction d i, energy of the previous step; relative
      quantities compare with iteration 0 (the energy with iteration 1) *)
  Definition quantity (i : nat) (k : tol_name) : option R :=
    match k with
    | Rtol => Some (norm (Rs i))
    | Xtol => Some (norm (d i))
    | Etol => energy i
    | RtolRel => ratio (Some (norm (Rs i))) (Some (norm (Rs 0)))
    | XtolRel => ratio (Some (norm (d i))) (Some (norm (d 0)))
    | EtolRel => if Nat.eqb i 0 then None else ratio (energy i) (option_map Rabs (energy 1))
    end.
End Run.

(** directional residual at the fraction a of the step d from X *)
Definition slope (n : nat) (F : vec -> vec) (X d : vec) (a : R) : R := dot n d (F (fun i => X i + a * d i)).

(** tolerances in force during a call: xtol is the argument, else the configured value, else 1e-6 per unknown *)
Definition in_force (n : nat) (c : config) (xtol : option R) (k : tol_name) : option R :=
  match k with
  | Xtol => Some (match xtol with Some v => v | None => match c_xtol c with Some v => v | None => / 10 ^ 6 * INR n end end)
  | _ => tolerance c k
  end.
