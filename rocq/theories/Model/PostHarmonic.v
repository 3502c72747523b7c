(** tmdsimpy/postprocess/harmonic.py: local_harmonic_forces.
    N global degrees of freedom; h harmonics; U by position c*N+d as in Aft.v. *)
From Coq Require Import Reals List Arith Bool.
From Verif.Lib Require Import RSum Py.
From Verif.Model Require Import Jenkins VectorJenkins Harmonic LocalForces Aft Iwan JaxDual JaxFriction JaxVectorJenkins.
Import ListNotations.
Open Scope R_scope.

(** The nonlinear force classes:
    - EInstant: InstantaneousForce subclasses with a law by degree of freedom (cubic, quintic, cubic damping, unilateral spring,
      conservative Iwan); ECoupled: GenPolyForce
    - EJenkins, EVectorJenkins, EIwan, EVectorIwan: HystereticForce subclasses with one local degree of freedom
    - EEldry: the JAX elastic dry friction elements (p = 2 or 3, ne contacts) with attribute u0
    - EJaxJenkins, EJaxVectorJenkins: the JAX Jenkins elements.  They have no method local_force_history. *)
Inductive element :=
| EInstant (law : local_law)
| ECoupled (row : vec -> vec * mat)
| EJenkins (s : jenkins)
| EVectorJenkins (s : jenkins)
| EIwan (s : iwan)
| EVectorIwan (s : iwan)
| EEldry (p ne : nat) (P : eldry_pars) (u0 : option (R + vec))
| EJaxJenkins (kt Fs : R) (u0 : option R)
| EJaxVectorJenkins (kt Fs : R) (u0 : option R).

(** a member of nonlinear_forces: number of local degrees of freedom, Q, T and the class *)
Record member := mkMember { mb_nnl : nat; mb_Q : mat; mb_T : mat; mb_element : element }.

(** VectorJenkins.aft: HystereticForce.aft (nonlinear_force.py 546-664) with the local_force_history of the class *)
Definition vector_jenkins_lfh (s : jenkins) (n : nat) (u : vec) (cst : nat -> vec) (u0 : R) : result (jenkins * (vec * (nat -> vec))) :=
  do (s', ft, dfduh) <- vector_jenkins_local_force_history s n u cst u0; Ok (s', (ft, dfduh)).
Definition vector_jenkins_aft (s : jenkins) (N : nat) (Q T : mat) (U : vec) (h : list nat) (Nt : nat) : result (jenkins * (vec * mat * vec)) :=
  aft_hysteretic N Q T (vector_jenkins_lfh s) U h Nt.

(** the harmonic force Fnl returned by the aft method of the class.  A scalar u0 of elastic dry friction is the constant vector
    (elastic_dry_fric_2d.py 256-373). *)
Definition member_aft (N : nat) (m : member) (U : vec) (w : R) (h : list nat) (Nt : nat) : result vec :=
  let Q := mb_Q m in let T := mb_T m in
  match mb_element m with
  | EInstant law => do (FdU, _) <- aft_instantaneous N (mb_nnl m) Q T law U w h Nt; Ok (fst FdU)
  | ECoupled row => do (FdU, _) <- aft_coupled N (mb_nnl m) Q T row U w h Nt; Ok (fst FdU)
  | EJenkins s => do (_, (FdU, _)) <- jenkins_aft s N Q T U h Nt; Ok (fst FdU)
  | EVectorJenkins s => do (_, (FdU, _)) <- vector_jenkins_aft s N Q T U h Nt; Ok (fst FdU)
  | EIwan s => do (_, (FdU, _)) <- iwan_aft s N Q T U h Nt; Ok (fst FdU)
  | EVectorIwan s => do (_, (FdU, _)) <- vector_iwan_aft s N Q T U h Nt; Ok (fst FdU)
  | EEldry p ne P u0 =>
      let start := match u0 with None => None | Some (inl x) => Some (fun _ => x) | Some (inr v) => Some v end in
      do (FdU, _) <- eldry_aft p ne N Q T P start U w h Nt; Ok (fst FdU)
  | EJaxJenkins kt Fs u0 => do (FdU, _) <- jax_jenkins_aft N Q T kt Fs u0 U w h Nt; Ok (fst FdU)
  | EJaxVectorJenkins kt Fs u0 => do (FdU, _) <- jax_vector_jenkins_aft N Q T kt Fs u0 U w h Nt; Ok (fst FdU)
  end.

(** nlforce.local_force_history(...)[0] as called on lines 79-97: ut and unltdot by local degree of freedom and instant (n instants),
    cst by instant, first the first row of Uh.  For elastic dry friction unlth0 is the attribute u0 (hasattr, 87-90): None cannot be
    sliced and a scalar cannot be indexed (elastic_dry_fric_2d.py 440-448, 3D 448-459).  Classes without the method raise
    AttributeError.  The new state of the object is dropped: every local_force_history starts by resetting the history. *)
Definition local_history (e : element) (tol : R) (n : nat) (ut unltdot : nat -> vec) (cst : nat -> vec) (first : vec)
  : result (nat -> vec) :=
  match e with
  | EInstant law => Ok (fun d t => law_f law d (ut d t) (unltdot d t))
  | ECoupled row => Ok (fun d t => fst (row (fun e => ut e t)) d)
  | EJenkins s =>
      do (_, os) <- jenkins_local_force_history s (map (fun j => (ut O j, cst j)) (seq 0 n)) (first O) 2 tol default_tol;
      Ok (fun _ k => nth k (map fst os) 0)
  | EVectorJenkins s => do (_, ft, _) <- vector_jenkins_local_force_history s n (ut O) cst (first O); Ok (fun _ => ft)
  | EIwan s =>
      do (_, os) <- iwan_local_force_history s (map (fun j => (ut O j, cst j)) (seq 0 n)) (first O) 2 tol default_tol;
      Ok (fun _ k => nth k (map fst os) 0)
  | EVectorIwan s => do (_, ft, _) <- vector_iwan_local_force_history s n (ut O) cst (first O); Ok (fun _ => ft)
  | EEldry p ne P u0 =>
      match u0 with
      | None => Err TypeError
      | Some (inl _) => Err TypeError
      | Some (inr v) => do ft <- ed_local_force_history n p P u0 (fun t d => ut d t) v; Ok (fun d t => ft t d)
      end
  | EJaxJenkins _ _ _ => Err AttributeError
  | EJaxVectorJenkins _ _ _ => Err AttributeError
  end.

(** body of the loop, 69-101: Uh by component and local degree of freedom; ut, Fh and ft by local degree of freedom *)
Record local_result := mkLocal { lr_Uh : nat -> vec; lr_ut : nat -> vec; lr_Fh : nat -> vec; lr_ft : nat -> vec }.
Definition local_harmonic_force (N : nat) (m : member) (U : vec) (w : R) (h : list nat) (Nt : nat) (aft_tol : R) : result local_result :=
  let Uh := fun c d => aft_Unl N (mb_Q m) U c d in
  do (n, ut) <- ts_cols Nt h (fun d c => Uh c d) 0;
  do (_, u1) <- ts_cols Nt h (fun d c => Uh c d) 1;
  let unltdot := fun d t => w * u1 d t in
  do (_, cst) <- ts_cols Nt h eye_col 0;
  do ft <- local_history (mb_element m) aft_tol n ut unltdot (fun t c => cst c t) (Uh O);
  do Fh <- gfc_cols h n ft;
  Ok (mkLocal Uh ut Fh ft).

(** local_harmonic_forces, 9-103 *)
Fixpoint local_loop (N : nat) (ms : list member) (U : vec) (w : R) (h : list nat) (Nt : nat) (aft_tol : R) : result (list local_result) :=
  match ms with
  | [] => Ok []
  | m :: ms' =>
      do r <- local_harmonic_force N m U w h Nt aft_tol;
      do rs <- local_loop N ms' U w h Nt aft_tol;
      Ok (r :: rs)
  end.
Definition local_harmonic_forces (N : nat) (ms : list member) (U : vec) (w : R) (h : list nat) (Nt : nat) (aft_tol : R)
  : result (list local_result) :=
  do _ <- Nhc h; local_loop N ms U w h Nt aft_tol.
