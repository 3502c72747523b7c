(** The harmonic residual of a whole system whose elements keep their state: total_aft (321-396) and hbm_res (398-483) of
    /repo/tmdsimpy/vibration_system.py over the elements of SysHistory.  Only the residual is modelled here; VibSys has the Jacobians. *)
From Coq Require Import Reals List Arith Bool.
From Verif.Lib Require Import RSum Py.
From Verif.Model Require Import Harmonic Aft VibSys Jenkins Iwan JaxFriction RoughContact SysHistory.
Import ListNotations.
Open Scope R_scope.

(** nlforce.aft(U, w, h, Nt, aft_tol) as called on line 380: new state and Fnl, None if some entry is not finite.  The rough contact
    element runs max_repeats = 2 passes (rough_contact.py 522).  An element that raises keeps its state here. *)
Definition element_aft (N : nat) (e : element) (U : vec) (w : R) (h : list nat) (Nt : nat) : result (element * option vec) :=
  match e with
  | ElInstant f => do (FdU, _) <- nl_aft f U w h Nt; Ok (e, Some (fst FdU))
  | ElJenkins Q T s => do (s', out) <- jenkins_aft s N Q T U h Nt; Ok (ElJenkins Q T s', Some (fst (fst out)))
  | ElIwan Q T s => do (s', out) <- iwan_aft s N Q T U h Nt; Ok (ElIwan Q T s', Some (fst (fst out)))
  | ElEldry p ne Q T s => do (FdU, _) <- eldry_aft p ne N Q T (ed_pars s) (ed_u0 s) U w h Nt; Ok (e, Some (fst FdU))
  | ElRough Q T r s => do (F, _) <- rough_aft r N Q T s U w h Nt 2; Ok (e, F)
  | ElJaxJenkins Q T kt u0 Fs _ _ => do (FdU, _) <- jax_jenkins_aft N Q T kt Fs u0 U w h Nt; Ok (e, Some (fst FdU))
  end.

(** the loop of total_aft, 379-384: elements afterwards and the sum *)
Fixpoint sys_aft (N : nat) (l : list element) (U : vec) (w : R) (h : list nat) (Nt : nat) (F : option vec) : list element * result (option vec) :=
  match l with
  | [] => ([], Ok F)
  | e :: l' => match element_aft N e U w h Nt with
               | Ok (e', Fe) => let '(l1, r) := sys_aft N l' U w h Nt (oadd F Fe) in (e' :: l1, r)
               | Err x => (e :: l', Err x)
               end
  end.

(** hbm_res, 398-483 *)
Definition sys_hbm_res (N : nat) (M C K : mat) (l : list element) (Uw Fl : vec) (h : list nat) (Nt : nat) : list element * result (option vec) :=
  let n := (aft_Nhc h * N)%nat in
  let w := Uw n in
  match harmonic_stiffness N M C K w h true false with
  | Err x => (l, Err x)
  | Ok (E, _) =>
      let '(l', r) := sys_aft N l (take n Uw) w h Nt (Some vzero) in
      (l', do F <- r; Ok (match F with Some F => Some (fun i => matvec n E Uw i + F i - Fl i) | None => None end))
  end.
