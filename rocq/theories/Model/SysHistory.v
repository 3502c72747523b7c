(** The history methods of a whole system, /repo/tmdsimpy/vibration_system.py: init_force_history (80-92), update_force_history (94-116),
    set_prestress_mu and reset_real_mu (118-182), set_aft_initialize (184-223) and static_res (271-319), over nonlinear_forces with the
    modelled classes and their full state. *)
From Coq Require Import Reals List Arith Bool.
From Verif.Lib Require Import RSum Py.
From Verif.Model Require Import Harmonic VibSys Jenkins Iwan JaxDual JaxFloat JaxFriction RoughContact.
Import ListNotations.
Open Scope R_scope.

(** - ElInstant: nl_force_type() 0 and none of the methods (the classes of SysElements; the JAX VectorJenkins, whose force is the template
      below)
    - ElJenkins, ElIwan: JenkinsForce, Iwan4Force and the Vector classes that inherit from them (one local degree of freedom)
    - ElEldry: ElasticDryFriction2D (p = 2), 3D (p = 3) with ne points
    - ElRough: RoughContactFriction
    - ElJaxJenkins: the JAX JenkinsForce, of type 1 but without init_history, update_hist and set_aft_initialize
      (jax/nlforces/jenkins_element.py 17-115); kt, the start u0 of the AFT, Fs, real_Fs, prestress_Fs *)
Inductive element :=
| ElInstant (f : nlforce)
| ElJenkins (Q T : mat) (s : jenkins)
| ElIwan (Q T : mat) (s : iwan)
| ElEldry (p ne : nat) (Q T : mat) (s : eldry)
| ElRough (Q T : mat) (r : rough) (s : rough_state)
| ElJaxJenkins (Q T : mat) (kt : R) (u0 : option R) (Fs real_Fs prestress_Fs : R).

Definition nl_force_type (e : element) : nat := match e with ElInstant _ => 0 | _ => 1 end.

(** init_history of the classes *)
Definition el_init (e : element) : result element :=
  match e with
  | ElInstant _ => Err AttributeError
  | ElJenkins Q T s => Ok (ElJenkins Q T (j_init_history s))
  | ElIwan Q T s => Ok (ElIwan Q T (iw_init_history s))
  | ElEldry p ne Q T s => Ok (ElEldry p ne Q T (ed_init_history s))
  | ElRough Q T r s => Ok (ElRough Q T r (init_history s))
  | ElJaxJenkins _ _ _ _ _ _ _ => Err AttributeError
  end.

(** force(U) (upd = false) and force(U, update_hist=True): F and dFdX, None if some entry is not finite.  The template force
    (nonlinear_force.py 39-60) takes no update_hist and returns zeros. *)
Definition element_force (N : nat) (e : element) (U : vec) (upd : bool) : result (element * (option vec * option mat)) :=
  match e with
  | ElInstant f => if upd then Err TypeError else do (F, J) <- nl_force f U; Ok (e, (Some F, Some J))
  | ElJenkins Q T s => do (sf, k) <- j_force s (matvec N Q U O) upd;
      Ok (ElJenkins Q T (fst sf), (Some (fun i => T i O * snd sf), Some (fun i j => T i O * k * Q O j)))
  | ElIwan Q T s => let '(s', (f, k)) := iw_force s (matvec N Q U O) upd in
      Ok (ElIwan Q T s', (Some (fun i => T i O * f), Some (fun i j => T i O * k * Q O j)))
  | ElEldry p ne Q T s => let '(s', (F, J)) := ed_force p ne N Q T s U upd in Ok (ElEldry p ne Q T s', (Some F, Some J))
  | ElRough Q T r s => let '(s', res) := rough_force r N Q s U upd in Ok (ElRough Q T r s', (force_values T res, force_jacobian T Q res))
  | ElJaxJenkins _ _ _ _ _ _ _ => if upd then Err TypeError else Ok (e, (Some vzero, Some mzero))
  end.

(** init_force_history, 80-92: the loop stops at the first exception *)
Fixpoint init_force_history (l : list element) : list element * option exn :=
  match l with
  | [] => ([], None)
  | e :: l' => if Nat.eqb (nl_force_type e) 1
               then match el_init e with
                    | Ok e' => let '(l1, x) := init_force_history l' in (e' :: l1, x)
                    | Err x => (e :: l', Some x)
                    end
               else let '(l1, x) := init_force_history l' in (e :: l1, x)
  end.

(** update_force_history, 94-116 *)
Fixpoint update_force_history (N : nat) (l : list element) (U : vec) : list element * option exn :=
  match l with
  | [] => ([], None)
  | e :: l' => if Nat.eqb (nl_force_type e) 1
               then match element_force N e U true with
                    | Ok (e', _) => let '(l1, x) := update_force_history N l' U in (e' :: l1, x)
                    | Err x => (e :: l', Some x)
                    end
               else let '(l1, x) := update_force_history N l' U in (e :: l1, x)
  end.

(** set_prestress_mu, 118-148 (as in SysFriction) *)
Definition el_prestress (e : element) : result element :=
  match e with
  | ElInstant f => Ok e
  | ElJenkins Q T s => Ok (ElJenkins Q T (j_set_prestress_mu s))
  | ElIwan _ _ _ => Err AssertionError
  | ElEldry p ne Q T s => Ok (ElEldry p ne Q T (ed_set_prestress_mu s))
  | ElRough Q T r s => Ok (ElRough Q T r (rough_step r 0 Q s RSetPrestressMu))
  | ElJaxJenkins Q T kt u0 _ r p => Ok (ElJaxJenkins Q T kt u0 p r p)
  end.
Fixpoint prestress_all (l : list element) : list element * option exn :=
  match l with
  | [] => ([], None)
  | e :: l' => match el_prestress e with
               | Ok e' => let '(l1, x) := prestress_all l' in (e' :: l1, x)
               | Err x => (e :: l', Some x)
               end
  end.

(** reset_real_mu, 150-182 *)
Definition el_reset (e : element) : element :=
  match e with
  | ElInstant f => e
  | ElJenkins Q T s => ElJenkins Q T (j_reset_real_mu s)
  | ElIwan _ _ _ => e
  | ElEldry p ne Q T s => ElEldry p ne Q T (ed_reset_real_mu s)
  | ElRough Q T r s => ElRough Q T r (rough_step r 0 Q s RResetRealMu)
  | ElJaxJenkins Q T kt u0 _ r p => ElJaxJenkins Q T kt u0 r r p
  end.

(** set_aft_initialize, 184-223: new elements and number of warnings *)
Definition el_aft_init (N : nat) (U : vec) (e : element) : element :=
  match e with
  | ElEldry p ne Q T s => ElEldry p ne Q T (ed_set_aft_initialize N Q s U)
  | ElRough Q T r s => ElRough Q T r (rough_step r N Q s (RSetAftInitialize U))
  | _ => e
  end.
Definition aft_warns (e : element) : bool :=
  match e with ElEldry _ _ _ _ _ | ElRough _ _ _ _ => false | _ => negb (Nat.eqb (nl_force_type e) 0) end.
Definition set_aft_initialize (N : nat) (l : list element) (U : vec) : list element * nat :=
  (map (el_aft_init N U) l, length (filter aft_warns l)).

(** static_res, 271-319: R and dRdU, None if some entry is not finite; force(U) is called without update *)
Definition oadd (a b : option vec) : option vec := match a, b with Some x, Some y => Some (vadd x y) | _, _ => None end.
Definition omadd (a b : option mat) : option mat := match a, b with Some x, Some y => Some (madd x y) | _, _ => None end.
Fixpoint element_loop (N : nat) (l : list element) (U : vec) (F : option vec) (J : option mat) : result (option vec * option mat) :=
  match l with
  | [] => Ok (F, J)
  | e :: l' => do (_, FJ) <- element_force N e U false; element_loop N l' U (oadd F (fst FJ)) (omadd J (snd FJ))
  end.
Definition sys_static_res (N : nat) (K : mat) (l : list element) (U Fstatic : vec) : result (option vec * option mat) :=
  do (F, J) <- element_loop N l U (Some vzero) (Some mzero);
  Ok (match F with Some F => Some (fun i => matvec N K U i + F i - Fstatic i) | None => None end,
      match J with Some J => Some (madd K J) | None => None end).

(** calls by the user between analyses *)
Inductive sys_call := SInit | SUpdate (U : vec) | SPrestress | SReset | SAftInit (U : vec) | SStatic (U Fstatic : vec).
Definition sys_exec (N : nat) (l : list element) (c : sys_call) : list element * option exn :=
  match c with
  | SInit => init_force_history l
  | SUpdate U => update_force_history N l U
  | SPrestress => prestress_all l
  | SReset => (map el_reset l, None)
  | SAftInit U => (fst (set_aft_initialize N l U), None)
  | SStatic U Fstatic => (l, match sys_static_res N mzero l U Fstatic with Ok _ => None | Err x => Some x end)
  end.
(** elements after the calls and the exceptions raised, which the user catches *)
Fixpoint sys_run (N : nat) (l : list element) (cs : list sys_call) : list element * list exn :=
  match cs with
  | [] => (l, [])
  | c :: cs' => let '(l1, x) := sys_exec N l c in
                let '(l2, xs) := sys_run N l1 cs' in
                (l2, match x with Some e => e :: xs | None => xs end)
  end.
