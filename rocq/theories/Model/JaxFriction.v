(** Model of the JAX friction elements:
    /repo/tmdsimpy/jax/nlforces/jenkins_element.py, elastic_dry_fric_2d.py and elastic_dry_fric_3d.py. *)
From Coq Require Import Reals List Arith Bool.
From Verif.Lib Require Import RSum Py.
From Verif.Model Require Import Harmonic LocalForces Aft JaxDual.
Open Scope R_scope.

Definition aset {A} (a : nat -> nat -> A) (r : nat) (row : nat -> A) : nat -> nat -> A :=
  fun t c => if Nat.eqb t r then row c else a t c.
(** row ind-1, the last row for ind = 0 *)
Definition prev_row (Nt ind : nat) : nat := ((ind + Nt - 1) mod Nt)%nat.

(** ---- JAX Jenkins ---- *)
(** _local_jenkins_loop_body, jenkins_element.py 218-243 *)
Definition jj_body (Nt : nat) (unlt : nat -> nat -> dual) (kt Fs : R) (ind : nat) (ft : nat -> nat -> dual) : nat -> nat -> dual :=
  let fcurr := fun d => dmin (dadd (dscal kt (dsub (unlt ind d) (unlt (prev_row Nt ind) d))) (ft (prev_row Nt ind) d)) (dconst Fs) in
  aset ft ind (fun d => dmax (fcurr d) (dconst (- Fs))).

(** the initial value of ft and the two passes, 315-341; u0 as chosen on 327 *)
Definition jj_history (Nt : nat) (unlt : nat -> nat -> dual) (kt Fs : R) (u0 : dual) : nat -> nat -> dual :=
  let ft0 := aset (fun _ _ => dconst 0) (Nt - 1) (fun d => dscal kt (dsub (unlt (Nt - 1)%nat d) u0)) in
  fold_left (fun ft _ => fori_loop 0 Nt (jj_body Nt unlt kt Fs) ft) (seq 0 2) ft0.

(** _local_aft_jenkins, 287-349; u0 = None: Ulocal[0, 0:1] *)
Definition jj_local (kt Fs : R) (u0 : option R) (h : list nat) (Nt : nat) (Ulocal : nat -> nat -> dual)
  : result (nat -> nat -> dual) :=
  do (n, unlt) <- ts_dual Nt h Ulocal;
  let start := match u0 with None => Ulocal O O | Some x => dconst x end in
  gfc_dual h n (jj_history n unlt kt Fs start).

(** JenkinsForce.aft, 116-215.  The class is documented for one local degree of freedom. *)
Definition jax_jenkins_aft (N : nat) (Q T : mat) (kt Fs : R) (u0 : option R) (U : vec) (w : R) (h : list nat) (Nt : nat)
  : result (vec * mat * vec) := jax_aft N 1 Q T (jj_local kt Fs u0 h Nt) U w h.

(** ---- elastic dry friction ----
    p = 2 for the 2D class (columns: tangential, normal), p = 3 for the 3D class (two tangential columns, normal); ne elements,
    nnl = p*ne local degrees of freedom.  The 3D code repeats every tangential line for columns 0::3 and 1::3. *)
Definition normal_col (p c : nat) : nat := (c / p * p + (p - 1))%nat.
Definition is_normal (p c : nat) : bool := Nat.eqb (c mod p) (p - 1).

Record eldry_pars := mkEP { ep_kt : R; ep_kn : R; ep_mu : R; ep_gap : R }.

(** the precalculated normal forces, 2D 771-774, 3D 798-801 *)
Definition ed_normal (p : nat) (P : eldry_pars) (unlt : nat -> nat -> dual) : nat -> nat -> dual :=
  fun t c => if is_normal p c then dmax (dscal (ep_kn P) (dsub (unlt t c) (dconst (ep_gap P)))) (dconst 0) else dconst 0.

(** _local_eldry_loop_body, 2D 594-599, 3D 610-619 *)
Definition ed_body (Nt p : nat) (P : eldry_pars) (unlt : nat -> nat -> dual) (ind : nat) (ft : nat -> nat -> dual)
  : nat -> nat -> dual :=
  aset ft ind (fun c =>
    if is_normal p c then ft ind c else
    let fcurr := dmin (dadd (dscal (ep_kt P) (dsub (unlt ind c) (unlt (prev_row Nt ind) c))) (ft (prev_row Nt ind) c))
                      (dscal (ep_mu P) (ft ind (normal_col p c))) in
    dmax fcurr (dscal (- ep_mu P) (ft ind (normal_col p c)))).

(** _local_force_history, 2D 763-798, 3D 790-825; u0 indexed by column *)
Definition ed_history (Nt p : nat) (P : eldry_pars) (unlt : nat -> nat -> dual) (u0 : nat -> dual) : nat -> nat -> dual :=
  let ft0 := ed_normal p P unlt in
  let ft1 := aset ft0 (Nt - 1) (fun c => if is_normal p c then ft0 (Nt - 1)%nat c
                                         else dscal (ep_kt P) (dsub (unlt (Nt - 1)%nat c) (u0 c))) in
  fold_left (fun ft _ => fori_loop 0 Nt (ed_body Nt p P unlt) ft) (seq 0 2) ft1.

(** _local_aft_eldry, 2D 646-686, 3D 666-713.  u0 = None: the first row of Ulocal; a scalar u0 is the constant vector. *)
Definition ed_local (p : nat) (P : eldry_pars) (u0 : option vec) (h : list nat) (Nt : nat) (Ulocal : nat -> nat -> dual)
  : result (nat -> nat -> dual) :=
  do (n, unlt) <- ts_dual Nt h Ulocal;
  let start := fun c => match u0 with None => Ulocal O c | Some x => dconst (x c) end in
  gfc_dual h n (ed_history n p P unlt start).

(** aft, 2D 256-373, 3D 268-383 (calc_grad = True) *)
Definition eldry_aft (p ne N : nat) (Q T : mat) (P : eldry_pars) (u0 : option vec) (U : vec) (w : R) (h : list nat) (Nt : nat)
  : result (vec * mat * vec) := jax_aft N (p * ne) Q T (ed_local p P u0 h Nt) U w h.

(** ---- static evaluation ---- *)
(** _local_eldy_force, 2D 498-516, 3D 510-531; up by column.  The stored forces fp are an argument that is not used. *)
Definition ed_static (p : nat) (P : eldry_pars) (unl : nat -> dual) (up fp : vec) : nat -> dual :=
  let fn := fun c => dmax (dscal (ep_kn P) (dsub (unl c) (dconst (ep_gap P)))) (dconst 0) in
  fun c => if is_normal p c then fn c else
    let limit := dscal (ep_mu P) (fn (normal_col p c)) in
    let nlimit := dscal (- ep_mu P) (fn (normal_col p c)) in
    let fpred := dscal (ep_kt P) (dsub (unl c) (dconst (up c))) in
    let fcurr := dwhere (Rltb (dv fpred) (dv limit)) fpred limit in
    dwhere (Rltb (dv nlimit) (dv fcurr)) fcurr nlimit.

(** The attributes of an elastic dry friction object that change.  up and fp are indexed by local column. *)
Record eldry := mkED { ed_pars : eldry_pars; ed_real_mu : R; ed_prestress_mu : R; ed_u0 : option vec; ed_up : vec; ed_fp : vec }.

(** __init__ (2D 94-104, 3D 96-107) with init_history (2D 161-162, 3D 174-175) *)
Definition ed_new (kt kn mu gap : R) (u0 : option vec) : eldry :=
  mkED (mkEP kt kn mu gap) mu 0 u0 (fun _ => 0) (fun _ => 0).
Definition ed_init_history (s : eldry) : eldry := mkED (ed_pars s) (ed_real_mu s) (ed_prestress_mu s) (ed_u0 s) (fun _ => 0) (fun _ => 0).
Definition ed_set_mu (s : eldry) (mu : R) : eldry :=
  mkED (mkEP (ep_kt (ed_pars s)) (ep_kn (ed_pars s)) mu (ep_gap (ed_pars s))) (ed_real_mu s) (ed_prestress_mu s) (ed_u0 s) (ed_up s) (ed_fp s).
(** set_prestress_mu, reset_real_mu: 2D 118-138, 3D 131-151 *)
Definition ed_set_prestress_mu (s : eldry) : eldry := ed_set_mu s (ed_prestress_mu s).
Definition ed_reset_real_mu (s : eldry) : eldry := ed_set_mu s (ed_real_mu s).
(** set_aft_initialize, 2D 185, 3D 199 *)
Definition ed_set_aft_initialize (N : nat) (Q : mat) (s : eldry) (X : vec) : eldry :=
  mkED (ed_pars s) (ed_real_mu s) (ed_prestress_mu s) (Some (matvec N Q X)) (ed_up s) (ed_fp s).
(** update_history, 2D 204-205, 3D 218-219 *)
Definition ed_update_history (s : eldry) (unl fnl : vec) : eldry :=
  mkED (ed_pars s) (ed_real_mu s) (ed_prestress_mu s) (ed_u0 s) unl fnl.

(** force, 2D 235-254, 3D 247-266: returns F, dFdX.  (Only the tangential columns of up and fp are ever read.) *)
Definition ed_force (p ne N : nat) (Q T : mat) (s : eldry) (X : vec) (update_hist : bool) : eldry * (vec * mat) :=
  let nnl := (p * ne)%nat in
  let unl := matvec N Q X in
  let fnl := ed_static p (ed_pars s) (dseed unl) (ed_up s) (ed_fp s) in
  let F := matvec nnl T (fun c => dv (fnl c)) in
  let dFdX := matmul nnl (matmul nnl T (fun c c' => dt (fnl c) c')) Q in
  (if update_hist then ed_update_history s unl (fun c => dv (fnl c)) else s, (F, dFdX)).

(** local_force_history, 2D 440-463, 3D 448-474.  u0 is the attribute: None, a scalar (the default of the constructor) or a vector;
    unlth0 the argument, by column.  A scalar u0 gives a 0-d array on 444 (3D 455), which cannot be sliced on 448 (3D 459). *)
Definition ed_local_force_history (Nt p : nat) (P : eldry_pars) (u0 : option (R + vec)) (unlt : nat -> vec) (unlth0 : vec)
  : result (nat -> vec) :=
  let run := fun start : vec => Ok (fun t c => dv (ed_history Nt p P (fun t c => dconst (unlt t c)) (fun c => dconst (start c)) t c)) in
  match u0 with
  | None => run unlth0
  | Some (inl _) => Err IndexError
  | Some (inr v) => run v
  end.

(** Calls of an elastic dry friction object. *)
Inductive ed_call := EDForce (X : vec) (update_hist : bool) | EDInitHistory | EDSetPrestressMu | EDResetRealMu | EDSetAftInitialize (X : vec).
Definition ed_do (p ne N : nat) (Q T : mat) (s : eldry) (c : ed_call) : eldry :=
  match c with
  | EDForce X upd => fst (ed_force p ne N Q T s X upd)
  | EDInitHistory => ed_init_history s
  | EDSetPrestressMu => ed_set_prestress_mu s
  | EDResetRealMu => ed_reset_real_mu s
  | EDSetAftInitialize X => ed_set_aft_initialize N Q s X
  end.
Definition ed_run (p ne N : nat) (Q T : mat) (s : eldry) (cs : list ed_call) : eldry := fold_left (ed_do p ne N Q T) cs s.
