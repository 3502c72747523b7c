(** tmdsimpy/jax/solvers.py: NonlinearSolverOMP.
    n is the number of unknowns.  Values that are not finite (nan, inf) are written None: a comparison with them is false, and
    nsolve stops at the first vector that contains one.  (The code tests only for nan; a vector with an inf entry usually turns
    into nan one operation later.)  Printing is left out, and with it config['verbose']. *)
From Coq Require Import Reals List Arith Bool.
From Verif.Lib Require Import RSum Py.
Import ListNotations.
Open Scope R_scope.

Inductive tol_name := Xtol | Rtol | Etol | XtolRel | RtolRel | EtolRel.

(** __init__, jax/solvers.py 111-135: the configuration *)
Record config := mkConf {
  c_max_steps : nat; c_reform_freq : nat;
  c_xtol : option R; c_rtol : option R; c_etol : option R; c_xtol_rel : option R; c_rtol_rel : option R; c_etol_rel : option R;
  c_stopping : list tol_name; c_accepting : list tol_name;
  c_ls_iters : nat; c_ls_tol : R; c_ls_same_sign : bool }.

(** default configuration, jax/solvers.py 113-127 *)
Definition default_config : config := mkConf 20 1 None None None None None None [Xtol] [] 0 (1 / 2) true.

Definition set_xtol (c : config) (x : option R) : config :=
  mkConf (c_max_steps c) (c_reform_freq c) x (c_rtol c) (c_etol c) (c_xtol_rel c) (c_rtol_rel c) (c_etol_rel c)
         (c_stopping c) (c_accepting c) (c_ls_iters c) (c_ls_tol c) (c_ls_same_sign c).

(** the six quantities given to _check_convg; None: inf or nan *)
Record measures := mkMeas { m_r : option R; m_e : option R; m_u : option R; m_r_rel : option R; m_e_rel : option R; m_u_rel : option R }.

Definition tolerance (c : config) (k : tol_name) : option R :=
  match k with Xtol => c_xtol c | Rtol => c_rtol c | Etol => c_etol c | XtolRel => c_xtol_rel c | RtolRel => c_rtol_rel c | EtolRel => c_etol_rel c end.
(** error_dict, jax/solvers.py 787-794 *)
Definition error_value (m : measures) (k : tol_name) : option R :=
  match k with Xtol => m_u m | Rtol => m_r m | Etol => m_e m | XtolRel => m_e_rel m | RtolRel => m_r_rel m | EtolRel => m_u_rel m end.
(** _check_convg, jax/solvers.py 753-799; `or` does not evaluate the comparison once converged is True, and a comparison with a
    tolerance that was never set (None in Python) raises TypeError *)
Fixpoint check_convg (l : list tol_name) (c : config) (m : measures) (converged : bool) : result bool :=
  match l with
  | [] => Ok converged
  | k :: l' =>
      if converged then check_convg l' c m true
      else match tolerance c k with
           | None => Err TypeError
           | Some t => check_convg l' c m (match error_value m k with Some v => Rltb (Rabs v) t | None => false end)
           end
  end.

(** arithmetic with values that may be nan *)
Definition omul (a b : option R) : option R := match a, b with Some x, Some y => Some (x * y) | _, _ => None end.
Definition opos (a : option R) : bool := match a with Some x => Rltb 0 x | None => false end.
Definition oneg (a : option R) : bool := match a with Some x => Rltb x 0 | None => false end.
Definition oabs_lt (a b : option R) : bool := match a, b with Some x, Some y => Rltb (Rabs x) (Rabs y) | _, _ => false end.
Definition oabs_lt_tol (a : option R) (t b : R) : bool := match a with Some x => Rltb (Rabs x) (t * Rabs b) | None => false end.
Definition odot (n : nat) (d : vec) (r : option vec) : option R := match r with Some v => Some (dot n d v) | None => None end.
(** x / y; None when y = 0 (nan or inf) *)
Definition odiv (x : option R) (y : option R) : option R :=
  match x, y with Some a, Some b => if Req_EM_T b 0 then None else Some (a / b) | _, _ => None end.

(** the function to be solved: residual (None: contains nan) and Jacobian (None: contains nan, or not asked for) *)
Definition residual := vec -> bool -> result (option vec * option mat).

(** ---- line search, jax/solvers.py 243-429 ---- *)
Record bracket := mkBr { b_a0 : R; b_a1 : R; b_g0 : option R; b_g1 : option R; b_r0 : option vec; b_r1 : option vec; b_nfev : nat }.

(** 358-393 *)
Fixpoint ls_loop (iters n : nat) (fn : residual) (same_sign : bool) (tol : R) (X deltaX : vec) (G0 : R) (b : bracket) : result bracket :=
  match iters with
  | O => Ok b
  | S k =>
    let alpha := / 2 * (b_a0 b + b_a1 b) in
    do (Rmid, _) <- fn (fun i => X i + alpha * deltaX i) false;
    let Gmid := odot n deltaX Rmid in
    let b' := if oneg (omul Gmid (b_g0 b))
              then mkBr (b_a0 b) alpha (b_g0 b) Gmid (b_r0 b) Rmid (S (b_nfev b))
              else mkBr alpha (b_a1 b) Gmid (b_g1 b) Rmid (b_r1 b) (S (b_nfev b)) in
    if (same_sign && oabs_lt_tol (b_g0 b') tol G0)%bool then Ok b'
    else if (negb same_sign && oabs_lt_tol Gmid tol G0)%bool then Ok b'
    else ls_loop k n fn same_sign tol X deltaX G0 b'
  end.

(** returned: alpha and the entries 'R(alpha)', brackets and 'nfev' of sol *)
Definition line_search (n : nat) (c : config) (fn : residual) (X Rx deltaX : vec) : result (R * option vec * bracket) :=
  let G0 := dot n deltaX Rx in
  do (R1, _) <- fn (fun i => X i + deltaX i) false;
  let G1 := odot n deltaX R1 in
  let b := mkBr 0 1 (Some G0) G1 (Some Rx) R1 1 in
  if opos (omul G1 (Some G0)) then Ok (1, R1, b)
  else if (negb (c_ls_same_sign c) && oabs_lt_tol G1 (c_ls_tol c) G0)%bool then Ok (1, R1, b)
  else
    do b' <- ls_loop (c_ls_iters c) n fn (c_ls_same_sign c) (c_ls_tol c) X deltaX G0 b;
    let lower := (c_ls_same_sign c || oabs_lt (b_g0 b') (b_g1 b'))%bool in
    let alpha := if lower then b_a0 b' else b_a1 b' in
    let Ralpha := if lower then b_r0 b' else b_r1 b' in
    if Req_EM_T alpha 0 then Ok (b_a1 b', b_r1 b', b') else Ok (alpha, Ralpha, b').

(** ---- BFGS direction, jax/solvers.py 623-639 ----
    The columns of bfgs_s, bfgs_y, bfgs_p that are in use are a list of triples (s, y, p), latest column first. *)
Definition pair := (vec * vec * R)%type.
(** 631-633: latest column to oldest; returns deltaX and alpha (latest first) *)
Fixpoint first_loop (n : nat) (ps : list pair) (d : vec) : vec * list R :=
  match ps with
  | [] => (d, [])
  | (s, y, p) :: older =>
      let alpha := p * dot n s d in
      let (d', alphas) := first_loop n older (fun i => d i - alpha * y i) in
      (d', alpha :: alphas)
  end.
(** 637-639: oldest column to latest *)
Fixpoint second_loop (n : nat) (ps : list pair) (alphas : list R) (d : vec) : vec :=
  match ps, alphas with
  | (s, y, p) :: older, alpha :: alphas' =>
      let d' := second_loop n older alphas' d in
      let beta := p * dot n y d' in
      fun i => d' i + s i * (alpha - beta)
  | _, _ => d
  end.
(** 628-639; lu_solve stands for lin_factored_solve with the factored Jacobian of the last Newton step *)
Definition bfgs_direction (n : nat) (lu_solve : vec -> option vec) (ps : list pair) (Rr : vec) : option vec :=
  let (d1, alphas) := first_loop n ps (fun i => - Rr i) in
  match lu_solve d1 with
  | Some d2 => Some (second_loop n ps alphas d2)
  | None => None
  end.

(** ---- nsolve, jax/solvers.py 431-750 ---- *)
Record sol := mkSol { s_success : bool; s_nfev : nat; s_njev : nat }.

(** variables of the loop: X, deltaXminus1 (None: nan), Rminus1, bfgs_ind, columns in use, factored Jacobian, r0, u0, e0,
    R and dRdX (None: not assigned or nan), the measures of the last complete iteration (None: there is none), counters, and the
    calls of fun made by nsolve itself, latest first *)
Record state := mkSt {
  t_X : vec; t_dXm1 : option vec; t_Rm1 : vec; t_ind : nat; t_pairs : list pair; t_lu : mat;
  t_r0 : R; t_u0 : R; t_e0 : option R; t_R : option vec; t_J : option mat; t_meas : option measures;
  t_nfev : nat; t_njev : nat; t_calls : list (vec * bool) }.

Inductive ending := NanStop | Converged | Exhausted.

(** R, dRdX and deltaX of one iteration, 588-645.  Result: the state with the updated arrays and counters, and R and deltaX;
    None if a nan was found. *)
Definition direction (n : nat) (c : config) (lu_solve : mat -> vec -> option vec) (fn : residual) (t : state)
  : result (state * option (vec * vec)) :=
  if Nat.eqb (t_ind t) 0 then
    do (Ro, Jo) <- fn (t_X t) true;
    let t1 := mkSt (t_X t) (t_dXm1 t) (t_Rm1 t) (t_ind t) (t_pairs t) (t_lu t) (t_r0 t) (t_u0 t) (t_e0 t) Ro Jo (t_meas t)
                   (S (t_nfev t)) (S (t_njev t)) ((t_X t, true) :: t_calls t) in
    match Ro, Jo with
    | Some Rr, Some J =>
      match c_reform_freq c with
      | O => Err ValueError     (* np.zeros with a negative dimension, 608 *)
      | S _ =>
        let t2 := mkSt (t_X t) (t_dXm1 t) (t_Rm1 t) (t_ind t) [] J (t_r0 t) (t_u0 t) (t_e0 t) Ro Jo (t_meas t)
                       (S (t_nfev t)) (S (t_njev t)) ((t_X t, true) :: t_calls t) in
        match lu_solve J Rr with
        | Some q => Ok (t2, Some (Rr, fun i => - q i))
        | None => Ok (t2, None)
        end
      end
    | _, _ => Ok (t1, None)
    end
  else
    do (Ro, _) <- fn (t_X t) false;
    let t1 := mkSt (t_X t) (t_dXm1 t) (t_Rm1 t) (t_ind t) (t_pairs t) (t_lu t) (t_r0 t) (t_u0 t) (t_e0 t) Ro (t_J t) (t_meas t)
                   (S (t_nfev t)) (t_njev t) ((t_X t, false) :: t_calls t) in
    match Ro, t_dXm1 t with
    | Some Rr, Some s =>
      let y : vec := fun i => Rr i - t_Rm1 t i in
      if Req_EM_T (dot n s y) 0 then Ok (t1, None)
      else
        let ps := (s, y, 1 / dot n s y) :: t_pairs t in
        let t2 := mkSt (t_X t) (t_dXm1 t) (t_Rm1 t) (t_ind t) ps (t_lu t) (t_r0 t) (t_u0 t) (t_e0 t) Ro (t_J t) (t_meas t)
                       (S (t_nfev t)) (t_njev t) ((t_X t, false) :: t_calls t) in
        match bfgs_direction n (lu_solve (t_lu t)) ps Rr with
        | Some d => Ok (t2, Some (Rr, d))
        | None => Ok (t2, None)
        end
    | _, _ => Ok (t1, None)
    end.

(** 649-724 for iteration i: line search, update of X, convergence test *)
Definition advance (n : nat) (c : config) (fn : residual) (i : nat) (t : state) (Rr deltaX : vec) : result (state * bool) :=
  let u := sqrt (dot n deltaX deltaX) in
  let r := sqrt (dot n Rr Rr) in
  let e := if Nat.eqb i 0 then None else odot n Rr (t_dXm1 t) in
  do step <- (if Nat.ltb 0 (c_ls_iters c) then
                do (al, _) <- line_search n c fn (t_X t) Rr deltaX; Ok (fun k => fst al * deltaX k)
              else Ok deltaX);
  let X : vec := fun k => t_X t k + step k in
  let r0 := if Nat.eqb i 0 then r else t_r0 t in
  let u0 := if Nat.eqb i 0 then u else t_u0 t in
  let e0 := if Nat.eqb i 0 then None else if Nat.eqb i 1 then option_map Rabs e else t_e0 t in
  let m := mkMeas (Some r) e (Some u) (odiv (Some r) (Some r0)) (odiv e e0) (odiv (Some u) (Some u0)) in
  do conv <- check_convg (c_stopping c) c m false;
  Ok (mkSt X (Some step) Rr ((t_ind t + 1) mod c_reform_freq c) (t_pairs t) (t_lu t) r0 u0 e0 (t_R t) (t_J t) (Some m)
           (t_nfev t) (t_njev t) (t_calls t), conv).

(** 586-724; [todo] = max_steps - i *)
Fixpoint newton_loop (todo n : nat) (c : config) (lu_solve : mat -> vec -> option vec) (fn : residual) (i : nat) (t : state) : result (state * ending) :=
  match todo with
  | O => Ok (t, Exhausted)
  | S todo' =>
    do (t1, o) <- direction n c lu_solve fn t;
    match o with
    | None => Ok (t1, NanStop)
    | Some (Rr, d) =>
      do (t2, conv) <- advance n c fn i t1 Rr d;
      if conv then Ok (t2, Converged) else newton_loop todo' n c lu_solve fn (S i) t2
    end
  end.

Definition start (X0 : vec) : state :=
  mkSt X0 None vzero 0 [] mzero 0 0 None None None None 0 0 [].

(** what nsolve returns, and the calls of fun it made in order (without those of the line search) *)
Record answer := mkAns { a_X : vec; a_R : option vec; a_J : option mat; a_sol : sol; a_calls : list (vec * bool) }.

(** body of nsolve between setting (540) and restoring (748) config['xtol']; c is the configuration with xtol set.
    With max_steps = 0 the names r_curr, R, dRdX do not exist (732, 750). *)
Definition solve_with (n : nat) (c : config) (lu_solve : mat -> vec -> option vec) (fn : residual) (X0 : vec) : result answer :=
  do (t, e) <- newton_loop (c_max_steps c) n c lu_solve fn 0 (start X0);
  do success <- match e with
                | Converged => Ok true
                | NanStop => Ok false
                | Exhausted => match t_meas t with None => Err NameError | Some m => check_convg (c_accepting c) c m false end
                end;
  Ok (mkAns (t_X t) (t_R t) (t_J t) (mkSol success (t_nfev t) (t_njev t)) (rev (t_calls t))).

(** nsolve: the configuration after the call, and the returned value or the exception *)
Definition nsolve (n : nat) (c : config) (lu_solve : mat -> vec -> option vec) (fn : residual) (X0 : vec) (xtol : option R) : config * result answer :=
  let x := match xtol with Some v => v | None => match c_xtol c with Some v => v | None => / 10 ^ 6 * INR n end end in
  let c1 := set_xtol c (Some x) in
  match solve_with n c1 lu_solve fn X0 with
  | Ok a => (set_xtol c1 (c_xtol c), Ok a)
  | Err e => (c1, Err e)
  end.
