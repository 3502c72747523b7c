(** tmdsimpy/continuation.py.  n is the number of unknowns X; vectors XlamP have n + 1 entries, the last one is lam.
    The residual function, numpy's linear solve and the nonlinear solver are arguments (record [world]); the solver and the
    linear solve may answer differently at every call of a run (first argument: number of the call).
    Printing is left out.  Callbacks only observe: the calls they get are recorded in the trace. *)
From Coq Require Import Reals List Arith Bool ZArith.
From Verif.Lib Require Import RSum Py.
From Verif.Model Require Import VibSys Solver.
Import ListNotations.
Open Scope R_scope.

Record world := mkWorld {
  w_fun : vec -> bool -> result (vec * option (mat * vec));   (* fun(XlamP, calc_grad): R, dRdX, dRdlam *)
  w_lin : nat -> mat -> vec -> result vec;                    (* solver.lin_solve(A, b) *)
  w_nsolve : nat -> (vec -> bool -> result (vec * option mat)) -> vec -> result (vec * bool * nat)
                                                              (* solver.nsolve: X, sol['success'], sol['nfev'] *)
}.

Inductive corrector := Pseudo | Ortho | OtherCorrector.

Record config := mkConf {
  c_FracLam : R; c_ds0 : R; c_dsmax : R; c_dsmin : R; c_MaxSteps : nat; c_TargetNfev : R; c_DynamicCtoP : bool;
  c_verbose : Z; c_corrector : corrector; c_FracLamList : list R;
  c_backtrackStop : option R;   (* None: np.inf *)
  c_MaxIncrease : R; c_callback : bool }.

Record cont := mkCont { k_setCtoP : bool; k_CtoP : vec; k_setRPtoC : bool; k_RPtoC : scale; k_conf : config }.

(** default configuration, continuation.py 186-201 *)
Definition default_config (ds0 : R) : config :=
  mkConf (1 / 2) ds0 (5 * ds0) (ds0 / 5) 500 20 false 100 Ortho [] None (6 / 5) false.

(** the list FracLamList of the configuration after construction (209-212); it is the list object given by the user *)
Definition init_FracLamList (FracLam : R) (l : list R) : list R :=
  match l with
  | [] => [FracLam]
  | x :: _ => if Req_EM_T x FracLam then l else FracLam :: l
  end.

Definition set_FracLam (c : config) (b : R) : config :=
  mkConf b (c_ds0 c) (c_dsmax c) (c_dsmin c) (c_MaxSteps c) (c_TargetNfev c) (c_DynamicCtoP c) (c_verbose c) (c_corrector c)
         (c_FracLamList c) (c_backtrackStop c) (c_MaxIncrease c) (c_callback c).
Definition set_FracLamList (c : config) (l : list R) : config :=
  mkConf (c_FracLam c) (c_ds0 c) (c_dsmax c) (c_dsmin c) (c_MaxSteps c) (c_TargetNfev c) (c_DynamicCtoP c) (c_verbose c) (c_corrector c)
         l (c_backtrackStop c) (c_MaxIncrease c) (c_callback c).
Definition set_verbose (c : config) (v : Z) : config :=
  mkConf (c_FracLam c) (c_ds0 c) (c_dsmax c) (c_dsmin c) (c_MaxSteps c) (c_TargetNfev c) (c_DynamicCtoP c) v (c_corrector c)
         (c_FracLamList c) (c_backtrackStop c) (c_MaxIncrease c) (c_callback c).

(** __init__, continuation.py 163-214; [conf] is the default configuration overwritten with the user's entries (204-205).
    The attribute CtoP does not exist before the first run when CtoP is None; it is never read before being set. *)
Definition cont_new (CtoP : option vec) (RPtoC : option scale) (conf : config) : cont :=
  mkCont (match CtoP with None => true | Some _ => false end)
         (match CtoP with None => vzero | Some v => fun i => Rabs (v i) end)
         (match RPtoC with None => true | Some _ => false end)
         (match RPtoC with None => Num 1 | Some s => s end)
         (set_FracLamList conf (init_FracLamList (c_FracLam conf) (c_FracLamList conf))).


(** max_{i<n} |d i|, for n >= 1 *)
Fixpoint max_diag (n : nat) (d : vec) : R :=
  match n with O => 0 | 1%nat => Rabs (d O) | S m => Rmax (max_diag m d) (Rabs (d m)) end.

(** predict, continuation.py 217-346.  Arguments: number of the linear solve, CtoP, RPtoC, config['FracLam'],
    config['DynamicCtoP'].  Returns dirC and the new RPtoC. *)
Definition predict_matrix (n : nat) (CtoP : vec) (dRdX : mat) (dRdlam : vec) (dirC_prev : vec) : mat := fun i j =>
  if Nat.ltb i n then (if Nat.ltb j n then dRdX i j * CtoP j else dRdlam i * CtoP n) else dirC_prev j.
Definition predict (W : world) (n k : nat) (CtoP : vec) (RPtoC : scale) (b : R) (dyn : bool)
           (XlamP0 XlamPprev dirC_prev : vec) : result (vec * scale) :=
  do (Rr, G) <- w_fun W XlamP0 true;
  match G with
  | None => Err ValueError
  | Some (dRdXP, dRdlamP) =>
    let A := predict_matrix n CtoP dRdXP dRdlamP dirC_prev in
    do dir0 <- w_lin W k A (fun i => if Nat.eqb i n then 1 else 0);
    let XC0 : vec := fun i => XlamP0 i / CtoP i in
    let c := (1 - b) / norm2 n XC0 ^ 2 in
    let step_sq := c * norm2 n dir0 ^ 2 + b * dir0 n ^ 2 in
    let dir1 : vec := fun i => dir0 i / sqrt step_sq in
    let dprev : vec := fun i => (XlamP0 i - XlamPprev i) / CtoP i in
    let signarg := c * dot n dir1 dprev + b * dir1 n * dprev n in
    let sign := if Req_EM_T (Rsign signarg) 0 then 1 else Rsign signarg in
    let RPtoC' := if dyn then Num (1 / max_diag n (fun i => A i i))
                  else Num (match RPtoC with Num r => r | Vec v => rsum (n + 1) v / INR (n + 1) end) in
    Ok (fun i => dir1 i * sign, RPtoC')
  end.

(** pseudo_arc_res, continuation.py 348-402 *)
Definition pseudo_arc_res (n : nat) (XlamC XlamC0 : vec) (ds b c : R) : R * vec :=
  let dlamC := XlamC n - XlamC0 n in
  let dXC : vec := fun i => XlamC i - XlamC0 i in
  let dstep_sq := c * norm2 n dXC ^ 2 + b * dlamC ^ 2 in
  ((dstep_sq - ds ^ 2) / ds ^ 2, fun j => (if Nat.ltb j n then 2 * c * dXC j else 2 * b * dlamC) / ds ^ 2).

(** orthogonal_arc_res, continuation.py 404-456 *)
Definition orthogonal_arc_res (n : nat) (XlamC XlamC0 dirC : vec) (ds b c : R) : R * vec :=
  let d : vec := fun i => XlamC i - (XlamC0 i + dirC i * ds) in
  ((c * dot n d dirC + b * d n * dirC n) / ds, fun j => (if Nat.ltb j n then c * dirC j else b * dirC n) / ds).

(** correct_res, continuation.py 458-536.  RPtoC is a number here: predict has run before (340, 344).
    dirC is always given by continuation(). *)
Definition correct_res (W : world) (n : nat) (CtoP : vec) (RPtoC : R) (b : R) (corr : corrector)
           (XlamC0 : vec) (ds : R) (dirC : vec) (XlamC : vec) (calc_grad : bool) : result (vec * option mat) :=
  let XlamP : vec := fun i => XlamC i * CtoP i in
  do (Rr, G) <- w_fun W XlamP calc_grad;
  let c := (1 - b) / norm2 n XlamC0 ^ 2 in
  do (Rarc, dRarc) <- match corr with
                      | Pseudo => Ok (pseudo_arc_res n XlamC XlamC0 ds b c)
                      | Ortho => Ok (orthogonal_arc_res n XlamC XlamC0 dirC ds b c)
                      | OtherCorrector => Err AssertionError
                      end;
  let Raug : vec := fun i => if Nat.ltb i n then RPtoC * Rr i else Rarc in
  if calc_grad then
    match G with
    | None => Err ValueError
    | Some (dRdXP, dRdlamP) =>
      Ok (Raug, Some (fun i j => if Nat.ltb i n
                                 then RPtoC * (if Nat.ltb j n then dRdXP i j * CtoP j else dRdlamP i * CtoP n)
                                 else dRarc j))
    end
  else Ok (Raug, None).

(** _initial_wrapper_fun, continuation.py 893-921 *)
Definition initial_fun (W : world) (n : nat) (lam0 : R) (X : vec) (calc_grad : bool) : result (vec * option mat) :=
  do (Rr, G) <- w_fun W (with_entry n X lam0) calc_grad;
  Ok (Rr, match G with Some (dRdX, _) => Some dRdX | None => None end).

(** what happens during a run: attempts of the corrector (step size, FracLam, success) and callback calls *)
Inductive event :=
| Attempt (ds b : R) (success : bool)
| CbInit (XlamP : vec)              (* callback(XlamP, nan) *)
| CbPoint (XlamP dirP : vec)        (* callback(XlamP, dirP) *)
| CbEnd (dirP : vec).               (* callback(nan, dirP) *)

(** variables of the loop: conditioning, FracLam, step size, previous points, direction, call counter, last solution
    (XlamC does not exist before the first corrector call), trace (latest event first) *)
Record loop_state := mkSt {
  l_CtoP : vec; l_RPtoC : scale; l_b : R; l_ds : R; l_prev : vec; l_cur : vec; l_dirC : vec; l_k : nat;
  l_XlamC : option vec; l_success : bool; l_nfev : nat; l_trace : list event }.

(** retry loop, continuation.py 816-829 *)
Fixpoint retry (fuel : nat) (W : world) (n : nat) (conf : config) (RP : R) (st : loop_state) : result loop_state :=
  if (negb (l_success st) && Rltb (c_dsmin conf) (l_ds st))%bool then
    match fuel with
    | O => Err NoReturn
    | S fuel' =>
      let ds := Rmax (l_ds st / 2) (c_dsmin conf) in
      let XlamC0 : vec := fun i => l_cur st i / l_CtoP st i in
      do (Xs, nfev) <- w_nsolve W (l_k st) (correct_res W n (l_CtoP st) RP (l_b st) (c_corrector conf) XlamC0 ds (l_dirC st))
                               (fun i => XlamC0 i + l_dirC st i * ds);
      retry fuel' W n conf RP
        (mkSt (l_CtoP st) (l_RPtoC st) (l_b st) ds (l_prev st) (l_cur st) (l_dirC st) (S (l_k st))
              (Some (fst Xs)) (snd Xs) nfev (Attempt ds (l_b st) (snd Xs) :: l_trace st))
    end
  else Ok st.

(** loop over FracLamList, continuation.py 796-836 *)
Fixpoint frac_loop (fuel : nat) (W : world) (n : nat) (conf : config) (fl : list R) (st : loop_state) : result loop_state :=
  match fl with
  | [] => Ok st
  | b :: fl' =>
    do (dirC, RPtoC) <- predict W n (l_k st) (l_CtoP st) (l_RPtoC st) b (c_DynamicCtoP conf) (l_cur st) (l_prev st) (l_dirC st);
    let RP := sc RPtoC 0 in
    let XlamC0 : vec := fun i => l_cur st i / l_CtoP st i in
    do (Xs, nfev) <- w_nsolve W (S (l_k st)) (correct_res W n (l_CtoP st) RP b (c_corrector conf) XlamC0 (l_ds st) dirC)
                             (fun i => XlamC0 i + dirC i * l_ds st);
    do st' <- retry fuel W n conf RP
      (mkSt (l_CtoP st) RPtoC b (l_ds st) (l_prev st) (l_cur st) dirC (S (S (l_k st)))
            (Some (fst Xs)) (snd Xs) nfev (Attempt (l_ds st) b (snd Xs) :: l_trace st));
    if l_success st' then Ok st' else frac_loop fuel W n conf fl' st'
  end.

(** loop condition, continuation.py 787-789 (without the step counter); lam is the last stored value *)
Definition in_range (conf : config) (direct lam0 lam1 lam : R) : bool :=
  (Rltb (direct * lam) (direct * lam1) &&
   match c_backtrackStop conf with None => true | Some bs => Rltb (direct * (lam0 - direct * bs)) (direct * lam) end)%bool.

(** step size update, continuation.py 852-855 *)
Definition next_ds (conf : config) (ds : R) (nfev : nat) : R :=
  Rmin (Rmax (ds * Rmin (c_TargetNfev conf / INR nfev) (c_MaxIncrease conf)) (c_dsmin conf)) (c_dsmax conf).

Definition add_event (on : bool) (e : event) (t : list event) : list event := if on then e :: t else t.

(** main loop, continuation.py 787-864; [todo] is MaxSteps - step, [pts] the stored points (latest first) *)
Fixpoint main_loop (todo fuel : nat) (W : world) (n : nat) (conf : config) (silent : bool) (CtoP0 : vec) (direct lam0 lam1 : R)
         (pts : list vec) (st : loop_state) : result (list vec * loop_state) :=
  match todo with
  | O => Ok (pts, st)
  | S todo' =>
    let last := match pts with p :: _ => p | [] => l_cur st end in
    if in_range conf direct lam0 lam1 (last n) then
      let CtoP : vec := if c_DynamicCtoP conf then (fun i => Rmax (Rabs (last i)) (CtoP0 i)) else l_CtoP st in
      do st1 <- frac_loop fuel W n conf (c_FracLamList conf)
        (mkSt CtoP (l_RPtoC st) (l_b st) (l_ds st) (l_prev st) (l_cur st) (l_dirC st) (l_k st) (l_XlamC st) (l_success st) (l_nfev st) (l_trace st));
      if (negb (l_success st1) && negb silent)%bool then Ok (pts, st1)
      else
        match l_XlamC st1 with
        | None => Err NameError
        | Some XlamC =>
          let new : vec := fun i => l_CtoP st1 i * XlamC i in
          if Nat.eqb (l_nfev st1) 0 then Err ZeroDivisionError
          else
            let st2 := mkSt (l_CtoP st1) (l_RPtoC st1) (l_b st1) (next_ds conf (l_ds st1) (l_nfev st1)) (l_cur st1) new (l_dirC st1)
                            (l_k st1) (l_XlamC st1) (l_success st1) (l_nfev st1)
                            (add_event (c_callback conf) (CbPoint new (fun i => l_dirC st1 i * l_CtoP st1 i)) (l_trace st1)) in
            main_loop todo' fuel W n conf silent CtoP0 direct lam0 lam1 (new :: pts) st2
        end
    else Ok (pts, st)
  end.

(** continuation, continuation.py 538-890.  Result: the returned points, the object after the run and the trace. *)
Definition continuation (fuel : nat) (W : world) (n : nat) (self : cont) (XlamP0 : vec) (lam0 lam1 : R)
  : result (list vec * cont * list event) :=
  let conf0 := k_conf self in
  let silent := Z.ltb (c_verbose conf0) 0 in
  let conf := if silent then set_verbose conf0 0 else conf0 in
  let CtoP : vec := if k_setCtoP self then (fun _ => 1) else k_CtoP self in
  let RP0 : scale := if k_setRPtoC self then Vec (fun _ => 1) else k_RPtoC self in
  let RPv : vec := sc RP0 in
  do (Xs, nfev) <- w_nsolve W 0 (conditioning_wrapper (initial_fun W n lam0) CtoP (Vec RPv)) (fun i => XlamP0 i / CtoP i);
  if snd Xs then
    let X : vec := fun i => fst Xs i * CtoP i in
    let start := with_entry n X lam0 in
    let direct := Rsign (lam1 - lam0) in
    let prev := with_entry n X (lam0 - direct) in
    match c_MaxSteps conf with
    | O => Err IndexError
    | S todo =>
      do (pts, st) <- main_loop todo fuel W n conf silent CtoP direct lam0 lam1 [start]
        (mkSt CtoP (Vec RPv) (c_FracLam conf) (c_ds0 conf) prev start (fun i => start i - prev i) 1 None true nfev
              (add_event (c_callback conf) (CbInit start) []));
      do (RPend, trace) <-
        (if c_callback conf then
           if l_success st then
             do (dirC, RP) <- predict W n (l_k st) (l_CtoP st) (l_RPtoC st) (l_b st) (c_DynamicCtoP conf) (l_cur st) (l_prev st) (l_dirC st);
             Ok (RP, CbEnd (fun i => dirC i * l_CtoP st i) :: l_trace st)
           else Ok (l_RPtoC st, CbEnd (fun i => l_dirC st i * l_CtoP st i) :: l_trace st)
         else Ok (l_RPtoC st, l_trace st));
      Ok (rev pts, mkCont (k_setCtoP self) (l_CtoP st) (k_setRPtoC self) RPend (set_FracLam conf (l_b st)), rev trace)
    end
  else Err AssertionError.
