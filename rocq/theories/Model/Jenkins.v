(** Model of /repo/tmdsimpy/nlforces/jenkins_element.py and of the time loop in
    /repo/tmdsimpy/nlforces/nonlinear_force.py (HystereticForce.local_force_history).

    Simplifications: one local displacement (Nnl = 1; for Nnl > 1 the Python code raises ValueError
    on `if np.abs(fnl) > self.Fs`), float64 -> R.  Attributes that do not exist before the
    first initialisation are [None]. *)
From Coq Require Import Reals List Arith Bool.
From Verif.Lib Require Import RSum Py.
Import ListNotations.
Open Scope R_scope.

(** The attributes of a JenkinsForce object (without Q and T).
    jenkins_element.py 40-47, 87-88, 110-115: up/fp exist after init_history or
    init_history_harmonic; dupduh/dfpduh only after init_history_harmonic. *)
Record jenkins := mkJ {
  j_kt : R;
  j_Fs : R;
  j_prestress_Fs : R;
  j_real_Fs : R;
  j_hist : option (R * R);            (* (up, fp) *)
  j_dhist : option (vec * vec)        (* (dupduh, dfpduh) *)
}.

(** __init__, jenkins_element.py 40-47 *)
Definition j_new (kt Fs : R) : jenkins := mkJ kt Fs 0 Fs None None.

(** set_prestress_mu, jenkins_element.py 50-60 *)
Definition j_set_prestress_mu (s : jenkins) : jenkins :=
  mkJ (j_kt s) (j_prestress_Fs s) (j_prestress_Fs s) (j_real_Fs s) (j_hist s) (j_dhist s).

(** reset_real_mu, jenkins_element.py 62-72 *)
Definition j_reset_real_mu (s : jenkins) : jenkins :=
  mkJ (j_kt s) (j_real_Fs s) (j_prestress_Fs s) (j_real_Fs s) (j_hist s) (j_dhist s).

Definition j_set_hist (s : jenkins) (up fp : R) : jenkins :=
  mkJ (j_kt s) (j_Fs s) (j_prestress_Fs s) (j_real_Fs s) (Some (up, fp)) (j_dhist s).

Definition j_set_dhist (s : jenkins) (dup dfp : vec) : jenkins :=
  mkJ (j_kt s) (j_Fs s) (j_prestress_Fs s) (j_real_Fs s) (j_hist s) (Some (dup, dfp)).

(** init_history, jenkins_element.py 74-88 *)
Definition j_init_history (s : jenkins) : jenkins := j_set_hist s 0 0.

(** init_history_harmonic, jenkins_element.py 90-117: up = unlth0, fp = 0,
    dupduh = e_0 ("Base slider position taken as zeroth harmonic"), dfpduh = 0. *)
Definition j_init_history_harmonic (s : jenkins) (unlth0 : R) : jenkins :=
  j_set_dhist (j_set_hist s unlth0 0) (fun c => if Nat.eqb c 0 then 1 else 0) (fun _ => 0).

(** update_history, jenkins_element.py 119-137 *)
Definition j_update_history (s : jenkins) (unl fnl : R) : jenkins := j_set_hist s unl fnl.

(** The force law shared by `force` (162-172) and `instant_force` (215-228), jenkins_element.py:
    returns fnl, dfnldunl, dfnldup, dfnldfp. *)
Definition j_law (kt Fs up fp unl : R) : R * R * R * R :=
  let fnl := kt * (unl - up) + fp in
  if Rltb Fs (Rabs fnl)
  then (Rsign fnl * Fs, 0, 0, 0)
  else (fnl, kt, - kt, 1).

Definition j_f (r : R * R * R * R) : R := let '(f, _, _, _) := r in f.

(** force, jenkins_element.py 139-181, at the local level: input unl = Q @ X, output the local
    force and its local derivative (F = T fnl and dFdX = T dfnldunl Q are in VibSys/Element files).
    AttributeError if no history was initialised. *)
Definition j_force (s : jenkins) (unl : R) (update_hist : bool) : result (jenkins * R * R) :=
  match j_hist s with
  | None => Err AttributeError
  | Some (up, fp) =>
      let '(fnl, dfdu, _, _) := j_law (j_kt s) (j_Fs s) up fp unl in
      Ok (if update_hist then j_update_history s unl fnl else s, fnl, dfdu)
  end.

(** instant_force, jenkins_element.py 183-235 *)
Definition j_instant_force (s : jenkins) (unl : R) (update_prev : bool)
  : result (jenkins * (R * R * R * R)) :=
  match j_hist s with
  | None => Err AttributeError
  | Some (up, fp) =>
      let r := j_law (j_kt s) (j_Fs s) up fp unl in
      Ok (if update_prev then j_set_hist s unl (j_f r) else s, r)
  end.

(** instant_force_harmonic, jenkins_element.py 237-303. Note that dupduh/dfpduh are overwritten
    even when update_prev is False (301-302).  dfdudh is identically zero and omitted. *)
Definition j_instant_force_harmonic (s : jenkins) (unl : R) (cst : vec) (update_prev : bool)
  : result (jenkins * (R * vec)) :=
  do (s1, (fnl, dfdu, dfdup, dfdfp)) <- j_instant_force s unl update_prev;
  match j_dhist s1 with
  | None => Err AttributeError
  | Some (dupduh, dfpduh) =>
      let dfduh := fun c => dfdu * cst c + dfdup * dupduh c + dfdfp * dfpduh c in
      Ok (j_set_dhist s1 cst dfduh, (fnl, dfduh))
  end.

(** ---- HystereticForce.local_force_history, nonlinear_force.py 497-541 ---- *)
Section HystereticLoop.
  Context {St In D : Type}.
  (** one call of self.instant_force_harmonic(..., update_prev=True): new object state, force, and
      force derivative *)
  Variable step : St -> In -> result (St * (R * D)).

  (** the time loop `for ti in range(Nt)`, 521-530 *)
  Fixpoint time_loop (s : St) (inputs : list In) : result (St * list (R * D)) :=
    match inputs with
    | [] => Ok (s, [])
    | x :: rest =>
        do (s1, o) <- step s x;
        do (s2, os) <- time_loop s1 rest;
        Ok (s2, o :: os)
    end.

  (** np.finfo(float).eps = 2^-52 *)
  Definition float_eps : R := / 2 ^ 52.

  (** The variable `fp` of the loop.  Before the loop it is the number self.fp (513); at the end
      of each pass it is rebound to `ft[ti, :]` (537), which is a numpy VIEW of the last row of ft,
      so reading it after the next pass reads the new last row. *)
  Inductive fpref := FpVal (x : R) | FpLastRowView.

  Definition read_fp (r : fpref) (ft_last : R) : R :=
    match r with FpVal x => x | FpLastRowView => ft_last end.

  Definition last_force (os : list (R * D)) : R := last (map fst os) 0.

  (** acheck > atol and rcheck > rtol (515-516, 534-535), including numpy division by zero:
      x/0 is inf for x > 0 (comparison True) and nan for x = 0 (comparison False). *)
  Definition not_converged (atol rtol acheck ft_last : R) : bool :=
    Rltb atol acheck &&
    (if Req_EM_T (ft_last + float_eps) 0
     then Rltb 0 acheck
     else Rltb rtol (Rabs (acheck / (ft_last + float_eps)))).

  (** the while loop 515-537 after its first pass; [n] is the number of passes still allowed by
      `its < max_repeats` *)
  Fixpoint repeat_loop (n : nat) (atol rtol : R) (inputs : list In)
           (s : St) (os : list (R * D)) (acheck : R) : result (St * list (R * D)) :=
    match n with
    | O => Ok (s, os)
    | S n' =>
        if not_converged atol rtol acheck (last_force os)
        then do (s', os') <- time_loop s inputs;
             let acheck' := Rabs (last_force os' - read_fp FpLastRowView (last_force os')) in
             repeat_loop n' atol rtol inputs s' os' acheck'
        else Ok (s, os)
    end.

  (** [s0] is the object after init_history_harmonic(unlth0, h), [fp0] its fp attribute. An empty
      history raises (ti undefined, 534). *)
  Definition local_force_history (s0 : St) (fp0 : R) (inputs : list In)
             (max_repeats : nat) (atol rtol : R) : result (St * list (R * D)) :=
    match inputs with
    | [] => Err NameError
    | _ =>
      do (s1, os) <- time_loop s0 inputs;
      let acheck := Rabs (last_force os - read_fp (FpVal fp0) (last_force os)) in
      repeat_loop (max_repeats - 1) atol rtol inputs s1 os acheck
    end.
End HystereticLoop.

(** JenkinsForce.local_force_history(unlt, unltdot, h, cst, unlth0, ...): inherited loop with the
    Jenkins step.  An input is a row (unlt[ti], cst[ti]). *)
Definition jenkins_step (s : jenkins) (x : R * vec) : result (jenkins * (R * vec)) :=
  j_instant_force_harmonic s (fst x) (snd x) true.

Definition jenkins_local_force_history (s : jenkins) (inputs : list (R * vec)) (unlth0 : R)
           (max_repeats : nat) (atol rtol : R) : result (jenkins * list (R * vec)) :=
  local_force_history jenkins_step (j_init_history_harmonic s unlth0) 0 inputs max_repeats atol rtol.

(** default tolerances of aft and local_force_history, nonlinear_force.py 437, 546-547 *)
Definition default_tol : R := / 10 ^ 10.
