(** Model of the alternating frequency-time evaluations of /repo/tmdsimpy/nlforces:
    InstantaneousForce.aft (nonlinear_force.py 202-304), GenPolyForce.aft
    (general_poly_stiffness.py 131-226) and HystereticForce.aft (nonlinear_force.py 546-664).
    N global and nnl local degrees of freedom; Q is (nnl,N), T is (N,nnl).  A coefficient vector holds
    component c of degree of freedom d at position c*N+d (column-major reshape). *)
From Coq Require Import Reals List Arith Bool.
From Verif.Lib Require Import RSum Py.
From Verif.Model Require Import Jenkins Harmonic LocalForces.
Open Scope R_scope.

(** time_series_deriv on a matrix of coefficients, column d being X d.  The errors depend on Nt and h only. *)
Definition ts_cols (Nt : nat) (h : list nat) (X : nat -> vec) (order : nat) : result (nat * (nat -> vec)) :=
  do (n, _) <- time_series_deriv Nt h (fun _ => 0) order;
  Ok (n, fun d => match time_series_deriv Nt h (X d) order with Ok (_, x) => x | Err _ => fun _ => 0 end).

(** get_fourier_coeff on a matrix of n samples, column d being x d.  The errors depend on h and n only. *)
Definition gfc_cols (h : list nat) (n : nat) (x : nat -> vec) : result (nat -> vec) :=
  do _ <- get_fourier_coeff h n (fun _ => 0);
  Ok (fun d => match get_fourier_coeff h n (x d) with Ok v => v | Err _ => fun _ => 0 end).

(** Nhc as computed in aft: 2*(h != 0).sum() + (h == 0).sum() *)
Definition aft_Nhc (h : list nat) : nat := (2 * count_nonzero h + count_zero h)%nat.

(** Unl = (Q @ reshape(U, (N, Nhc), 'F')).T : entry (component c, local degree of freedom d) *)
Definition aft_Unl (N : nat) (Q : mat) (U : vec) (c d : nat) : R :=
  matvec N Q (fun j => U (c * N + j)%nat) d.

(** columns of np.eye(Nhc) *)
Definition eye_col (c : nat) : vec := fun i => if Nat.eqb i c then 1 else 0.

(** np.kron(np.eye(Nhc), A) for A with nr rows and nc columns *)
Definition kron_eye (nr nc : nat) (A : mat) : mat :=
  fun r s => if Nat.eqb (r / nr) (s / nc) then A (r mod nr)%nat (s mod nc)%nat else 0.

(** Fnl = reshape(T @ F.T, 'F') with F (Nhc, nnl), F given by columns *)
Definition aft_global (N nnl : nat) (T : mat) (F : nat -> vec) : vec :=
  fun r => matvec nnl T (fun d => F d (r / N)%nat) (r mod N)%nat.

(** dFnldU = kron(eye(Nhc), T) @ J @ kron(eye(Nhc), Q) *)
Definition aft_dU (N nnl nhc : nat) (Q T J : mat) : mat :=
  matmul (nhc * nnl) (matmul (nhc * nnl) (kron_eye N nnl T) J) (kron_eye nnl N Q).

(** InstantaneousForce.aft, nonlinear_force.py 202-304.
    Returns Fnl, dFnldU and dFnldw.  reshape(cst, (Nt,1,Nhc)) fails when the series does not have Nt rows. *)
Definition aft_instantaneous (N nnl : nat) (Q T : mat) (law : local_law)
           (U : vec) (w : R) (h : list nat) (Nt : nat) : result (vec * mat * vec) :=
  let nhc := aft_Nhc h in
  let Unl := fun d c => aft_Unl N Q U c d in
  do (n, unlt) <- ts_cols Nt h Unl 0;
  do (_, unl1) <- ts_cols Nt h Unl 1;
  let unltdot := fun d t => w * unl1 d t in
  let ft := fun d t => law_f law d (unlt d t) (unltdot d t) in
  let dfdu := fun d t => law_du law d (unlt d t) (unltdot d t) in
  let dfdud := fun d t => law_dv law d (unlt d t) (unltdot d t) in
  do F <- gfc_cols h n ft;
  do (_, cst) <- ts_cols Nt h eye_col 0;
  if negb (Nat.eqb n Nt) then Err ValueError else
  do (_, sct) <- ts_cols Nt h eye_col 1;
  (* column (d, c') of dfduh flattened in column-major order: index d + nnl*c' *)
  let dfduh := fun e t => let d := (e mod nnl)%nat in let c' := (e / nnl)%nat in
                          dfdu d t * cst c' t + dfdud d t * (w * sct c' t) in
  do dF <- gfc_cols h n dfduh;
  let dFdUnl := fun c d c' => dF (d + nnl * c')%nat c in
  let J : mat := fun r s => if Nat.eqb (r mod nnl) (s mod nnl)
                            then dFdUnl (r / nnl)%nat (r mod nnl)%nat (s / nnl)%nat else 0 in
  let Fnl := aft_global N nnl T F in
  let dFnldU := aft_dU N nnl nhc Q T J in
  if Reqb w 0 then Ok (Fnl, dFnldU, fun _ => 0) else
  do dFdw <- gfc_cols h n (fun d t => dfdud d t * (unltdot d t / w));
  Ok (Fnl, dFnldU, aft_global N nnl T dFdw).

(** GenPolyForce.aft, general_poly_stiffness.py 131-226; the rows of local_force_history are given by
    [row], the forces and their Jacobian at one instant.  dFnldw is returned as zeros. *)
Definition aft_coupled (N nnl : nat) (Q T : mat) (row : vec -> vec * mat)
           (U : vec) (w : R) (h : list nat) (Nt : nat) : result (vec * mat * vec) :=
  let nhc := aft_Nhc h in
  do (n, unlt) <- ts_cols Nt h (fun d c => aft_Unl N Q U c d) 0;
  do (_, _) <- ts_cols Nt h (fun d c => aft_Unl N Q U c d) 1;
  let u := fun t d => unlt d t in
  let ft := fun d t => fst (row (u t)) d in
  let dfdu := fun t => snd (row (u t)) in
  do F <- gfc_cols h n ft;
  do (_, cst) <- ts_cols Nt h eye_col 0;
  if negb (Nat.eqb n Nt) then Err ValueError else
  (* column (di, dj, c') of dfduh: index di + nnl*(dj + nnl*c') *)
  let dfduh := fun e t => let di := (e mod nnl)%nat in let dj := ((e / nnl) mod nnl)%nat in
                          let c' := (e / nnl / nnl)%nat in dfdu t di dj * cst c' t in
  do dF <- gfc_cols h n dfduh;
  let dFdUnl := fun c di dj c' => dF (di + nnl * (dj + nnl * c'))%nat c in
  let J : mat := fun r s => dFdUnl (r / nnl)%nat (r mod nnl)%nat (s mod nnl)%nat (s / nnl)%nat in
  Ok (aft_global N nnl T F, aft_dU N nnl nhc Q T J, fun _ => 0).

(** HystereticForce.aft, nonlinear_force.py 546-664, for one local degree of freedom.
    [lfh n unlt cst unlth0] is local_force_history on n instants: it returns the new element state, the forces
    and the derivatives of the forces with respect to the local harmonic coefficients.
    (The time derivative of the displacement is also passed on but not used by the modelled elements.) *)
Definition aft_hysteretic {S : Type} (N : nat) (Q T : mat)
           (lfh : nat -> vec -> (nat -> vec) -> R -> result (S * (vec * (nat -> vec))))
           (U : vec) (h : list nat) (Nt : nat) : result (S * (vec * mat * vec)) :=
  let nhc := aft_Nhc h in
  let Unl := fun d c => aft_Unl N Q U c d in
  do (n, unlt) <- ts_cols Nt h Unl 0;
  do (_, _) <- ts_cols Nt h Unl 1;
  do (_, cst) <- ts_cols Nt h eye_col 0;
  do (s, out) <- lfh n (unlt O) (fun t c => cst c t) (Unl O O);
  let (ft, dfduh) := out in
  do F <- gfc_cols h n (fun _ => ft);
  if negb (Nat.eqb n Nt) then Err ValueError else
  do dF <- gfc_cols h n (fun c' t => dfduh t c');
  let J : mat := fun c c' => dF c' c in
  Ok (s, (aft_global N 1 T F, aft_dU N 1 nhc Q T J, fun _ => 0)).

(** JenkinsForce.aft: HystereticForce.aft with the Jenkins local_force_history
    (jenkins_element.py, nonlinear_force.py 546-664); default max_repeats, atol and rtol. *)
Definition jenkins_lfh (s : jenkins) (n : nat) (u : vec) (cst : nat -> vec) (u0 : R)
  : result (jenkins * (vec * (nat -> vec))) :=
  do (s', os) <- jenkins_local_force_history s (map (fun j => (u j, cst j)) (seq 0 n)) u0 2 default_tol default_tol;
  Ok (s', (fun k => nth k (map fst os) 0, fun k => nth k (map snd os) (fun _ => 0))).
Definition jenkins_aft (s : jenkins) (N : nat) (Q T : mat) (U : vec) (h : list nat) (Nt : nat)
  : result (jenkins * (vec * mat * vec)) := aft_hysteretic N Q T (jenkins_lfh s) U h Nt.
