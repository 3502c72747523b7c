(** Model of the rough contact friction element: /repo/tmdsimpy/jax/nlforces/roughcontact/_asperity_functions.py ("asp") and
    rough_contact.py ("rc").  Quantities of the asperities are arrays over asperities in the code; here each function is written for one
    asperity.  Material parameters are real numbers; division by a combination of them is division of reals. *)
From Coq Require Import Reals List Arith Bool.
From Verif.Lib Require Import RSum Py.
From Verif.Model Require Import Harmonic LocalForces Aft JaxDual JaxFloat.
Import ListNotations.
Open Scope R_scope.

(** np.finfo(float).eps *)
Definition float_eps : R := / 2 ^ 52.

(** attributes set by __init__ (rc 126-160) and used as material parameters *)
Record material := mkMaterial { m_Re : R; m_poisson : R; m_Estar : R; m_Emod : R; m_Etan : R; m_dy : R; m_Sys : R; m_Gstar : R }.

(** rc 126-160: the parameters computed from the arguments of __init__ *)
Definition hard_C (poisson : R) : R := 1295/1000 * exp (736/1000 * poisson).
Definition new_material (ElasticMod PoissonRatio Radius TangentMod YieldStress : R) : material :=
  let Estar := ElasticMod / 2 / (1 - PoissonRatio ^ 2) in
  let shear_mod := ElasticMod / 2 / (1 + PoissonRatio) in
  let Gstar := shear_mod / 2 / (2 - PoissonRatio) in
  let delta_y1s := (PI * hard_C PoissonRatio * YieldStress / (2 * (2 * Estar))) ^ 2 * (2 * Radius) in
  mkMaterial Radius PoissonRatio Estar ElasticMod TangentMod (delta_y1s * 2) YieldStress Gstar.

(** what the normal force functions return: force, contact radius, permanent deformation and flattened radius *)
Record normal_result := mkNormal { n_fn : fdual; n_a : fdual; n_deltabar : fdual; n_Rebar : fdual }.

(** _normal_el_asperity_loading, asp 26-57 *)
Definition normal_el (m : material) (un : fdual) : normal_result :=
  let pos_un := fwhere (fle (fconst 0) un) un (fconst 0) in
  let a := fsqrt (fscal (2 * m_Re m) (fdivc pos_un 2)) in
  let a := fwhere (flt (fconst 0) un) a (fconst 0) in
  let fn := fscal (4 * (2 * m_Estar m) * sqrt (2 * m_Re m) / 3) (fpow (fdivc pos_un 2) (3/2)) in
  mkNormal fn a (fconst 0) (fconst (m_Re m)).

(** _normal_pl_asperity_loading, asp 61-151 *)
Definition upsilon (m : material) (pos_un : fdual) : fdual :=
  if Rltb (m_Etan m / m_Emod m) float_eps then fconst 0 else
  fdivc (fscal (-2 * sqrt (m_Emod m / m_Sys m))
               (fcpow (m_Etan m / m_Emod m) (fsub (fconst 1) (fdivc (fdivc (fsub pos_un (fconst (m_dy m))) 2) (m_Re m * 2)))))
        ((4 - 3 * exp (-2 * sqrt (m_Emod m / m_Sys m) * (m_Etan m / m_Emod m))) * (1 - m_Etan m / m_Emod m)).
Definition plastic_radius (m : material) (un : fdual) : fdual :=
  let C := hard_C (m_poisson m) in
  let pos_un := fwhere (fle (fconst 0) un) un (fconst 0) in
  let ae := fsqrt (fscal (2 * m_Re m) (fdivc pos_un 2)) in
  let B := 14/100 * exp (23 * m_Sys m / (2 * m_Estar m)) in
  let ap := fscal ((2 * m_Re m) * (PI * C * m_Sys m / (2 * 2 * m_Estar m)))
                  (fsqrt (fmul (fdivc pos_un (m_dy m)) (fpow (fdivc (fdivc pos_un (m_dy m)) (19/10)) B))) in
  fadd ae (fmul (fsub ap ae) (fexp (upsilon m pos_un))).
Definition normal_pl (m : material) (un : fdual) : normal_result :=
  let C := hard_C (m_poisson m) in
  let pos_un := fwhere (fle (fconst 0) un) un (fconst 0) in
  let a := plastic_radius m un in
  let H_Sys := fsub (fconst (284/100)) (fscal (92/100) (fsub (fconst 1) (fcos (fdivc (fscal PI a) (2 * m_Re m))))) in
  let Fc := 4/3 * (2 * m_Re m / (2 * m_Estar m)) ^ 2 * (C * PI * m_Sys m / 2) ^ 3 in
  let Fe := fscal (4 * (2 * m_Estar m) * sqrt (2 * m_Re m) / 3) (fpow (fdivc un 2) (3/2)) in
  let x := fdivc pos_un (m_dy m) in
  let Fp := fscal Fc (fadd (fmul (fexp (fscal (- (25/100)) (fpow x (5/12)))) (fpow x (3/2)))
                           (fmul (fmul (fdivc (fscal 4 H_Sys) C) (fsub (fconst 1) (fexp (fscal (- (1/25)) (fpow x (5/9)))))) x)) in
  let fn := fadd Fp (fscal (1 - exp (- (33/10) * m_Etan m / m_Emod m)) (fsub Fe Fp)) in
  mkNormal fn a (fconst 0) (fconst (m_Re m)).

(** _normal_asperity_unloading, asp 155-196 *)
Definition normal_un (m : material) (un deltam Fm : fdual) : normal_result :=
  let deltabar := fmul deltam (fsub (fconst 1) (fdiv Fm (fscal (4/3 * m_Estar m * sqrt (m_Re m)) (fpow deltam (3/2))))) in
  let pos_un := fwhere (fle (fconst 0) (fsub un deltabar)) (fsub un deltabar) (fconst 0) in
  let pos_deltam := fwhere (fle (fconst 0) (fsub deltam deltabar)) (fsub deltam deltabar) (fconst 0) in
  let Rebar := fdiv (fipow Fm 2) (fscal ((4/3 * m_Estar m) ^ 2) (fipow pos_deltam 3)) in
  let a := fsqrt (fmul Rebar pos_un) in
  let a := fwhere (flt (fconst 0) pos_un) a (fconst 0) in
  let fn := fmul (fscal (4/3 * m_Estar m) (fsqrt Rebar)) (fpow pos_un (3/2)) in
  let fn := fwhere (flt (fconst 0) pos_un) fn (fconst 0) in
  mkNormal fn a deltabar Rebar.

(** _normal_asperity_general, asp 200-260 *)
Definition normal_where (b : bool) (x y : normal_result) : normal_result :=
  mkNormal (fwhere b (n_fn x) (n_fn y)) (fwhere b (n_a x) (n_a y)) (fwhere b (n_deltabar x) (n_deltabar y)) (fwhere b (n_Rebar x) (n_Rebar y)).
Definition normal_general (m : material) (un deltam Fm : fdual) : normal_result :=
  let threshold := fconst (19/10 * m_dy m) in
  let elastic_flag := flt un threshold && flt deltam threshold in
  let yielding_flag := flt deltam un && flt threshold un in
  normal_where yielding_flag (normal_pl m un) (normal_where elastic_flag (normal_el m un) (normal_un m un deltam Fm)).

(** _tangential_asperity, asp 266-299, one asperity and one direction *)
Definition tangential (m : material) (mu : R) (uxy uxy0 fxy0 fn a : fdual) : fdual :=
  let kt := fscal (8 * m_Gstar m) a in
  let fxy := fadd (fmul kt (fsub uxy uxy0)) fxy0 in
  let fs := fscal mu fn in
  fmax (fmin fxy fs) (fscal (-1) fs).

(** jnp.interp(x, xp, fp, left=0, right=0) with n points, as called in asp 302-327; xp sorted.  Points closer than
    np.spacing(np.finfo(float).eps) = 2**-104 are treated as one. *)
Definition finterp (n : nat) (x : fdual) (xp fp : nat -> fdual) : fdual :=
  let i := Nat.min (Nat.max (length (filter (fun j => fle (xp j) x) (seq 0 n))) 1) (n - 1) in
  let df := fsub (fp i) (fp (i - 1)%nat) in
  let dx := fsub (xp i) (xp (i - 1)%nat) in
  let delta := fsub x (xp (i - 1)%nat) in
  let dx0 := match fval dx with Some d => Rleb (Rabs d) (/ 2 ^ 104) | None => false end in
  let f := fwhere dx0 (fp (i - 1)%nat) (fadd (fp (i - 1)%nat) (fmul (fdiv delta (fwhere dx0 (fconst 1) dx)) df)) in
  let f := fwhere (flt x (xp O)) (fconst 0) f in
  fwhere (flt (xp (n - 1)%nat) x) (fconst 0) f.

(** _tangential_asperity_mif, asp 329-429, one asperity and one direction; n radii *)
Definition kt_tilde (r : R) : R :=
  if Rltb 0 (1 - r ^ 2) then 8709/10000 + (1 - 8709/10000) / sqrt (1 - r ^ 2) + 629/10000 * r - 8915/10000 * r ^ 2 + 6998/10000 * r ^ 3 else 0.
Definition mif_radii (a : fdual) (radii : nat -> R) (j : nat) : fdual := fscal (radii j) a.
Definition mif_traction (m : material) (mu : R) (n : nat) (radii : nat -> R) (uxy uxy0 : fdual) (txy0 : nat -> fdual) (fn a : fdual)
           (quad_radii0 : nat -> fdual) (j : nat) : fdual :=
  let txy0_interp := finterp n (mif_radii a radii j) quad_radii0 txy0 in
  let Kt_tot := fscal (8 * m_Gstar m) a in
  let kt_local := fwhere (flt (fconst 0) fn) (fscal (kt_tilde (radii j)) (fdivc (fdiv Kt_tot (fipow a 2)) PI)) (fconst 0) in
  let tn := fwhere (flt (fconst 0) fn) (fscal (sqrt (1 - radii j ^ 2)) (fdiv (fscal 3 fn) (fscal (2 * PI) (fipow a 2)))) (fconst 0) in
  let txy := fadd (fmul kt_local (fsub uxy uxy0)) txy0_interp in
  fmax (fmin txy (fscal mu tn)) (fscal (- mu) tn).
Definition mif_force (n : nat) (radii weights : nat -> R) (a : fdual) (txy : nat -> fdual) : fdual :=
  fmul (fscal (2 * PI) (fipow a 2)) (fsum n (fun j => fscal (weights j) (fscal (radii j) (txy j)))).

(** tangent_model; MIF n: N_radial_quad = n radial quadrature points *)
Inductive tangent_model := TAN | MIF (n : nat).

(** the attributes that do not change: material, Nasp asperities with gaps and weights, mesoscale gap, tangential model *)
Record rough := mkRough { r_mat : material; r_n : nat; r_gaps : nat -> R; r_weights : nat -> R; r_meso : R; r_model : tangent_model; r_mu : R }.

(** quad_radii = np.linspace(0, 1, n) and weight_radii, rc 182-191 *)
Definition quad_radii (n : nat) (j : nat) : R := if Nat.eqb n 1 then 0 else INR j / INR (n - 1).
Definition raw_weight (n : nat) (j : nat) : R := if Nat.eqb j 0 || Nat.eqb j (n - 1) then 1 else 2.
Definition weight_radii (n : nat) (j : nat) : R := raw_weight n j / rsum n (raw_weight n).

(** fxy0 (asperity, radius, direction; radius 0 only for 'TAN') and quad_radii0 (asperity, radius) *)
Definition tractions := nat -> nat -> nat -> fdual.
(** the tangential part of _static_force (rc 737-751) and _local_loop_body (rc 863-879): total tangential force, new fxy and radii *)
Definition tangential_part (r : rough) (mu : R) (uxy uxy0 : nat -> fdual) (fxy0 : tractions) (radii0 : nat -> nat -> fdual)
           (fn a : nat -> fdual) : (nat -> fdual) * tractions * (nat -> nat -> fdual) :=
  match r_model r with
  | TAN =>
      let fxy := fun i (_ : nat) d => tangential (r_mat r) mu (uxy d) (uxy0 d) (fxy0 i O d) (fn i) (a i) in
      (fun d => fsum (r_n r) (fun i => fscal (r_weights r i) (fxy i O d)), fxy, radii0)
  | MIF n =>
      let txy := fun i j d => mif_traction (r_mat r) mu n (quad_radii n) (uxy d) (uxy0 d) (fun j => fxy0 i j d) (fn i) (a i) (radii0 i) j in
      (fun d => fsum (r_n r) (fun i => fscal (r_weights r i) (mif_force n (quad_radii n) (weight_radii n) (a i) (fun j => txy i j d))),
       txy, fun i j => mif_radii (a i) (quad_radii n) j)
  end.

(** ---- static evaluation ---- *)
(** the attributes that change.  Stored numbers are not differentiated. *)
Record rough_state := mkRS { rs_mu : R; rs_unmax : R; rs_Fm : nat -> option R; rs_u0 : vec;
                             rs_fxy : nat -> nat -> nat -> option R; rs_radii : nat -> nat -> option R; rs_aft_u0 : vec }.

(** _static_force, rc 664-763: x, y and n forces; maximum normal forces, tangential forces and radii for the history *)
Record static_result := mkStatic { st_f : nat -> fdual; st_fn : nat -> fdual; st_a : nat -> fdual; st_Fm : nat -> fdual; st_fxy : tractions;
                                   st_radii : nat -> nat -> fdual }.
Definition static_force (r : rough) (s : rough_state) (uxyn : nat -> fdual) : static_result :=
  let deltam := fun i => fconst (rs_unmax s - r_meso r - r_gaps r i) in
  let un := fun i => fsub (fsub (uxyn 2%nat) (fconst (r_meso r))) (fconst (r_gaps r i)) in
  let res := fun i => normal_general (r_mat r) (un i) (deltam i) (fstored (rs_Fm s i)) in
  let fn := fun i => n_fn (res i) in
  let a := fun i => n_a (res i) in
  let '(fxy, fxy_curr, radii) :=
    tangential_part r (rs_mu s) uxyn (fun d => fconst (rs_u0 s d)) (fun i j d => fstored (rs_fxy s i j d)) (fun i j => fstored (rs_radii s i j)) fn a in
  mkStatic (fun d => if Nat.ltb d 2 then fxy d else fsum (r_n r) (fun i => fscal (r_weights r i) (fn i)))
           fn a (fun i => fmax (fn i) (fstored (rs_Fm s i))) fxy_curr radii.

(** __init__ and init_history, rc 123-215 and 230-270; the initial u0 by rc 195-212 *)
Inductive u0_arg := U0Scalar (x : R) | U0Array (len : nat) (v : vec).
Definition new_u0 (u : u0_arg) : result vec :=
  match u with
  | U0Scalar x => Ok (fun d => if Nat.ltb d 2 then x else 0)
  | U0Array len v =>
      if Nat.eqb len 1 then Ok (fun d => if Nat.ltb d 2 then v O else 0)
      else if Nat.eqb len 2 then Ok (fun d => if Nat.ltb d 2 then v d else 0)
      else if Nat.eqb len 3 then Ok v
      else Err AssertionError
  end.
Definition init_history (s : rough_state) : rough_state :=
  mkRS (rs_mu s) 0 (fun _ => Some 0) (fun _ => 0) (fun _ _ _ => Some 0) (fun _ _ => Some 0) (rs_aft_u0 s).
Definition rough_new (r : rough) (u0 : u0_arg) : result rough_state :=
  do v <- new_u0 u0; Ok (init_history (mkRS (r_mu r) 0 (fun _ => Some 0) (fun _ => 0) (fun _ _ _ => Some 0) (fun _ _ => Some 0) v)).

(** update_history, rc 273-304 *)
Definition update_history (s : rough_state) (uxyn : vec) (res : static_result) : rough_state :=
  mkRS (rs_mu s) (Rmax (uxyn 2%nat) (rs_unmax s)) (fun i => fval (st_Fm res i)) uxyn (fun i j d => fval (st_fxy res i j d))
       (fun i j => fval (st_radii res i j)) (rs_aft_u0 s).
(** the methods called between analyses: force (rc 358-448), init_history, set_prestress_mu, reset_real_mu, set_aft_initialize (rc 306-355).
    N global degrees of freedom. *)
Definition seeded_local (N : nat) (Q : mat) (X : vec) (d : nat) : fdual := fdual_of (dseed (matvec N Q X) d).
Definition rough_force (r : rough) (N : nat) (Q : mat) (s : rough_state) (X : vec) (update_hist : bool) : rough_state * static_result :=
  let res := static_force r s (seeded_local N Q X) in
  ((if update_hist then update_history s (matvec N Q X) res else s), res).
(** F = T @ fnl and dFdX = T @ dfnldunl @ Q *)
Definition force_values (T : mat) (res : static_result) : option vec :=
  if all_values 3 (st_f res) then Some (fun i => matvec 3 T (fun d => getR (fval (st_f res d))) i) else None.
Definition force_jacobian (T Q : mat) (res : static_result) : option mat :=
  if all_tangents 3 (st_f res) then Some (matmul 3 (matmul 3 T (fun d e => getV (ftan (st_f res d)) e)) Q) else None.

Inductive rough_call := RForce (X : vec) (update_hist : bool) | RInitHistory | RSetPrestressMu | RResetRealMu | RSetAftInitialize (X : vec).
Definition rough_step (r : rough) (N : nat) (Q : mat) (s : rough_state) (c : rough_call) : rough_state :=
  match c with
  | RForce X upd => fst (rough_force r N Q s X upd)
  | RInitHistory => init_history s
  | RSetPrestressMu => mkRS 0 (rs_unmax s) (rs_Fm s) (rs_u0 s) (rs_fxy s) (rs_radii s) (rs_aft_u0 s)
  | RResetRealMu => mkRS (r_mu r) (rs_unmax s) (rs_Fm s) (rs_u0 s) (rs_fxy s) (rs_radii s) (rs_aft_u0 s)
  | RSetAftInitialize X => mkRS (rs_mu s) (rs_unmax s) (rs_Fm s) (rs_u0 s) (rs_fxy s) (rs_radii s) (matvec N Q X)
  end.
Definition rough_run (r : rough) (N : nat) (Q : mat) (s : rough_state) (cs : list rough_call) : rough_state := fold_left (rough_step r N Q) cs s.

(** ---- harmonic evaluation ---- *)
(** _local_loop_body, rc 797-887; deltam and Fm are not changed by the loop *)
Record loop_state := mkLoop { lp_f : nat -> nat -> fdual; lp_u0 : nat -> fdual; lp_fxy : tractions; lp_radii : nat -> nat -> fdual }.
Definition loop_un (r : rough) (unlt : nat -> nat -> fdual) (ind i : nat) : fdual :=
  fsub (fsub (unlt ind 2%nat) (fconst (r_meso r))) (fconst (r_gaps r i)).
Definition loop_body (r : rough) (mu : R) (deltam Fm : nat -> fdual) (unlt : nat -> nat -> fdual) (ind : nat) (s : loop_state) : loop_state :=
  let res := fun i => normal_un (r_mat r) (loop_un r unlt ind i) (deltam i) (Fm i) in
  let fn := fun i => n_fn (res i) in
  let a := fun i => n_a (res i) in
  let '(fxy, fxy_curr, radii) := tangential_part r mu (unlt ind) (lp_u0 s) (lp_fxy s) (lp_radii s) fn a in
  mkLoop (fun t d => if Nat.eqb t ind then (if Nat.ltb d 2 then fxy d else fsum (r_n r) (fun i => fscal (r_weights r i) (fn i))) else lp_f s t d)
         (unlt ind) fxy_curr radii.

(** _local_force_history, rc 890-983: Nt samples (instant, degree of freedom) *)
Definition start_deltam (r : rough) (i : nat) : fdual := fconst (0 - r_meso r - r_gaps r i).
Definition loop_max (r : rough) (Nt : nat) (unlt : nat -> nat -> dual) (i : nat) : fdual :=
  fsub (fsub (fmaximum Nt (fun t => unlt t 2%nat)) (fconst (r_meso r))) (fconst (r_gaps r i)).
Definition loop_Fm (r : rough) (Nt : nat) (unlt : nat -> nat -> dual) (i : nat) : fdual :=
  n_fn (normal_general (r_mat r) (loop_max r Nt unlt i) (start_deltam r i) (fconst 0)).
Definition loop_start (r : rough) (start : nat -> R) : loop_state :=
  mkLoop (fun _ _ => fconst 0) (fun d => fconst (start d)) (fun _ _ _ => fconst 0)
         (fun _ j => match r_model r with TAN => fconst 0 | MIF n => fconst (quad_radii n j) end).
Definition rough_history (r : rough) (mu : R) (Nt : nat) (unlt : nat -> nat -> dual) (start : nat -> R) (repeats : nat) : nat -> nat -> fdual :=
  let body := loop_body r mu (loop_max r Nt unlt) (loop_Fm r Nt unlt) (fun t d => fdual_of (unlt t d)) in
  lp_f (fold_left (fun s _ => fori_loop 0 Nt body s) (seq 0 repeats) (loop_start r start)).

(** _local_aft, rc 993-1038.  The Fourier coefficients of a column are finite if all samples are. *)
Definition rough_local (r : rough) (mu : R) (u0 : vec) (h : list nat) (Nt repeats : nat) (Ulocal : nat -> nat -> dual)
  : result (nat -> nat -> fdual) :=
  do (n, unlt) <- ts_dual Nt h Ulocal;
  let ft := rough_history r mu n unlt u0 repeats in
  do F <- gfc_dual h n (fun t d => fdual_get (ft t d));
  Ok (fun c d => mkF (if all_values n (fun t => ft t d) then Some (dv (F c d)) else None)
                     (if all_tangents n (fun t => ft t d) then Some (dt (F c d)) else None)).

(** aft, rc 522-654.  The first component is the force (all that calc_grad = False returns), the second the derivatives; None if some
    number in it is not finite. *)
Definition rough_aft (r : rough) (N : nat) (Q T : mat) (s : rough_state) (U : vec) (w : R) (h : list nat) (Nt repeats : nat)
  : result (option vec * option (mat * vec)) :=
  let nhc := aft_Nhc h in
  let local := rough_local r (rs_mu s) (rs_aft_u0 s) h Nt repeats in
  do (F, dU, dw) <- jax_aft N 3 Q T (fun Ul => do G <- local Ul; Ok (fun c d => fdual_get (G c d))) U w h;
  do G <- local (fun c d => dseed (fun i => if Nat.ltb i (nhc * 3) then aft_Unl N Q U (i / 3) (i mod 3) else w) (c * 3 + d)%nat);
  let G := fun p => G (p / 3)%nat (p mod 3)%nat in
  Ok (if all_values (nhc * 3) G then Some F else None, if all_tangents (nhc * 3) G then Some (dU, dw) else None).

(** local_force_history, rc 450-519: the forces only; the caller's unlth0 is the initial position *)
Definition rough_local_force_history (r : rough) (s : rough_state) (Nt : nat) (unlt : nat -> nat -> R) (unlth0 : vec) (max_repeats : nat)
  : nat -> nat -> option R :=
  fun t d => fval (rough_history r (rs_mu s) Nt (fun t d => dconst (unlt t d)) unlth0 max_repeats t d).
