(** Vocabulary for statements about units: numbers of length, force and frequency expressed in other units (m or mm, N or kN, rad/s or rad/ms). *)
From Coq Require Import Reals List Arith.
From Verif.Lib Require Import RSum Py.
From Verif.Spec Require Import Harmonic Elements Slider.
From Verif.Model Require Import Harmonic VibSys SysElements Jenkins Iwan JaxFriction RoughContact SysHistory.
Import ListNotations.
Open Scope R_scope.

(** in the new units, every length is u_length times its old number, every force u_force times and every frequency u_freq times *)
Record units := mkUnits { u_length : R; u_force : R; u_freq : R }.
Definition positive_units (u : units) : Prop := 0 < u_length u /\ 0 < u_force u /\ 0 < u_freq u.

(** hence stiffness, stress, damping, mass *)
Definition u_stiffness (u : units) : R := u_force u / u_length u.
Definition u_stress (u : units) : R := u_force u / u_length u ^ 2.
Definition u_damping (u : units) : R := u_force u / (u_length u * u_freq u).
Definition u_mass (u : units) : R := u_force u / (u_length u * u_freq u ^ 2).

(** exponents of one monomial of the polynomial element *)
Definition monomial_degree (nnl : nat) (qq : nat -> nat -> nat) (c : nat) : nat := fold_right Nat.add O (map (qq c) (seq 0 nnl)).

(** the same element with its parameters in the new units: springs, and cubic dampers *)
Inductive spring_in (u : units) (N : nat) : nlforce -> nlforce -> Prop :=
| cubic_in nnl Q T k : spring_in u N (cubic_nl N nnl Q T k) (cubic_nl N nnl Q T (fun d => u_force u / u_length u ^ 3 * k d))
| quintic_in nnl Q T k : spring_in u N (quintic_nl N nnl Q T k) (quintic_nl N nnl Q T (fun d => u_force u / u_length u ^ 5 * k d))
| unilateral_in nnl Q T k Np delta :
    spring_in u N (unilateral_nl N nnl Q T k Np delta)
              (unilateral_nl N nnl Q T (fun d => u_stiffness u * k d) (fun d => u_force u * Np d) (fun d => u_length u * delta d))
| iwan_in nnl Q T kt Fs chi beta : 0 < kt -> 0 < Fs -> -1 < chi -> 0 <= beta ->
    spring_in u N (iwan_nl N nnl Q T kt Fs chi beta) (iwan_nl N nnl Q T (u_stiffness u * kt) (u_force u * Fs) chi beta)
| poly_in nnl cnl Q T E qq : (0 < nnl)%nat ->
    spring_in u N (poly_nl N nnl cnl Q T E qq) (poly_nl N nnl cnl Q T (fun r c => u_force u / u_length u ^ monomial_degree nnl qq c * E r c) qq).
Inductive force_in (u : units) (N : nat) : nlforce -> nlforce -> Prop :=
| a_spring f g : spring_in u N f g -> force_in u N f g
| damping_in nnl Q T c : force_in u N (damping_nl N nnl Q T c) (damping_nl N nnl Q T (fun d => u_force u / (u_length u * u_freq u) ^ 3 * c d)).

(** elements with a state: parameters and stored history; a derivative of a force by a displacement is a stiffness, slider forces of the Iwan
    element are stored per unit of their weight (a stiffness) *)
Definition jenkins_units (u : units) (s : jenkins) : jenkins :=
  mkJ (u_stiffness u * j_kt s) (u_force u * j_Fs s) (u_force u * j_prestress_Fs s) (u_force u * j_real_Fs s)
      (option_map (fun p => (u_length u * fst p, u_force u * snd p)) (j_hist s))
      (option_map (fun p => (fst p, fun c => u_stiffness u * snd p c)) (j_dhist s)).
Definition iwan_units (u : units) (s : iwan) : iwan :=
  mkIw (iw_n s) (fun i => u_length u * iw_phi s i) (fun i => u_stiffness u * iw_w s i) (u_length u * iw_up s) (u_force u * iw_fp s)
       (fun i => u_length u * iw_fs s i) (iw_dhist s).
Definition eldry_units (u : units) (s : eldry) : eldry :=
  let P := ed_pars s in
  mkED (mkEP (u_stiffness u * ep_kt P) (u_stiffness u * ep_kn P) (ep_mu P) (u_length u * ep_gap P)) (ed_real_mu s) (ed_prestress_mu s)
       (option_map (fun v d => u_length u * v d) (ed_u0 s)) (fun d => u_length u * ed_up s d) (fun d => u_force u * ed_fp s d).
Definition material_units (u : units) (m : material) : material :=
  mkMaterial (u_length u * m_Re m) (m_poisson m) (u_stress u * m_Estar m) (u_stress u * m_Emod m) (u_stress u * m_Etan m) (u_length u * m_dy m)
             (u_stress u * m_Sys m) (u_stress u * m_Gstar m).
(** the weights count asperities *)
Definition rough_units (u : units) (r : rough) : rough :=
  mkRough (material_units u (r_mat r)) (r_n r) (fun i => u_length u * r_gaps r i) (r_weights r) (u_length u * r_meso r) (r_model r) (r_mu r).
(** with the tangential model 'TAN', the stored tangential quantities are forces *)
Definition rough_state_units (u : units) (s : rough_state) : rough_state :=
  mkRS (rs_mu s) (u_length u * rs_unmax s) (fun i => option_map (Rmult (u_force u)) (rs_Fm s i)) (fun d => u_length u * rs_u0 s d)
       (fun i j d => option_map (Rmult (u_force u)) (rs_fxy s i j d)) (fun i j => option_map (Rmult (u_length u)) (rs_radii s i j))
       (fun d => u_length u * rs_aft_u0 s d).

(** C relates the forces without memory *)
Inductive element_in (C : nlforce -> nlforce -> Prop) (u : units) : element -> element -> Prop :=
| instant_in f g : C f g -> element_in C u (ElInstant f) (ElInstant g)
| el_jenkins_in Q T s : element_in C u (ElJenkins Q T s) (ElJenkins Q T (jenkins_units u s))
| el_iwan_in Q T s : element_in C u (ElIwan Q T s) (ElIwan Q T (iwan_units u s))
| el_eldry_in p ne Q T s : element_in C u (ElEldry p ne Q T s) (ElEldry p ne Q T (eldry_units u s))
| el_rough_in Q T r s : r_model r = TAN ->
    element_in C u (ElRough Q T r s) (ElRough Q T (rough_units u r) (rough_state_units u s))
| el_jax_in Q T kt u0 Fs rf pf :
    element_in C u (ElJaxJenkins Q T kt u0 Fs rf pf)
               (ElJaxJenkins Q T (u_stiffness u * kt) (option_map (Rmult (u_length u)) u0) (u_force u * Fs) (u_force u * rf) (u_force u * pf)).

(** the same calls *)
Definition call_units (u : units) (c : sys_call) : sys_call :=
  match c with
  | SUpdate U => SUpdate (fun i => u_length u * U i)
  | SAftInit U => SAftInit (fun i => u_length u * U i)
  | SStatic U F => SStatic (fun i => u_length u * U i) (fun i => u_force u * F i)
  | c => c
  end.

(** harmonic coefficients of displacements, with the frequency behind them *)
Definition unknowns_units (u : units) (n : nat) (Uw : vec) : vec := fun i => if Nat.ltb i n then u_length u * Uw i else u_freq u * Uw i.

(** vectors and matrices that differ by a factor *)
Definition times (a : R) (x y : vec) : Prop := forall i, y i = a * x i.
Definition mtimes (a : R) (A B : mat) : Prop := forall i j, B i j = a * A i j.

(** the friction elements repeat the period if the force at its end is above 1e-10, a number without unit: they do so in both units *)
Definition same_passes (u : units) (N : nat) (h : list nat) (Nt : nat) (U : vec) (e : element) : Prop :=
  let motion := fun Q => repeat_samples Nt (fun n => local_motion N Q h U O (sample_phase Nt n)) in
  match e with
  | ElJenkins Q T s => 0 <= j_Fs s /\
      let f := Rabs (jenkins_law (j_kt s) (j_Fs s) (motion Q) (local_first_coef N Q U) (Nt - 1)) in (default_tol < f <-> default_tol < u_force u * f)
  | ElIwan Q T s => (forall i, (i < iw_n s)%nat -> 0 <= iw_phi s i) /\
      let f := Rabs (bank_law (iw_n s) (iw_w s) (iw_phi s) (motion Q) (local_first_coef N Q U) (Nt - 1)) in (default_tol < f <-> default_tol < u_force u * f)
  | _ => True
  end.

(** the same system without memory *)
Definition system_in (u : units) (s r : vibsys) : Prop :=
  vs_N r = vs_N s /\ mtimes (u_mass u) (vs_M s) (vs_M r) /\ mtimes (u_damping u) (vs_C s) (vs_C r) /\ mtimes (u_stiffness u) (vs_K s) (vs_K r) /\
  Forall2 (force_in u (vs_N s)) (vs_forces s) (vs_forces r).

(** what an AFT evaluation returns: harmonic forces, their derivatives by the displacements and by the frequency *)
Definition outputs_in (u : units) (a b : vec * mat * vec) : Prop :=
  times (u_force u) (fst (fst a)) (fst (fst b)) /\ mtimes (u_stiffness u) (snd (fst a)) (snd (fst b)) /\ times (u_force u / u_freq u) (snd a) (snd b).

(** the unknowns of epmc_res: static displacements, mass-normalised shapes, frequency, damping coefficient, logarithm of the amplitude *)
Definition mode_units (u : units) (N : nat) (h : list nat) (n : nat) (Uwxa : vec) : vec := fun i =>
  if Nat.ltb i (zi h * N) then u_length u * Uwxa i
  else if Nat.ltb i n then Uwxa i / sqrt (u_mass u)
  else if Nat.ltb i (n + 2) then u_freq u * Uwxa i
  else Uwxa i + ln (sqrt (u_mass u) * u_length u) / ln 10.
(** static forces, and a direction for the phase *)
Definition mode_forces (u : units) (N : nat) (h : list nat) (Fl : vec) : vec := fun i => if Nat.ltb i (zi h * N) then u_force u * Fl i else Fl i.
