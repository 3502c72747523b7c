(** Property C76: the linear modes of a system are its EPMC solutions without nonlinear forces. *)
From Coq Require Import Reals List Arith Bool.
From Verif.Lib Require Import RSum Py.
From Verif.Spec Require Import Harmonic System Energy LinearModes.
From Verif.Model Require Import Harmonic VibSys.
From Verif.Proofs Require Import LinearModesP.
Import ListNotations.
Open Scope R_scope.

(** * C76 *)
(** Without nonlinear forces, with a symmetric stiffness matrix, a symmetric positive definite mass matrix and damping al M + be K, the
    residual of epmc_res is zero exactly at the linear modes: static equilibrium plus a vibration in a linear mode of that frequency with
    modal mass 1 and the right phase, damping coefficient al + be w^2 and any amplitude.  Without stiffness damping (be = 0) there must not
    be a linear mode at a multiple of the frequency. *)
Theorem C76_modes : forall s h Nt X Fl al be, admissible h -> starts_with_1 h -> vs_forces s = [] ->
  let N := vs_N s in let n := (length (components h) * N)%nat in let w := X n in
  w <> 0 -> symmetric_matrix N (vs_M s) -> symmetric_matrix N (vs_K s) -> positive_definite N (vs_M s) ->
  proportional_damping N (vs_M s) (vs_C s) (vs_K s) al be -> be <> 0 \/ no_internal_resonance N h (vs_K s) (vs_M s) w ->
  exists Rr G, epmc_res s X Fl h Nt true = Ok (Rr, Some G) /\
    ((forall i, (i < n + 2)%nat -> Rr i = 0) <->
     exists us z y, modal_vibration N h us z y X /\ static_equilibrium N h (vs_K s) Fl us /\
       linear_mode N (vs_K s) (vs_M s) w z /\ linear_mode N (vs_K s) (vs_M s) w y /\
       mass_of N (vs_M s) z + mass_of N (vs_M s) y = 1 /\ dynamic_dot N h Fl X = 0 /\ X (n + 1)%nat = al + be * w ^ 2).
Proof. exact modes_iff. Qed.
Print Assumptions C76_modes.

(** If all modes of that frequency have the shape phi then only the phase is free. *)
Theorem C76_shape : forall N h (K M : mat) w us z y X phi, mass_of N M phi = 1 ->
  (forall x, linear_mode N K M w x -> exists a, forall i, (i < N)%nat -> x i = a * phi i) ->
  modal_vibration N h us z y X -> linear_mode N K M w z -> linear_mode N K M w y -> mass_of N M z + mass_of N M y = 1 ->
  exists p, forall j tau, (j < N)%nat -> series h (dof_coefs N X j) tau = us j + phi j * cos (tau - p).
Proof. exact single_mode. Qed.
Print Assumptions C76_shape.

(** With nonlinear forces the residual at a linear mode consists of the harmonics of the nonlinear forces alone. *)
Theorem C76_nonlinear : forall s h Nt X Fl outs us z y, admissible h -> starts_with_1 h ->
  let N := vs_N s in let n := (length (components h) * N)%nat in let w := X n in let xi := X (n + 1)%nat in
  Forall2 (fun f o => nl_aft f (take n (amplitude_scaled N h X (X (n + 2)%nat))) w h Nt = Ok o) (vs_forces s) outs ->
  modal_vibration N h us z y X -> static_equilibrium N h (vs_K s) Fl us ->
  linear_mode N (vs_K s) (vs_M s) w z -> linear_mode N (vs_K s) (vs_M s) w y ->
  (forall i, (i < N)%nat -> matvec N (vs_C s) z i = xi * matvec N (vs_M s) z i) ->
  (forall i, (i < N)%nat -> matvec N (vs_C s) y i = xi * matvec N (vs_M s) y i) ->
  exists Rr G, epmc_res s X Fl h Nt true = Ok (Rr, Some G) /\ (forall i, (i < n)%nat -> Rr i = total_coefs outs i) /\
    Rr n = mass_of N (vs_M s) z + mass_of N (vs_M s) y - 1 /\ Rr (n + 1)%nat = dynamic_dot N h Fl X.
Proof. exact modes_residual. Qed.
Print Assumptions C76_nonlinear.

(** Two degrees of freedom, harmonics 0, 1 and 3, the mode (1, 1) about the static position (1, 1), at every amplitude. *)
Example C76_case_linear : forall la Nt, exists Rr G,
  epmc_res (case_sys []) (case_X la) case_Fl [0; 1; 3]%nat Nt true = Ok (Rr, Some G) /\ forall i, (i < 12)%nat -> Rr i = 0.
Proof. exact linear_case. Qed.
Example C76_case_hypotheses : symmetric_matrix 2 case_M /\ symmetric_matrix 2 case_K /\ positive_definite 2 case_M /\
  proportional_damping 2 case_M case_C case_K (1 / 10) (1 / 5) /\ mass_of 2 case_M (fun _ => 1) = 1 /\
  (forall x, linear_mode 2 case_K case_M 1 x -> exists a, forall i, (i < 2)%nat -> x i = a * 1).
Proof.
  exact (conj (case_symmetric _ (or_introl eq_refl)) (conj (case_symmetric _ (or_intror eq_refl)) (conj case_definite
    (conj (fun i j _ _ => eq_refl) (conj case_mass case_single))))).
Qed.
Example C76_case_nonlinear : forall la Nt f F dU dw,
  nl_aft f (take 10 (amplitude_scaled 2 [0; 1; 3]%nat (case_X la) la)) 1 [0; 1; 3]%nat Nt = Ok (F, dU, dw) ->
  exists Rr G, epmc_res (case_sys [f]) (case_X la) case_Fl [0; 1; 3]%nat Nt true = Ok (Rr, Some G) /\
    (forall i, (i < 10)%nat -> Rr i = F i) /\ Rr 10%nat = 0 /\ Rr 11%nat = 0.
Proof. exact nonlinear_case. Qed.
