(** Property C71: harmonic forces and the harmonic residual are exact Fourier integrals. *)
From Coq Require Import Reals List Arith Bool Lia.
From Verif.Lib Require Import RSum Py.
From Verif.Spec Require Import Harmonic Elements System Galerkin.
From Verif.Model Require Import Harmonic VibSys SysElements.
From Verif.Proofs Require Import TrigPolyP GalerkinP.
Import ListNotations.
Open Scope R_scope.

(** * C71 *)
(** With more samples than (degree of the force + 1) times the highest harmonic, the elements with polynomial forces return the Fourier
    coefficients of their force during the motion, as integrals over the period. *)
Theorem C71_elements : forall N nnl Q T h Nt, admissible h -> (2 * list_max h + 1 < Nt)%nat -> Nat.even Nt = true ->
  (forall k, (4 * list_max h < Nt)%nat ->
    exact_harmonics N h Nt (cubic_nl N nnl Q T k) (fun U w v i tau => rsum nnl (fun d => T i d * (k d * local_motion N Q h U d tau ^ 3)))) /\
  (forall k, (6 * list_max h < Nt)%nat ->
    exact_harmonics N h Nt (quintic_nl N nnl Q T k) (fun U w v i tau => rsum nnl (fun d => T i d * (k d * local_motion N Q h U d tau ^ 5)))) /\
  (forall c, (4 * list_max h < Nt)%nat ->
    exact_harmonics N h Nt (damping_nl N nnl Q T c) (fun U w v i tau => rsum nnl (fun d => T i d * (c d * local_velocity N Q w v d tau ^ 3)))) /\
  (forall cnl E qq p, (forall m, (m < cnl)%nat -> (fold_right Nat.add O (map (qq m) (seq 0 nnl)) <= p)%nat) -> ((p + 1) * list_max h < Nt)%nat ->
    exact_harmonics N h Nt (poly_nl N nnl cnl Q T E qq)
      (fun U w v i tau => rsum nnl (fun d => T i d * rsum cnl (fun m => E d m * monomial nnl (qq m) (fun e => local_motion N Q h U e tau))))).
Proof. exact (fun N nnl Q T h Nt Ha HN He => conj (cubic_harmonics N nnl Q T h Nt Ha HN He) (conj (quintic_harmonics N nnl Q T h Nt Ha HN He) (conj (damping_harmonics N nnl Q T h Nt Ha HN He) (poly_harmonics N nnl Q T h Nt Ha HN He)))). Qed.
Print Assumptions C71_elements.

(** The residual of hbm_res then holds the Fourier coefficients of M u'' + C u' + K u + f - F during the motion: the Galerkin equations of
    the system. *)
Theorem C71_residual : forall s h Nt X Fl phis v a, admissible h ->
  let n := (length (components h) * vs_N s)%nat in
  X n <> 0 -> Forall2 (exact_harmonics (vs_N s) h Nt) (vs_forces s) phis ->
  phase_velocity (vs_N s) h X v -> (forall j tau, (j < vs_N s)%nat -> derivable_pt_lim (v j) tau (a j tau)) ->
  exists Rr G, hbm_res s X Fl h Nt true = Ok (Rr, Some G) /\
    forall c i, (c < length (components h))%nat -> (i < vs_N s)%nat ->
      fourier_integral (motion_residual (vs_N s) h (vs_M s) (vs_C s) (vs_K s) X Fl (X n) v a (fun i tau => lsum (fun phi => phi (take n X) (X n) v i tau) phis) i)
        (nth c (components h) (Cos O)) (Rr (c * vs_N s + i)%nat).
Proof. exact hbm_integral. Qed.
Print Assumptions C71_residual.

(** A function has one Fourier coefficient on a component. *)
Theorem C71_unique : forall f c a b, fourier_integral f c a -> fourier_integral f c b -> a = b.
Proof. exact fourier_unique. Qed.
Print Assumptions C71_unique.

(** Hence further samples do not change the forces. *)
Theorem C71_sample_count : forall N h Nt Nt' f phi U w, exact_harmonics N h Nt f phi -> exact_harmonics N h Nt' f phi ->
  exists F dU dw F' dU' dw', nl_aft f U w h Nt = Ok (F, dU, dw) /\ nl_aft f U w h Nt' = Ok (F', dU', dw') /\
    forall r, (r < length (components h) * N)%nat -> F r = F' r.
Proof. exact sample_counts. Qed.
Print Assumptions C71_sample_count.

(** The bound on the samples is sharp, and the code accepts fewer: at exactly 4 samples per period of the highest harmonic a cubic spring returns
    1 where the integral is 3/4. *)
Theorem C71_bound_is_sharp : exists N nnl Q T k h Nt U w v F dU dw, admissible h /\ (2 * list_max h + 1 < Nt)%nat /\ Nat.even Nt = true /\ (Nt = 4 * list_max h)%nat /\
  phase_velocity N h U v /\ nl_aft (cubic_nl N nnl Q T k) U w h Nt = Ok (F, dU, dw) /\ (0 < length (components h))%nat /\ (0 < N)%nat /\
  fourier_integral (fun tau => rsum nnl (fun d => T O d * (k d * local_motion N Q h U d tau ^ 3))) (nth 0 (components h) (Cos O)) (3/4) /\ F O = 1.
Proof. exact too_few. Qed.
Print Assumptions C71_bound_is_sharp.

(** A two-degree-of-freedom system with a cubic spring of stiffness 5 between its degrees of freedom and a cubic damper at the second, on
    the harmonics 0, 1 and 3 with 14 samples: every motion meets the hypotheses. *)
Example C71_case : let Q := fun _ j : nat => match j with O => 1 | 1%nat => Ropp 1 | _ => 0 end in let T := fun i _ : nat => match i with O => 1 | 1%nat => Ropp 1 | _ => 0 end in
  let P := fun _ j : nat => match j with 1%nat => 1 | _ => 0 end in let V := fun i _ : nat => match i with 1%nat => 1 | _ => 0 end in
  let h := [0; 1; 3]%nat in
  admissible h /\ length (components h) = 5%nat /\
  Forall2 (exact_harmonics 2 h 14) [cubic_nl 2 1 Q T (fun _ => 5); damping_nl 2 1 P V (fun _ => 2)]
    [fun U w v i tau => rsum 1 (fun d => T i d * (5 * local_motion 2 Q h U d tau ^ 3)); fun U w v i tau => rsum 1 (fun d => V i d * (2 * local_velocity 2 P w v d tau ^ 3))] /\
  forall X : vec, exists v a, phase_velocity 2 h X v /\ forall j tau, (j < 2)%nat -> derivable_pt_lim (v j) tau (a j tau).
Proof. exact galerkin_case. Qed.
