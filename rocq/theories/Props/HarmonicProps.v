(** Properties C01-C10: the harmonic utilities.  Specification: Spec/Harmonic.v, Spec/Calculus.v. *)
From Coq Require Import Reals Lra Lia Arith List Bool ZArith.
From Verif.Lib Require Import RSum Py.
From Verif.Spec Require Import Harmonic.
From Verif.Model Require Import Harmonic.
From Verif.Proofs Require Import HarmonicP FourierP HarmonicOpsP ElementCasesP.
Import ListNotations.
Open Scope R_scope.

(** C01: Nhc counts the components (one for harmonic 0, two for the others), and fails exactly on repetitions. *)
Theorem C01_component_count h :
  (NoDup h -> Nhc h = Ok (length (components h))) /\ (~ NoDup h -> Nhc h = Err AssertionError).
Proof. exact (Nhc_spec h). Qed.
Print Assumptions C01_component_count.
Example C01_case : Nhc [0; 1; 3]%nat = Ok 5%nat /\ Nhc [1; 3; 1]%nat = Err AssertionError.
Proof. split; reflexivity. Qed.

(** C02: for an even number of samples that resolves the highest harmonic, the returned samples are the
    order-th derivative of the trigonometric polynomial at the Nt equally spaced phases of one period. *)
Theorem C02_time_series Nt h X0 order
  (harmonics : admissible h) (resolved : (2 * list_max h + 1 < Nt)%nat) (even_count : Nat.even Nt = true) :
  exists x g, time_series_deriv Nt h X0 order = Ok (Nt, x) /\
    nth_derivative order (series h X0) g /\ forall n, (n < Nt)%nat -> x n = g (sample_phase Nt n).
Proof. exact (time_series_even Nt h X0 order harmonics resolved even_count). Qed.
Print Assumptions C02_time_series.
Example C02_case : admissible [0; 1; 3]%nat /\ (2 * list_max [0; 1; 3]%nat + 1 < 8)%nat /\ Nat.even 8 = true
  /\ series [0; 1; 3]%nat (fun c => INR c) 0 = 4.
Proof. exact c02_case. Qed.

(** C03: coefficients extracted from a sampled series are those it was sampled from (odd Nt included:
    the Nt-1 samples actually returned still determine them). *)
Theorem C03_round_trip Nt h X (harmonics : admissible h) (resolved : (2 * list_max h + 1 < Nt)%nat) :
  exists n x v, time_series_deriv Nt h X 0 = Ok (n, x) /\ get_fourier_coeff h n x = Ok v /\
    forall c, (c < length (components h))%nat -> v c = X c.
Proof. exact (round_trip Nt h X harmonics resolved). Qed.
Print Assumptions C03_round_trip.

(** C03: on any samples, get_fourier_coeff is the projection on the components of h. *)
Theorem C03_fourier_coefficients h Nt x
  (some : h <> []) (zero_first : ~ In O (tl h)) (resolved : (list_max h < Nt)%nat) :
  exists v, get_fourier_coeff h Nt x = Ok v /\
    forall c, (c < length (components h))%nat -> v c = fourier_coef Nt x (nth c (components h) (Cos O)).
Proof. exact (get_fourier_coeff_spec h Nt x some zero_first resolved). Qed.
Print Assumptions C03_fourier_coefficients.

(** an odd and an even number of samples, with harmonics that are not consecutive *)
Example C03_case : admissible [0; 1; 3]%nat /\ (2 * list_max [0; 1; 3]%nat + 1 < 8)%nat /\ (2 * list_max [0; 1; 3]%nat + 1 < 9)%nat /\
  length (components [0; 1; 3]%nat) = 5%nat /\ [0; 1; 3]%nat <> [] /\ ~ In O (tl [0; 1; 3]%nat).
Proof. repeat split; try discriminate; try (cbn; lia); try (repeat constructor; cbn; intuition discriminate); cbn; intuition discriminate. Qed.

(** C04: even sample counts are honoured. *)
Theorem C04_sample_count_partial Nt h X0 order
  (harmonics : admissible h) (resolved : (2 * list_max h + 1 < Nt)%nat) (even_count : Nat.even Nt = true) :
  exists x, time_series_deriv Nt h X0 order = Ok (Nt, x).
Proof. exact (time_series_count Nt h X0 order harmonics resolved even_count). Qed.
Print Assumptions C04_sample_count_partial.

(** C04: a list with harmonic 0 not first, or too few samples, is rejected. *)
Theorem C04_rejects Nt h X0 order
  (bad : (In O h /\ hd 1%nat h <> O) \/ (h <> [] /\ (Nt <= 2 * list_max h + 1)%nat)) :
  time_series_deriv Nt h X0 order = Err AssertionError.
Proof. exact (time_series_errors Nt h X0 order bad). Qed.
Print Assumptions C04_rejects.

(** C04, refuted part: an accepted odd number of samples gives one sample fewer, for every such input. *)
Theorem C04_sample_count_refuted Nt h X0 order
  (harmonics : admissible h) (resolved : (2 * list_max h + 1 < Nt)%nat) (odd_count : Nat.odd Nt = true) :
  exists x, time_series_deriv Nt h X0 order = Ok ((Nt - 1)%nat, x).
Proof. exact (time_series_odd Nt h X0 order harmonics resolved odd_count). Qed.
Print Assumptions C04_sample_count_refuted.
Example C04_case : admissible [0; 1; 3]%nat /\ (2 * list_max [0; 1; 3]%nat + 1 < 9)%nat /\ Nat.odd 9 = true.
Proof. split; [exact admissible_013|]. split; [cbn; lia|reflexivity]. Qed.

(** C05: E applied to the coefficients of u gives a motion equal to M u'' + C u' + K u at every time. *)
Theorem C05_harmonic_stiffness nd M C K w h calc_grad U (harmonics : admissible h) :
  exists E dE (v a : nat -> R -> R),
    harmonic_stiffness nd M C K w h calc_grad false = Ok (E, dE) /\
    (forall j t, derivable_pt_lim (motion nd h U w j) t (v j t)) /\
    (forall j t, derivable_pt_lim (v j) t (a j t)) /\
    forall i t, (i < nd)%nat ->
      motion nd h (matvec (length (components h) * nd) E U) w i t
      = rsum nd (fun j => M i j * a j t + C i j * v j t + K i j * motion nd h U w j t).
Proof. exact (stiffness_eom nd M C K w h calc_grad U harmonics). Qed.
Print Assumptions C05_harmonic_stiffness.

(** C05: the same read as coefficients: row block c is the c-th Fourier coefficient of M u'' + C u' + K u. *)
Theorem C05_harmonic_stiffness_coefficients nd M C K w h calc_grad U Nt
  (harmonics : admissible h) (frequency : w <> 0) (resolved : (2 * list_max h < Nt)%nat) :
  exists E dE (v a : nat -> R -> R),
    harmonic_stiffness nd M C K w h calc_grad false = Ok (E, dE) /\
    (forall j t, derivable_pt_lim (motion nd h U w j) t (v j t)) /\
    (forall j t, derivable_pt_lim (v j) t (a j t)) /\
    forall i c, (i < nd)%nat -> (c < length (components h))%nat ->
      matvec (length (components h) * nd) E U (c * nd + i)%nat
      = fourier_coef Nt (fun n => let t := sample_phase Nt n / w in
          rsum nd (fun j => M i j * a j t + C i j * v j t + K i j * motion nd h U w j t))
          (nth c (components h) (Cos O)).
Proof. exact (stiffness_coefficients nd M C K w h calc_grad U Nt harmonics frequency resolved). Qed.
Print Assumptions C05_harmonic_stiffness_coefficients.
Example C05_case : admissible [0; 1; 3]%nat /\ (2 * list_max [0; 1; 3]%nat < 8)%nat.
Proof. split; [exact admissible_013|]. rewrite list_max_3. lia. Qed.

(** C06: the second output is the derivative of the first, entry by entry, with and without only_C;
    without calc_grad the first output is the same. *)
Theorem C06_stiffness_derivative nd M C K h only_C (harmonics : admissible h) :
  exists E dE : R -> mat,
    (forall w, harmonic_stiffness nd M C K w h true only_C = Ok (E w, Some (dE w))) /\
    (forall w, harmonic_stiffness nd M C K w h false only_C = Ok (E w, None)) /\
    forall r c w, derivable_pt_lim (fun s => E s r c) w (dE w r c).
Proof. exact (stiffness_derivative nd M C K h only_C harmonics). Qed.
Print Assumptions C06_stiffness_derivative.

(** C06: only_C is the same as passing zero mass and stiffness (errors included). *)
Theorem C06_only_C nd M C K w h calc_grad :
  harmonic_stiffness nd M C K w h calc_grad true
  = harmonic_stiffness nd (fun _ _ => 0) C (fun _ _ => 0) w h calc_grad false.
Proof. exact (only_C_same nd M C K w h calc_grad). Qed.
Print Assumptions C06_only_C.

(** one degree of freedom, harmonics 0 and 2: static block K, dynamic blocks K - (2w)^2 M and 2w C *)
Example C06_case : admissible [0; 2]%nat /\ exists E dE, harmonic_stiffness 1 (fun _ _ => 3) (fun _ _ => 5) (fun _ _ => 7) 11 [0; 2]%nat true false = Ok (E, Some dE) /\
  E 0%nat 0%nat = 7 /\ E 1%nat 1%nat = 7 - 22 ^ 2 * 3 /\ E 1%nat 2%nat = 22 * 5 /\ E 2%nat 1%nat = - (22 * 5) /\ dE 1%nat 1%nat = - (2 * 2 ^ 2 * 11 * 3) /\ dE 1%nat 2%nat = 2 * 5.
Proof.
  split; [repeat split; try discriminate; try (repeat constructor; cbn; intuition discriminate); cbn; intuition discriminate|].
  eexists _, _. split; [reflexivity|]. cbn. unfold mscal. repeat split; lra.
Qed.

(** C07: rotating subtracts phase/h_rotate from the phase of every degree of freedom. *)
Theorem C07_rotation_is_delay U Ndof h phase_angle h_rotate d tau
  (zero_first : ~ In O (tl h)) (dof : (d < Ndof)%nat) (rotated : (0 < h_rotate)%nat) :
  series h (dof_coefs Ndof (rotate_subtract_phase U Ndof h phase_angle h_rotate) d) tau
  = series h (dof_coefs Ndof U d) (tau - phase_angle / INR h_rotate).
Proof. exact (rotate_series Ndof h zero_first U phase_angle h_rotate d tau dof). Qed.
Print Assumptions C07_rotation_is_delay.

(** C07: extra columns are untouched, rotations add, and rotating back restores every entry. *)
Theorem C07_rotation_group U Ndof h a b h_rotate
  (zero_first : ~ In O (tl h)) (dofs : (0 < Ndof)%nat) (rotated : (0 < h_rotate)%nat) :
  (forall i, (length (components h) * Ndof <= i)%nat -> rotate_subtract_phase U Ndof h a h_rotate i = U i) /\
  (forall i, rotate_subtract_phase (rotate_subtract_phase U Ndof h a h_rotate) Ndof h b h_rotate i
             = rotate_subtract_phase U Ndof h (a + b) h_rotate i) /\
  (forall i, rotate_subtract_phase (rotate_subtract_phase U Ndof h a h_rotate) Ndof h (- a) h_rotate i = U i).
Proof. exact (rotate_group U Ndof h a b h_rotate zero_first dofs). Qed.
Print Assumptions C07_rotation_group.
Example C07_case : rotate_subtract_phase (fun i => if Nat.eqb i 0 then 1 else 0) 1 [1%nat] (PI / 2) 1 1%nat = 1.
Proof. exact c07_case. Qed.

(** C08: the result is always in [-pi, pi). *)
Theorem C08_wrapping_range_partial phase : - PI <= shift_pm_pi phase < PI.
Proof. exact (shift_range phase). Qed.
Print Assumptions C08_wrapping_range_partial.

(** C08, refuted part: the result does not differ from the input by a multiple of 2 pi. *)
Theorem C08_wrapping_refuted : exists phase, ~ exists k : Z, shift_pm_pi phase = phase + 2 * IZR k * PI.
Proof. exact (ex_intro _ 0 shift_wrong). Qed.
Print Assumptions C08_wrapping_refuted.

(** a phase that is wrapped correctly and one that is not *)
Example C08_case : shift_pm_pi (- PI) = - PI /\ shift_pm_pi (1 - PI) = 0.
Proof. exact shift_case. Qed.

(** C09, scalar minimum: size of X; constant on each harmonic; entrywise on the extra entries. *)
Theorem C09_conditioning_scalar X len Ndof h d
  (harmonics : admissible h) (long_enough : (length (components h) * Ndof <= len)%nat) :
  exists C, harmonic_wise_conditioning X len Ndof h (DScalar d) = Ok (len, C) /\
    (forall p i, (p < length h)%nat -> (harmonic_start h Ndof p <= i < harmonic_end h Ndof p)%nat ->
        C i = Rmax d (mean_abs X (harmonic_start h Ndof p) (harmonic_end h Ndof p))) /\
    (forall i, (length (components h) * Ndof <= i < len)%nat -> C i = Rmax d (Rabs (X i))).
Proof. exact (cond_scalar X len Ndof h d harmonics long_enough). Qed.
Print Assumptions C09_conditioning_scalar.

(** C09, a minimum per harmonic: the same, provided there are fewer than 2*Ndof extra entries. *)
Theorem C09_conditioning_array_partial X len Ndof h (d : vec)
  (harmonics : admissible h) (dofs : (0 < Ndof)%nat)
  (sizes : (length (components h) * Ndof <= len < length (components h) * Ndof + 2 * Ndof)%nat) :
  let extras := Nat.ltb (length (components h) * Ndof) len in
  exists C, harmonic_wise_conditioning X len Ndof h (DArray d (length h + if extras then 1 else 0)) = Ok (len, C) /\
    (forall p i, (p < length h)%nat -> (harmonic_start h Ndof p <= i < harmonic_end h Ndof p)%nat ->
        C i = Rmax (d p) (mean_abs X (harmonic_start h Ndof p) (harmonic_end h Ndof p))) /\
    (forall i, (length (components h) * Ndof <= i < len)%nat -> C i = Rmax (d (length h)) (Rabs (X i))).
Proof. exact (cond_array X len Ndof h d harmonics dofs sizes). Qed.
Print Assumptions C09_conditioning_array_partial.

(** C09, refuted part: with 2*Ndof or more extra entries the array form always fails. *)
Theorem C09_conditioning_array_refuted X len Ndof h (d : vec)
  (harmonics : admissible h) (dofs : (0 < Ndof)%nat)
  (many_extras : (length (components h) * Ndof + 2 * Ndof <= len)%nat) :
  harmonic_wise_conditioning X len Ndof h (DArray d (length h + 1)) = Err ValueError.
Proof. exact (cond_array_fails X len Ndof h d harmonics dofs many_extras). Qed.
Print Assumptions C09_conditioning_array_refuted.
Example C09_case : harmonic_start [0; 1; 3]%nat 2 1 = 2%nat /\ harmonic_end [0; 1; 3]%nat 2 1 = 6%nat
  /\ (length (components [0; 1; 3]%nat) * 2 <= 11 < length (components [0; 1; 3]%nat) * 2 + 2 * 2)%nat.
Proof. cbn. lia. Qed.

(** C10: index i is flagged exactly when the signal changes sign strictly between i and i+1 and |X i| < tol. *)
Theorem C10_zero_crossing_partial n X tol i (index : (i < n)%nat) :
  zero_crossing n X tol i = true <->
   (S i < n)%nat /\ ((X i < 0 /\ 0 < X (S i)) \/ (0 < X i /\ X (S i) < 0)) /\
   match tol with None => True | Some t => Rabs (X i) < t end.
Proof. exact (zero_crossing_iff n X tol i index). Qed.
Print Assumptions C10_zero_crossing_partial.

(** C10, refuted part: a crossing through an exact zero sample (-1, 0, 1) is flagged nowhere. *)
Theorem C10_zero_crossing_refuted :
  exists n X, X O < 0 /\ 0 < X (n - 1)%nat /\ forall i, zero_crossing n X None i = false.
Proof. exact zero_crossing_missed. Qed.
Print Assumptions C10_zero_crossing_refuted.

(** a change of sign after entry 1, too steep for the tolerance 1/4 *)
Example C10_case : let X := fun i => INR i - 3 / 2 in zero_crossing 3 X None 1 = true /\ zero_crossing 3 X (Some (1 / 4)) 1 = false /\ zero_crossing 3 X None 0 = false.
Proof. exact crossing_case. Qed.
