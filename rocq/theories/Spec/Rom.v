(** Vocabulary of the properties of the EPMC reduced order models. *)
From Coq Require Import Reals List Arith.
From Verif.Lib Require Import RSum.
From Verif.Spec Require Import Harmonic System.
Import ListNotations.
Open Scope R_scope.

(** x solves x'' + 2 zeta w x' + w^2 x = f at all times *)
Definition oscillates (w zeta : R) (x f : R -> R) : Prop :=
  exists v a : R -> R,
    (forall t, derivable_pt_lim x t (v t)) /\ (forall t, derivable_pt_lim v t (a t)) /\
    forall t, a t + 2 * zeta * w * v t + w ^ 2 * x t = f t.

(** q cos(Om t - p) is a steady state of the mode under the modal force Re((fr + i fi) exp(i Om t)) *)
Definition steady_response (w zeta fr fi Om q p : R) : Prop :=
  oscillates w zeta (fun t => q * cos (Om * t - p)) (fun t => fr * cos (Om * t) - fi * sin (Om * t)).

(** one backbone row: with n the number of harmonic coefficients, entries n, n+1, n+2 are the frequency, xi and log10 of the
    modal amplitude *)
Definition bb_size (N : nat) (h : list nat) : nat := (length (components h) * N)%nat.
Definition bb_frequency (N : nat) (h : list nat) (u : vec) : R := u (bb_size N h).
Definition bb_damping (N : nat) (h : list nat) (u : vec) : R := u (bb_size N h + 1)%nat / (2 * bb_frequency N h u).
Definition bb_log_amp (N : nat) (h : list nat) (u : vec) : R := u (bb_size N h + 2)%nat.
Definition bb_amp (N : nat) (h : list nat) (u : vec) : R := Rpower 10 (bb_log_amp N h u).

(** the modal force phi^H F with phi = phi_c - i phi_s and F = F_c - i F_s in the first harmonic *)
Definition force_re (N : nat) (h : list nat) (F u : vec) : R :=
  rsum N (fun d => first_cos N h u d * first_cos N h F d + first_sin N h u d * first_sin N h F d).
Definition force_im (N : nat) (h : list nat) (F u : vec) : R :=
  rsum N (fun d => first_sin N h u d * first_cos N h F d - first_cos N h u d * first_sin N h F d).

(** F acts with the amplitude Fcos in the first cosine and not in the first sine *)
Definition cosine_force (N : nat) (h : list nat) (F Fcos : vec) : Prop :=
  forall d, (d < N)%nat -> first_cos N h F d = Fcos d /\ first_sin N h F d = 0.

(** amplitude of the first harmonic of recov . u *)
Definition control_amp (N : nat) (h : list nat) (recov u : vec) : R :=
  sqrt (rsum N (fun d => recov d * first_cos N h u d) ^ 2 + rsum N (fun d => recov d * first_sin N h u d) ^ 2).

Definition increasing_indices (l : list nat) : Prop := forall a b, (a < b < length l)%nat -> (nth a l O < nth b l O)%nat.

(** the modal properties used at backbone point j: the given ones, or those of the backbone *)
Definition rom_frequency (N : nat) (h : list nat) (bb : list vec) (w : option vec) (j : nat) : R :=
  match w with Some w => w j | None => bb_frequency N h (nth j bb vzero) end.
Definition rom_damping (N : nat) (h : list nat) (bb : list vec) (w zeta : option vec) (j : nat) : R :=
  match zeta with Some z => z j | None => nth j bb vzero (bb_size N h + 1)%nat / (2 * rom_frequency N h bb w j) end.
Definition rom_force (proj : vec -> vec -> R) (bb : list vec) (Fl given : option vec) (j : nat) : R :=
  match Fl, given with Some F, _ => proj F (nth j bb vzero) | None, Some f => f j | None, None => 0 end.

(** a returned point (row, amplitude a, phase p) at the backbone row u: a positive frequency, the backbone's amplitude, a
    steady state of the mode, and the motion of the backbone scaled to that amplitude and delayed by the phase *)
Definition rom_point (N : nat) (h : list nat) (u : vec) (w zeta fr fi : R) (r : vec) (a p : R) : Prop :=
  0 < bb_frequency N h r /\ a = bb_amp N h u /\ - PI < p <= PI /\
  steady_response w zeta fr fi (bb_frequency N h r) a p /\
  forall d tau, (d < N)%nat ->
    series h (dof_coefs N r d) tau = series h (dof_coefs N (amplitude_scaled N h u (bb_log_amp N h u)) d) (tau - p).

(** the row constant_displacement interpolates: the given frequency and damping put in, the amplitude not in log10 *)
Definition linear_row (N : nat) (h : list nat) (bb : list vec) (w zeta : option vec) (j : nat) : vec := fun c =>
  let u := nth j bb vzero in let n := bb_size N h in
  if Nat.eqb c (n + 2) then bb_amp N h u
  else if Nat.eqb c n then rom_frequency N h bb w j
  else if Nat.eqb c (n + 1) then match zeta with None => u c | Some z => 2 * z j * rom_frequency N h bb w j end
  else u c.
(** physical amplitude of the control point at backbone point j *)
Definition backbone_control (N : nat) (h : list nat) (recov : vec) (bb : list vec) : list R :=
  map (fun u => control_amp N h recov u * bb_amp N h u) bb.
(** the row with its last entry not in log10 *)
Definition delog (N : nat) (h : list nat) (u : vec) : vec := fun c =>
  if Nat.eqb c (bb_size N h + 2) then bb_amp N h u else u c.
(** squared magnitude of the modal force for the first cosine force Fcos *)
Definition cos_re (N : nat) (h : list nat) (Fcos u : vec) : R := rsum N (fun d => first_cos N h u d * Fcos d).
Definition cos_im (N : nat) (h : list nat) (Fcos u : vec) : R := rsum N (fun d => first_sin N h u d * Fcos d).
