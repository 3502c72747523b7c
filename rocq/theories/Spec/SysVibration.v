(** Vocabulary for statements about vibrations of a system around a static state. *)
From Coq Require Import Reals List Arith Bool.
From Verif.Lib Require Import RSum Py.
From Verif.Spec Require Import Harmonic System Slider Rough StaticHistory.
From Verif.Model Require Import VibSys Jenkins Iwan JaxFriction RoughContact SysHistory.
Import ListNotations.
Open Scope R_scope.

(** The harmonic coefficients U of N degrees of freedom are the displacements X in the constant component and V in the others. *)
Definition vibration_about (N : nat) (h : list nat) (X V U : nat -> R) : Prop :=
  (forall j, (j < N)%nat -> U j = X j) /\ forall k, (N <= k < length (components h) * N)%nat -> U k = V k.

(** The harmonic force of an element at a constant displacement is its static force. *)
Definition static_is_harmonic (N : nat) (h : list nat) (Nt : nat) (f : nlforce) : Prop :=
  forall X U w, vibration_about N h X (fun _ => 0) U -> exists F J FU dU dw,
    nl_force f X = Ok (F, J) /\ nl_aft f U w h Nt = Ok (FU, dU, dw) /\ vibration_about N h F (fun _ => 0) FU.

(** elements for which a static state reached without friction is a constant solution; loads are the loads recorded before *)
Definition keeps_static_state (N : nat) (h : list nat) (Nt : nat) (loads : list load) (e : element) : Prop :=
  match e with
  | ElInstant f => static_is_harmonic N h Nt f
  | ElJenkins _ _ _ => True
  | ElEldry _ ne _ _ s => (0 < ne)%nat /\ 0 < ep_kn (ed_pars s)
  | ElRough _ _ _ _ => loads = []
  | ElIwan _ _ _ | ElJaxJenkins _ _ _ _ _ _ _ => False
  end.

(** The friction elements that stick at all Nt samples of the motion U around X: the contact stays closed and every spring force stays
    within the slip limit. *)
Definition sticks (N : nat) (h : list nat) (Nt : nat) (X U : nat -> R) (e : element) : Prop :=
  match e with
  | ElJenkins Q _ s => forall t, (t < Nt)%nat -> Rabs (j_kt s * (local_motion N Q h U 0 (sample_phase Nt t) - local_at N Q X 0)) <= j_real_Fs s
  | ElEldry p ne Q _ s => (0 < ne)%nat /\ 0 < ep_kn (ed_pars s) /\ forall d t, (d < p * ne)%nat -> (t < Nt)%nat ->
      let u := fun d => local_motion N Q h U d (sample_phase Nt t) in
      ep_gap (ed_pars s) < u (normal_dof p d) /\
      (d <> normal_dof p d -> Rabs (ep_kt (ed_pars s) * (u d - local_at N Q X d)) <= ed_real_mu s * (ep_kn (ed_pars s) * (u (normal_dof p d) - ep_gap (ed_pars s))))
  | _ => False
  end.

(** elements whose state no harmonic evaluation changes *)
Definition harmonic_stateless (e : element) : Prop := match e with ElJenkins _ _ _ | ElIwan _ _ _ => False | _ => True end.
