(** Vocabulary for the uniqueness of static states. *)
From Coq Require Import Reals List Arith.
From Verif.Lib Require Import RSum.
From Verif.Spec Require Import Slider Rough StaticHistory SystemCalls.
From Verif.Model Require Import VibSys SysElements Jenkins Iwan JaxFriction RoughContact SysHistory.
Import ListNotations.
Open Scope R_scope.

(** squared length of the first N entries *)
Definition length2 (N : nat) (x : nat -> R) : R := rsum N (fun i => x i * x i).

(** The stiffness matrix is positive definite: a displacement x stores the energy x'Kx/2 of at least m |x|^2 / 2. *)
Definition stiffness_at_least (N : nat) (m : R) (K : nat -> nat -> R) : Prop :=
  0 < m /\ forall x, m * length2 N x <= rsum N (fun i => x i * rsum N (fun j => K i j * x j)).

(** The local forces of an element act on the degrees of freedom that its local displacements are taken from. *)
Definition aligned (N n : nat) (Q T : nat -> nat -> R) : Prop := forall i d, (i < N)%nat -> (d < n)%nat -> T i d = Q d i.

(** Elements whose static force never decreases with the local displacement: springs with stiffness >= 0, sliders with stiffness and limit
    >= 0 in any state of their history, elastic dry friction without friction (as in a prestress analysis). *)
Definition resisting (N : nat) (e : element) : Prop :=
  match e with
  | ElInstant f => exists n Q T, aligned N n Q T /\
      ((exists k, (forall d, (d < n)%nat -> 0 <= k d) /\ f = cubic_nl N n Q T k) \/
       (exists k, (forall d, (d < n)%nat -> 0 <= k d) /\ f = quintic_nl N n Q T k) \/
       (exists k, (forall d, (d < n)%nat -> 0 <= k d) /\ f = damping_nl N n Q T k) \/
       (exists k P delta, (forall d, (d < n)%nat -> 0 <= k d) /\ f = unilateral_nl N n Q T k P delta) \/
       (exists kt Fs chi beta, 0 < kt /\ 0 < Fs /\ -1 < chi /\ 0 <= beta /\ f = iwan_nl N n Q T kt Fs chi beta))
  | ElJenkins Q T s => aligned N 1 Q T /\ 0 <= j_kt s /\ 0 <= j_Fs s /\ 0 <= j_prestress_Fs s /\ 0 <= j_real_Fs s /\ j_hist s <> None
  | ElIwan Q T s => aligned N 1 Q T /\ forall i, (i < iw_n s)%nat -> 0 <= iw_phi s i /\ 0 <= iw_w s i
  | ElEldry p n Q T s => aligned N (p * n) Q T /\ (0 < p)%nat /\ 0 <= ep_kn (ed_pars s) /\ ep_mu (ed_pars s) = 0 /\ ed_prestress_mu s = 0
  | ElRough _ _ _ _ => False
  | ElJaxJenkins _ _ _ _ _ _ _ => True
  end.

(** The same for elements that are only known by their parameters, with the real friction (real = true) or the prestress friction, zero, in
    force; also rough contact without friction. *)
Definition resisting_law (N : nat) (real : bool) (e : element) : Prop :=
  match e with
  | ElInstant _ => resisting N e
  | ElJenkins Q T s => aligned N 1 Q T /\ 0 <= j_kt s
  | ElIwan Q T s => aligned N 1 Q T /\ forall i, (i < iw_n s)%nat -> 0 <= iw_w s i
  | ElEldry p n Q T s => aligned N (p * n) Q T /\ (real = false \/ ed_real_mu s = 0)
  | ElRough Q T r s => aligned N 3 Q T /\ (real = false \/ r_mu r = 0) /\ forall a, (a < r_n r)%nat -> 0 <= r_weights r a
  | ElJaxJenkins _ _ _ _ _ _ _ => False
  end.

(** At the displacements X no asperity yields further: its interference is at most the largest one so far, or both are elastic. *)
Definition no_yielding (N : nat) (loads : list load) (X : nat -> R) (e : element) : Prop :=
  match e with
  | ElRough Q T r s => forall sol, physical sol -> r_mat r = new_material (s_E sol) (s_nu sol) (s_R sol) (s_Et sol) (s_Sy sol) -> forall a, (a < r_n r)%nat ->
      let M := memory_after sol (r_meso r + r_gaps r a) (map (fun l => (friction_in_force (fst l) (r_mu r), local_at N Q (snd l))) loads) in
      let x := local_at N Q X 2 - (r_meso r + r_gaps r a) in
      x <= mem_d M \/ (mem_d M < yield_limit sol /\ x < yield_limit sol)
  | _ => True
  end.
