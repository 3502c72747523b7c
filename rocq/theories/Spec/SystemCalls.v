(** Vocabulary for statements about call histories of a whole system. *)
From Coq Require Import Reals List Arith Bool.
From Verif.Lib Require Import RSum Py.
From Verif.Spec Require Import System Slider Rough StaticHistory.
From Verif.Model Require Import VibSys Jenkins Iwan JaxFriction RoughContact SysHistory.
Import ListNotations.
Open Scope R_scope.

(** the friction in force and the loads recorded since the last init_force_history *)
Definition after_call (st : bool * list load) (c : sys_call) : bool * list load :=
  match c with
  | SInit => (fst st, [])
  | SUpdate U => (fst st, snd st ++ [(fst st, U)])
  | SPrestress => (false, snd st)
  | SReset => (true, snd st)
  | SAftInit _ | SStatic _ _ => st
  end.
Definition after_calls (real : bool) (cs : list sys_call) : bool * list load := fold_left after_call cs (real, []).

(** The element has the parameters of the law and the given friction in force; its stored history is arbitrary.  The friction of an
    Iwan element cannot be switched. *)
Inductive has_law (N : nat) (real : bool) : element -> static_law -> Prop :=
| law_elastic f F J : (forall X, nl_force f X = Ok (F X, J X)) -> has_law N real (ElInstant f) (elastic_static F)
| law_jenkins Q T s Fs : 0 <= Fs -> j_real_Fs s = Fs -> j_prestress_Fs s = 0 -> j_Fs s = friction_in_force real Fs ->
    has_law N real (ElJenkins Q T s) (jenkins_static N Q T (j_kt s) Fs)
| law_iwan Q T s : (forall i, (i < iw_n s)%nat -> 0 <= iw_phi s i) ->
    has_law N real (ElIwan Q T s) (iwan_static N Q T (iw_n s) (iw_w s) (iw_phi s))
| law_eldry p ne Q T s kt kn mu gap : (0 < p)%nat -> 0 <= kn -> 0 <= mu -> ed_pars s = mkEP kt kn (friction_in_force real mu) gap ->
    ed_real_mu s = mu -> ed_prestress_mu s = 0 ->
    has_law N real (ElEldry p ne Q T s) (eldry_static p ne N Q T kt kn mu gap)
| law_rough Q T r s sol : physical sol -> r_mat r = new_material (s_E sol) (s_nu sol) (s_R sol) (s_Et sol) (s_Sy sol) ->
    (forall i, (i < r_n r)%nat -> 0 <= r_meso r + r_gaps r i) -> 0 <= r_mu r -> r_model r = TAN -> rs_mu s = friction_in_force real (r_mu r) ->
    has_law N real (ElRough Q T r s) (rough_static N Q T sol (r_mu r) (r_n r) (fun i => r_meso r + r_gaps r i) (r_weights r)).

Definition is_iwan (e : element) : bool := match e with ElIwan _ _ _ => true | _ => false end.
(** friction is switched only if no Iwan element is in the system (C24) *)
Definition switchable (els : list element) (cs : list sys_call) : Prop := In SPrestress cs -> forall e, In e els -> is_iwan e = false.
Definition is_eldry (e : element) : bool := match e with ElEldry _ _ _ _ _ => true | _ => false end.

(** The load X does not lower the largest force of an asperity: it stays within the largest interference so far, or in the elastic range,
    or increases the force. *)
Definition settled (N : nat) (loads : list load) (X : nat -> R) (e : element) : Prop :=
  match e with
  | ElRough Q T r s => forall sol, physical sol -> r_mat r = new_material (s_E sol) (s_nu sol) (s_R sol) (s_Et sol) (s_Sy sol) -> forall a, (a < r_n r)%nat ->
      let M := memory_after sol (r_meso r + r_gaps r a) (map (fun l => (friction_in_force (fst l) (r_mu r), local_at N Q (snd l))) loads) in
      let x := local_at N Q X 2 - (r_meso r + r_gaps r a) in
      x <= mem_d M \/ x < yield_limit sol \/ mem_F M <= asperity_force sol (mem_d M) (mem_F M) x
  | _ => True
  end.

(** Elements that stick under a small displacement from X, and their stiffness *)
Definition can_stick (N : nat) (X : nat -> R) (e : element) : Prop :=
  match e with
  | ElInstant _ => True
  | ElJenkins _ _ s => 0 <= j_real_Fs s
  | ElEldry p ne Q _ s => 0 < ep_kn (ed_pars s) /\ 0 < ed_real_mu s /\ forall d, (d < p * ne)%nat -> local_at N Q X (normal_dof p d) <> ep_gap (ed_pars s)
  | _ => False
  end.
Definition stuck_stiffness (N : nat) (X : nat -> R) (e : element) (i j : nat) : R :=
  match e with
  | ElInstant f => match nl_force f X with Ok (_, J) => J i j | Err _ => 0 end
  | ElJenkins Q T s => T i O * j_kt s * Q O j
  | ElEldry p ne Q T s => rsum (p * ne) (fun d => T i d *
      (if Rlt_dec (ep_gap (ed_pars s)) (local_at N Q X (normal_dof p d)) then if Nat.eqb d (normal_dof p d) then ep_kn (ed_pars s) else ep_kt (ed_pars s) else 0) * Q d j)
  | _ => 0
  end.

(** What set_aft_initialize(U) should do to one element: a contact element starts its harmonic evaluation at the local displacements of U, all
    else is kept; every other element is kept. *)
Definition aft_started (N : nat) (U : vec) (e e' : element) : Prop :=
  match e with
  | ElEldry p ne Q T s => exists s' start, e' = ElEldry p ne Q T s' /\ ed_u0 s' = Some start /\ (forall d, start d = rsum N (fun j => Q d j * U j)) /\
      ed_pars s' = ed_pars s /\ ed_real_mu s' = ed_real_mu s /\ ed_prestress_mu s' = ed_prestress_mu s /\ ed_up s' = ed_up s /\ ed_fp s' = ed_fp s
  | ElRough Q T r s => exists s', e' = ElRough Q T r s' /\ (forall d, rs_aft_u0 s' d = rsum N (fun j => Q d j * U j)) /\
      rs_mu s' = rs_mu s /\ rs_unmax s' = rs_unmax s /\ rs_Fm s' = rs_Fm s /\ rs_u0 s' = rs_u0 s /\ rs_fxy s' = rs_fxy s /\ rs_radii s' = rs_radii s
  | _ => e' = e
  end.
(** friction elements whose start cannot be set *)
Definition no_aft_start (e : element) : bool := match e with ElJenkins _ _ _ | ElIwan _ _ _ | ElJaxJenkins _ _ _ _ _ _ _ => true | _ => false end.
