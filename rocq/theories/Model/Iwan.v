(** Model of /repo/tmdsimpy/nlforces/iwan4_element.py and vector_iwan4.py.
    One local displacement (Q.shape[0] == 1 is asserted, iwan4_element.py 126).  Real powers are Rpower, which is the numpy
    power for positive bases; the bases are phimax and slider positions, positive for kt, Fs > 0, beta >= 0, chi > -1. *)
From Coq Require Import Reals List Arith Bool.
From Verif.Lib Require Import RSum Py.
From Verif.Model Require Import Jenkins VectorJenkins Aft.
Import ListNotations.
Open Scope R_scope.

(** ---- discretisation, __init__, iwan4_element.py 92-124 ---- *)
Definition iw_den (chi beta : R) : R := beta + (chi + 1) / (chi + 2).
(** 92-93 *)
Definition iw_phimax (kt Fs chi beta : R) : R := Fs * (1 + beta) / kt / iw_den chi beta.
(** 114-115 *)
Definition iw_R (kt Fs chi beta : R) : R := Fs * (chi + 1) / (Rpower (iw_phimax kt Fs chi beta) (chi + 2) * iw_den chi beta).
(** 118-119 *)
Definition iw_S (kt Fs chi beta : R) : R := Fs * beta / (iw_phimax kt Fs chi beta * iw_den chi beta).
(** 103-106 *)
Definition iw_delta1 (phimax : R) (Nsliders : nat) (alpha : R) : R :=
  if Rltb 1 alpha then phimax * (alpha - 1) / (alpha ^ Nsliders - 1) else phimax / INR Nsliders.
(** 108 *)
Definition iw_delta (phimax : R) (Nsliders : nat) (alpha : R) (k : nat) : R := iw_delta1 phimax Nsliders alpha * alpha ^ k.
(** 110-111; entry Nsliders is the slider of the delta function *)
Definition iw_positions (phimax : R) (Nsliders : nat) (alpha : R) (k : nat) : R :=
  if Nat.ltb k Nsliders
  then rsum (S k) (iw_delta phimax Nsliders alpha) - iw_delta phimax Nsliders alpha k * / 2
  else phimax.
(** 122-124 *)
Definition iw_weights (kt Fs chi beta : R) (Nsliders : nat) (alpha : R) (k : nat) : R :=
  let phimax := iw_phimax kt Fs chi beta in
  if Nat.ltb k Nsliders
  then iw_R kt Fs chi beta * Rpower (iw_positions phimax Nsliders alpha k) chi * iw_delta phimax Nsliders alpha k
  else iw_S kt Fs chi beta.

(** attributes read after __init__ (kt, Fs, chi, beta, R, S, phimax are not); the sliders are numbered 0 .. iw_n - 1 with
    iw_n = Nsliders + 1.  fpsliders: forces of the sliders divided by their weights; dupduh and dfpslidersduh exist only after
    init_history_harmonic; dfpduh is never read *)
Record iwan := mkIw { iw_n : nat; iw_phi : vec; iw_w : vec; iw_up : R; iw_fp : R; iw_fs : vec; iw_dhist : option (vec * mat) }.

Definition iw_set_hist (s : iwan) (up fp : R) (fs : vec) : iwan := mkIw (iw_n s) (iw_phi s) (iw_w s) up fp fs (iw_dhist s).
Definition iw_set_dhist (s : iwan) (dup : vec) (dfs : mat) : iwan :=
  mkIw (iw_n s) (iw_phi s) (iw_w s) (iw_up s) (iw_fp s) (iw_fs s) (Some (dup, dfs)).

(** init_history, 153-170 *)
Definition iw_init_history (s : iwan) : iwan := iw_set_hist s 0 0 vzero.

(** __init__, 82-128; ZeroDivisionError for Nsliders = 0 (104, 106) *)
Definition iw_new (kt Fs chi beta : R) (Nsliders : nat) (alpha : R) : result iwan :=
  if Nat.eqb Nsliders 0 then Err ZeroDivisionError
  else Ok (mkIw (S Nsliders) (iw_positions (iw_phimax kt Fs chi beta) Nsliders alpha) (iw_weights kt Fs chi beta Nsliders alpha)
                0 0 vzero None).

(** init_history_harmonic, 172-201 *)
Definition iw_init_history_harmonic (s : iwan) (unlth0 : R) : iwan :=
  iw_set_dhist (iw_set_hist s unlth0 0 vzero) (fun c => if Nat.eqb c 0 then 1 else 0) mzero.

(** 273-280: one slider; result: slider force over weight, and whether it sticks *)
Definition iw_slider (phi up fs unl : R) : R * bool :=
  let t := unl - up + fs in
  if Rleb (Rabs t) phi then (t, true) else (phi * Rsign t, false).
Definition b2R (b : bool) : R := if b then 1 else 0.

(** instant_force, 241-296: new state, fnl, dfnldunl, dfnlsliders_dunl *)
Definition iw_instant_force (s : iwan) (unl : R) (update_prev : bool) : iwan * (R * R * (nat -> bool)) :=
  let sl := fun i => iw_slider (iw_phi s i) (iw_up s) (iw_fs s i) unl in
  let fs := fun i => fst (sl i) in
  let stick := fun i => snd (sl i) in
  let fnl := rsum (iw_n s) (fun i => fs i * iw_w s i) in
  let dfnl := rsum (iw_n s) (fun i => b2R (stick i) * iw_w s i) in
  (if update_prev then iw_set_hist s unl fnl fs else s, (fnl, dfnl, stick)).

(** force, 203-238, at the local level (unl = Q X) *)
Definition iw_force (s : iwan) (unl : R) (update_hist : bool) : iwan * (R * R) :=
  let '(s1, (fnl, dfnl, _)) := iw_instant_force s unl update_hist in (s1, (fnl, dfnl)).

(** instant_force_harmonic, 298-367; the derivative history is overwritten whatever update_prev is (363-365) *)
Definition iw_instant_force_harmonic (s : iwan) (unl : R) (cst : vec) (update_prev : bool) : result (iwan * (R * vec)) :=
  let '(s1, (fnl, _, stick)) := iw_instant_force s unl update_prev in
  match iw_dhist s1 with
  | None => Err AttributeError
  | Some (dup, dfs) =>
      let dsl : mat := fun i c => b2R (stick i) * (cst c - dup c) + b2R (stick i) * dfs i c in
      let dfduh : vec := fun c => rsum (iw_n s) (fun i => dsl i c * iw_w s i) in
      Ok (iw_set_dhist s1 cst dsl, (fnl, dfduh))
  end.

Definition iw_step (s : iwan) (x : R * vec) : result (iwan * (R * vec)) := iw_instant_force_harmonic s (fst x) (snd x) true.

(** HystereticForce.local_force_history with the Iwan step *)
Definition iwan_local_force_history (s : iwan) (inputs : list (R * vec)) (unlth0 : R) (max_repeats : nat) (atol rtol : R)
  : result (iwan * list (R * vec)) :=
  local_force_history iw_step (iw_init_history_harmonic s unlth0) 0 inputs max_repeats atol rtol.

(** ---- vector_iwan4.py ---- *)
(** body of the time loop of local_force_history_crit, 175-186: also records fpsliders and dfpslidersduh *)
Definition iw_step_crit (s : iwan) (x : R * vec) : result (iwan * (R * (vec * (vec * mat)))) :=
  do (s1, (fnl, dfduh)) <- iw_step s x;
  Ok (s1, (fnl, (dfduh, (iw_fs s1, match iw_dhist s1 with Some (_, dfs) => dfs | None => mzero end)))).

(** body of the loop 313-357 for one pair of critical indices with the recorded sliders *)
Definition vi_fill (s : iwan) (Nt : nat) (u : nat -> R) (cst : nat -> vec)
           (acc : (nat -> R) * (nat -> vec)) (p : (nat * nat) * (vec * mat)) : (nat -> R) * (nat -> vec) :=
  let '(ft, dfduh) := acc in
  let '((c, c'), (fps, dfps)) := p in
  let start := (c + 1)%nat in
  let stop := (c' + Nt * (if Nat.eqb c' 0 then 1 else 0))%nat in
  if Nat.ltb start stop then
    let tr := fun i k => (u i - u (start - 1)%nat) + fps k in
    let stick := fun i k => Rleb (Rabs (tr i k)) (iw_phi s k) in
    (fun i => if Nat.leb start i && Nat.ltb i stop
              then rsum (iw_n s) (fun k => (if stick i k then tr i k else iw_phi s k * Rsign (tr i k)) * iw_w s k)
              else ft i,
     fun i => if Nat.leb start i && Nat.ltb i stop
              then (fun c => rsum (iw_n s) (fun k => (b2R (stick i k) * (cst i c - cst (start - 1)%nat c) + b2R (stick i k) * dfps k c) * iw_w s k))
              else dfduh i)
  else (ft, dfduh).

(** local_force_history, 199-360.  vector_set (278-282) is the same expression as in vector_jenkins.py; max_repeats, atol and
    rtol are ignored (290-293). *)
Definition vector_iwan_local_force_history (s : iwan) (Nt : nat) (u : nat -> R) (cst : nat -> vec) (unlth0 : R)
  : result (iwan * (nat -> R) * (nat -> vec)) :=
  let crit := vj_crit Nt u in
  do (s', os) <- local_force_history iw_step_crit (iw_init_history_harmonic s unlth0) 0 (map (fun i => (u i, cst i)) crit)
                                      2 default_tol default_tol;
  let ft := vj_scatter crit (map fst os) (fun _ => 0) in
  let dfduh := vj_scatter crit (map (fun o => fst (snd o)) os) (fun _ _ => 0) in
  let '(ft', dfduh') := fold_left (vi_fill s Nt u cst)
                                  (combine (vj_pairs (hd O crit) crit) (map (fun o => snd (snd o)) os)) (ft, dfduh) in
  Ok (s', ft', dfduh').

(** Iwan4Force.aft and VectorIwan4.aft: HystereticForce.aft (nonlinear_force.py 546-664) with the local_force_history of the class;
    default max_repeats, atol and rtol. *)
Definition iwan_lfh (s : iwan) (n : nat) (u : vec) (cst : nat -> vec) (u0 : R) : result (iwan * (vec * (nat -> vec))) :=
  do (s', os) <- iwan_local_force_history s (map (fun j => (u j, cst j)) (seq 0 n)) u0 2 default_tol default_tol;
  Ok (s', (fun k => nth k (map fst os) 0, fun k => nth k (map snd os) (fun _ => 0))).
Definition iwan_aft (s : iwan) (N : nat) (Q T : mat) (U : vec) (h : list nat) (Nt : nat) : result (iwan * (vec * mat * vec)) :=
  aft_hysteretic N Q T (iwan_lfh s) U h Nt.
Definition vector_iwan_lfh (s : iwan) (n : nat) (u : vec) (cst : nat -> vec) (u0 : R) : result (iwan * (vec * (nat -> vec))) :=
  do (s', ft, dfduh) <- vector_iwan_local_force_history s n u cst u0; Ok (s', (ft, dfduh)).
Definition vector_iwan_aft (s : iwan) (N : nat) (Q T : mat) (U : vec) (h : list nat) (Nt : nat) : result (iwan * (vec * mat * vec)) :=
  aft_hysteretic N Q T (vector_iwan_lfh s) U h Nt.
