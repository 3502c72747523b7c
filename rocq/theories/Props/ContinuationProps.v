(** Properties C35-C43: conditioning, eigenvalue requests, predictor, corrector and the continuation loop. *)
From Coq Require Import Reals List Arith Bool ZArith Lia Lra.
From Verif.Lib Require Import RSum Py.
From Verif.Spec Require Import Calculus System Continuation.
From Verif.Model Require Import VibSys Solver Continuation.
From Verif.Proofs Require Import ContP ContLoopP ContRunP ContEndP ContCasesP ContScaleP SystemCasesP.
Import ListNotations.
Open Scope R_scope.

(** * C35 *)
Theorem C35_roots : forall n CtoP RPtoC fn Xp Rr,
  (forall i, (i < n)%nat -> sc RPtoC i <> 0) -> (forall i, CtoP i <> 0) -> fn Xp false = Ok (Rr, None) ->
  exists Rc, conditioning_wrapper fn CtoP RPtoC (fun i => Xp i / CtoP i) false = Ok (Rc, None) /\
    ((forall i, (i < n)%nat -> Rc i = 0) <-> forall i, (i < n)%nat -> Rr i = 0).
Proof. exact conditioned_root. Qed.
Print Assumptions C35_roots.

Theorem C35_jacobian_partial : forall n CtoP r fn X,
  exact_square n fn (fun i => X i * CtoP i) -> exact_square n (conditioning_wrapper fn CtoP (Num r)) X.
Proof. exact conditioned_exact. Qed.
Print Assumptions C35_jacobian_partial.

Theorem C35_jacobian_refuted : exists n CtoP v fn X Rf J,
  (forall i, 0 < CtoP i) /\ (forall i, 0 < v i) /\ exact_square n fn (fun i => X i * CtoP i) /\
  (forall X', exists G, conditioning_wrapper fn CtoP (Vec v) X' true = Ok (Rf X', Some G)) /\
  conditioning_wrapper fn CtoP (Vec v) X true = Ok (Rf X, Some J) /\ ~ is_jacobian n n Rf X J.
Proof. exact conditioned_vector_wrong. Qed.
Print Assumptions C35_jacobian_refuted.

(** two equations X0^2 - 4 = 0 and X1 - X0 = 0 with their root (2, 2) and scales 3, 5 *)
Example C35_case : let fn := fun (X : vec) (g : bool) => Ok ((fun i => match i with O => X 0%nat ^ 2 - 4 | _ => X 1%nat - X 0%nat end) : vec,
    if g then Some ((fun i j => match i, j with O, O => 2 * X 0%nat | O, _ => 0 | _, O => -1 | _, _ => 1 end) : mat) else None) in
  (forall i, (i < 2)%nat -> sc (Vec (fun i => match i with O => 3 | _ => 5 end)) i <> 0) /\
  (exists Rr, fn (fun _ => 2) false = Ok (Rr, None) /\ forall i, (i < 2)%nat -> Rr i = 0) /\ forall X, exact_square 2 fn X.
Proof. exact scaled_case. Qed.

(** * C36 *)
Theorem C36_eigs_default_refuted : exists (eigh : mat -> mat -> nat -> nat -> nat) N K M before,
  last (eigs_calls eigh eigs_default (before ++ [(N, K, M, None)])) O <> eigh K M O (Nat.min 2 (N - 1)).
Proof. exact eigs_history_wrong. Qed.
Print Assumptions C36_eigs_default_refuted.

Theorem C36_eigs_default_partial : forall (A : Type) (eigh : mat -> mat -> nat -> nat -> A) before N K M d0,
  Forall (fun c => match c with (N, _, _, None) => (3 <= N)%nat | _ => True end) before ->
  last (eigs_calls eigh eigs_default (before ++ [(N, K, M, None)])) d0 = eigh K M O (Nat.min 2 (N - 1)).
Proof. exact @eigs_value. Qed.
Print Assumptions C36_eigs_default_partial.

Theorem C36_eigs_explicit : forall (A : Type) (eigh : mat -> mat -> nat -> nat -> A) before d N K M lo hi d0,
  last (eigs_calls eigh d (before ++ [(N, K, M, Some (lo, hi))])) d0 = eigh K M lo (Nat.min hi (N - 1)).
Proof. exact @eigs_explicit. Qed.
Print Assumptions C36_eigs_explicit.

(** calls with 3 and 8 degrees of freedom, one with an explicit choice, before the call in question *)
Example C36_case : forall K M : mat,
  Forall (fun c => match c with (N, _, _, None) => (3 <= N)%nat | _ => True end) [(3, K, M, None); (8, K, M, None); (2, K, M, Some (0, 5))]%nat.
Proof. intros K M. repeat constructor. Qed.

(** * C37 *)
Theorem C37_predictor : forall W n k CtoP RPtoC b dyn X0 Xp dprev dirC RP Rr dX dl,
  w_fun W X0 true = Ok (Rr, Some (dX, dl)) ->
  (forall A r d, w_lin W k A r = Ok d -> solves (n + 1) A d r) ->
  0 < b < 1 -> (forall i, (i <= n)%nat -> CtoP i <> 0) -> nonzero n X0 ->
  predict W n k CtoP RPtoC b dyn X0 Xp dprev = Ok (dirC, RP) ->
  let XC0 := fun i => X0 i / CtoP i in
  (forall i, (i < n)%nat -> rsum (n + 1) (fun j => hcat n dX dl i j * (CtoP j * dirC j)) = 0) /\
  arc_dot n b XC0 dirC dirC = 1 /\
  0 <= arc_dot n b XC0 dirC (fun i => (X0 i - Xp i) / CtoP i) /\
  rsum (n + 1) (fun j => dprev j * dirC j) <> 0.
Proof. exact predict_spec. Qed.
Print Assumptions C37_predictor.

Example C37_case : exists dirC,
  w_fun line_world (line_p 1) true = Ok (fun _ => line_p 1 0%nat - line_p 1 1%nat, Some (fun _ _ => 1, fun _ => -1)) /\
  (forall A r d, w_lin line_world 1 A r = Ok d -> solves (1 + 1) A d r) /\ nonzero 1 (line_p 1) /\
  predict line_world 1 1 (fun _ => 1) (Vec (fun _ => 1)) (1 / 2) false (line_p 1) (line_p (1 - 1)) (fun i => line_p 1 i - line_p (1 - 1) i) = Ok (dirC, Num 1) /\
  dirC 0%nat = 1 /\ dirC 1%nat = 1.
Proof.
  destruct line_predict as (d & E & D). exists d. split; [reflexivity|]. split; [apply line_linear|].
  split; [exists 0%nat; split; [lia|unfold line_p, with_entry; cbn; lra]|]. split; assumption.
Qed.

(** * C38 *)
Theorem C38_pseudo_zero : forall n X X0 ds b, ds <> 0 ->
  (fst (pseudo_arc_res n X X0 ds b ((1 - b) / norm2 n X0 ^ 2)) = 0 <->
   arc_dot n b X0 (fun i => X i - X0 i) (fun i => X i - X0 i) = ds ^ 2).
Proof. exact pseudo_zero. Qed.
Print Assumptions C38_pseudo_zero.

Theorem C38_orthogonal_zero : forall n X X0 d ds b, ds <> 0 ->
  (fst (orthogonal_arc_res n X X0 d ds b ((1 - b) / norm2 n X0 ^ 2)) = 0 <-> arc_dot n b X0 (fun i => X i - (X0 i + d i * ds)) d = 0).
Proof. exact ortho_zero. Qed.
Print Assumptions C38_orthogonal_zero.

Theorem C38_pseudo_gradient : forall n X X0 ds b c, ds <> 0 ->
  is_gradient (n + 1) (fun X => fst (pseudo_arc_res n X X0 ds b c)) X (snd (pseudo_arc_res n X X0 ds b c)).
Proof. exact pseudo_gradient. Qed.
Print Assumptions C38_pseudo_gradient.

Theorem C38_orthogonal_gradient : forall n X X0 d ds b c, ds <> 0 ->
  is_gradient (n + 1) (fun X => fst (orthogonal_arc_res n X X0 d ds b c)) X (snd (orthogonal_arc_res n X X0 d ds b c)).
Proof. exact ortho_gradient. Qed.
Print Assumptions C38_orthogonal_gradient.

(** one unknown and the parameter, from (2, 1) in the direction (1, 1) with equal weights: a point on the circle and one on the line *)
Example C38_case : let X0 : vec := fun i => match i with O => 2 | _ => 1 end in let P : vec := fun i => match i with O => 2 | _ => 1 + 4 end in
  let L : vec := fun i => match i with O => 4 | _ => 1 + 3 / 2 end in
  arc_dot 1 (1 / 2) X0 (fun i => P i - X0 i) (fun i => P i - X0 i) = sqrt 8 ^ 2 /\ arc_dot 1 (1 / 2) X0 (fun i => L i - (X0 i + 1 * 2)) (fun _ => 1) <> 0 /\
  arc_dot 1 (1 / 2) X0 (fun i => (match i with O => 0 | _ => 4 end) - (X0 i + 1 * 2)) (fun _ => 1) = 0.
Proof. exact arc_case. Qed.

(** * C39 *)
(** arc-length equation selected by the configuration *)
Theorem C39_corrector_value : forall W n CtoP RP b corr X0 ds d X g Rr G, corr <> OtherCorrector ->
  w_fun W (fun i => X i * CtoP i) g = Ok (Rr, G) -> (g = true -> G <> None) ->
  exists Raug J, correct_res W n CtoP RP b corr X0 ds d X g = Ok (Raug, J) /\
    (forall i, (i < n)%nat -> Raug i = RP * Rr i) /\
    Raug n = (match corr with Ortho => fst (orthogonal_arc_res n X X0 d ds b ((1 - b) / norm2 n X0 ^ 2))
                            | _ => fst (pseudo_arc_res n X X0 ds b ((1 - b) / norm2 n X0 ^ 2)) end).
Proof.
  exact corrector_value_n.
Qed.
Print Assumptions C39_corrector_value.

Theorem C39_corrector_jacobian : forall W n CtoP RP b corr X0 ds d X, corr <> OtherCorrector -> ds <> 0 ->
  exact_residual n n (fun X => w_fun W X true) (fun i => X i * CtoP i) ->
  exact_square (n + 1) (fun X => correct_res W n CtoP RP b corr X0 ds d X) X.
Proof. exact correct_exact. Qed.
Print Assumptions C39_corrector_jacobian.

Example C39_case : exact_residual 1 1 (fun X => w_fun line_world X true) (fun i => line_p 3 i * 2).
Proof. exact (line_exact (fun i => line_p 3 i * 2)). Qed.

(** * C40 *)
Theorem C40_converged_refuted : exists fuel W n self X lam0 lam1 pts self' tr tol,
  reachable self /\ scaling self 1 /\ c_DynamicCtoP (k_conf self) = false /\ sound_solver n tol W /\
  continuation fuel W n self X lam0 lam1 = Ok (pts, self', tr) /\ ~ Forall (residual_below W n 1 tol) pts.
Proof. exact silent_unconverged. Qed.
Print Assumptions C40_converged_refuted.

Theorem C40_accepted_partial : forall fuel W n self X0 lam0 lam1 pts self' tr,
  reachable self -> (0 <= c_verbose (k_conf self))%Z ->
  continuation fuel W n self X0 lam0 lam1 = Ok (pts, self', tr) ->
  (exists CtoP s x0 Xc nf rest, w_nsolve W 0 (conditioning_wrapper (initial_fun W n lam0) CtoP s) x0 = Ok (Xc, true, nf) /\ pts = with_entry n (fun i => Xc i * CtoP i) lam0 :: rest) /\
  consecutive (found_by W n (c_corrector (k_conf self))) pts.
Proof. exact only_converged. Qed.
Print Assumptions C40_accepted_partial.

Theorem C40_converged_partial : forall fuel W n self X0 lam0 lam1 pts self' tr r tol,
  reachable self -> (0 <= c_verbose (k_conf self))%Z -> c_DynamicCtoP (k_conf self) = false ->
  c_corrector (k_conf self) <> OtherCorrector -> scaling self r -> sound_solver n tol W ->
  continuation fuel W n self X0 lam0 lam1 = Ok (pts, self', tr) -> Forall (residual_below W n r tol) pts.
Proof. exact residuals_below. Qed.
Print Assumptions C40_converged_partial.

(** Any scaling: the residual of the first point is scaled entry by entry, of later ones by the mean, or, with DynamicCtoP, by the largest
    diagonal entry of the Jacobian at the point before. *)
Theorem C40_scaled_partial : forall fuel W n self X0 lam0 lam1 pts self' tr tol, (0 < n)%nat -> reachable self -> (0 <= c_verbose (k_conf self))%Z ->
  c_corrector (k_conf self) <> OtherCorrector -> sound_solver n tol W ->
  continuation fuel W n self X0 lam0 lam1 = Ok (pts, self', tr) ->
  exists p0 rest, pts = p0 :: rest /\
    (exists Rr G, w_fun W p0 true = Ok (Rr, G) /\ forall i, (i < n)%nat -> Rabs (residual_scale self i * Rr i) <= tol) /\
    (if c_DynamicCtoP (k_conf self) then consecutive (relative_below W n (unknown_scale self) tol) pts
     else Forall (residual_below W n (rsum (n + 1) (residual_scale self) / INR (n + 1)) tol) rest).
Proof. exact scaled_residuals. Qed.
Print Assumptions C40_scaled_partial.

Example C40_case_dynamic : c_DynamicCtoP (k_conf dynamic_cont) = true /\ exists p1 p2 self' tr,
  continuation 0 line_world 1 dynamic_cont (fun _ => 1) 1 2 = Ok ([p1; p2], self', tr) /\ p1 0%nat = 1 /\ p1 1%nat = 1 /\ p2 0%nat = 2 /\ p2 1%nat = 2.
Proof. split; [reflexivity|exact dynamic_run]. Qed.

(** a run with two points, (1, 1) and (2, 2), on the curve X = lam; the solver accepts residuals up to 1 *)
Example C40_case : sound_solver 1 1 line_world /\ exists p1 p2 self' tr,
  continuation 0 line_world 1 (cont_new None None (case_conf 2 false 0 false)) (fun _ => 1) 1 2 = Ok ([p1; p2], self', tr) /\
  p1 0%nat = 1 /\ p1 1%nat = 1 /\ p2 0%nat = 2 /\ p2 1%nat = 2.
Proof. split; [exact line_sound|exact line_run]. Qed.

(** * C41 *)
Theorem C41_range_size : forall fuel W n self X0 lam0 lam1 pts self' tr, reachable self ->
  continuation fuel W n self X0 lam0 lam1 = Ok (pts, self', tr) ->
  (1 <= length pts <= c_MaxSteps (k_conf self))%nat /\
  (lam0 < lam1 -> Forall (fun p => p n < lam1) (removelast pts)) /\
  (lam1 < lam0 -> Forall (fun p => lam1 < p n) (removelast pts)) /\
  (lam0 = lam1 -> length pts = 1%nat) /\
  (forall bs, c_backtrackStop (k_conf self) = Some bs ->
     Forall (fun p => if Rlt_dec lam0 lam1 then lam0 - bs < p n else p n < lam0 + bs) (removelast pts)).
Proof. exact range_size. Qed.
Print Assumptions C41_range_size.

Theorem C41_step_control : forall fuel W n self X0 lam0 lam1 pts self' tr, reachable self ->
  continuation fuel W n self X0 lam0 lam1 = Ok (pts, self', tr) ->
  let c := k_conf self in
  halving (c_dsmin c) tr /\
  (0 <= c_dsmin c -> c_dsmin c <= c_ds0 c <= c_dsmax c -> forall ds b ok, In (Attempt ds b ok) tr -> c_dsmin c <= ds <= c_dsmax c).
Proof. exact step_control. Qed.
Print Assumptions C41_step_control.

Theorem C41_returns : forall W n self X0 lam0 lam1, 0 < c_dsmin (k_conf self) -> world_returns W ->
  exists fuel0 r, r <> Err NoReturn /\ forall fuel, (fuel0 <= fuel)%nat -> continuation fuel W n self X0 lam0 lam1 = r.
Proof. exact continuation_returns. Qed.
Print Assumptions C41_returns.

Example C41_case : world_returns line_world /\ 0 < c_dsmin (k_conf (cont_new None None (case_conf 2 false 0 false))).
Proof. split; [exact line_returns|cbn; lra]. Qed.

(** * C42 *)
Theorem C42_callbacks : forall fuel W n self X0 lam0 lam1 pts self' tr, reachable self ->
  continuation fuel W n self X0 lam0 lam1 = Ok (pts, self', tr) ->
  (c_callback (k_conf self) = false -> callbacks tr = []) /\
  (c_callback (k_conf self) = true -> exists p0 rest dirs dEnd,
     pts = p0 :: rest /\ length dirs = length rest /\
     callbacks tr = CbInit p0 :: map (fun pd => CbPoint (fst pd) (snd pd)) (combine rest dirs) ++ [CbEnd dEnd] /\
     (sound_linear_solver n W -> Forall (fun pd => tangent W n (fst pd) (snd pd)) (combine (removelast pts) dirs) /\
        ((0 <= c_verbose (k_conf self))%Z -> tangent W n (last pts vzero) dEnd))).
Proof. exact callback_protocol. Qed.
Print Assumptions C42_callbacks.

Example C42_case : exists p1 p2 self' tr,
  continuation 0 five_world 1 (cont_new None None (case_conf 2 false 0 true)) vzero 0 1 = Ok ([p1; p2], self', tr).
Proof. exact five_callback_run. Qed.

(** * C43 *)
Theorem C43_silent_refuted : exists fuel W n self X lam0 lam1 pts self' tr, reachable self /\
  continuation fuel W n self X lam0 lam1 = Ok (pts, self', tr) /\
  exists pts2 self2 tr2, continuation fuel W n self' X lam0 lam1 = Ok (pts2, self2, tr2) /\ length pts2 <> length pts.
Proof. exact silent_changes. Qed.
Print Assumptions C43_silent_refuted.

Theorem C43_vector_RPtoC_refuted : exists fuel W n self X lam0 lam1 pts self' tr, reachable self /\ (0 <= c_verbose (k_conf self))%Z /\
  continuation fuel W n self X lam0 lam1 = Ok (pts, self', tr) /\
  exists pts2 self2 tr2, continuation fuel W n self' X lam0 lam1 = Ok (pts2, self2, tr2) /\ nth 0 pts vzero 0%nat <> nth 0 pts2 vzero 0%nat.
Proof. exact vector_RPtoC_changes. Qed.
Print Assumptions C43_vector_RPtoC_refuted.

Theorem C43_dynamic_CtoP_refuted : exists fuel W n self X lam0 lam1 pts self' tr, reachable self /\ (0 <= c_verbose (k_conf self))%Z /\
  continuation fuel W n self X lam0 lam1 = Ok (pts, self', tr) /\
  exists pts2 self2 tr2, continuation fuel W n self' X lam0 lam1 = Ok (pts2, self2, tr2) /\ nth 0 pts vzero 0%nat <> nth 0 pts2 vzero 0%nat.
Proof. exact dynamic_CtoP_changes. Qed.
Print Assumptions C43_dynamic_CtoP_refuted.

Theorem C43_list_refuted : exists FracLam l, l <> [] /\
  c_FracLamList (k_conf (cont_new None None (mkConf FracLam 1 1 1 2 20 false 0 Ortho l None (6 / 5) false))) <> l.
Proof. exact list_changed. Qed.
Print Assumptions C43_list_refuted.

Theorem C43_settings_partial : forall self self', kept_settings self -> after_runs self self' ->
  forall fuel W n X lam0 lam1, outcome (continuation fuel W n self' X lam0 lam1) = outcome (continuation fuel W n self X lam0 lam1).
Proof. exact settings_kept. Qed.
Print Assumptions C43_settings_partial.

(** Several weights: later runs return the same points and report the same events. Only a run with lam0 = lam1 may report another direction
    at its end. *)
Theorem C43_weights_partial : forall self self', reachable self -> kept_scales self -> after_runs self self' -> forall fuel W n X lam0 lam1,
  visible (continuation fuel W n self' X lam0 lam1) = visible (continuation fuel W n self X lam0 lam1) /\
  (c_callback (k_conf self) = false \/ lam0 <> lam1 -> outcome (continuation fuel W n self' X lam0 lam1) = outcome (continuation fuel W n self X lam0 lam1)).
Proof. exact points_kept. Qed.
Print Assumptions C43_weights_partial.

Example C43_case_weights : kept_scales (cont_new None None (mkConf (1 / 2) 1 1 1 2 20 true 0 Ortho [1 / 2; 1 / 4; 3 / 4] None (6 / 5) true)).
Proof. split; [cbn; lia|]. split; left; reflexivity. Qed.

Example C43_case : kept_settings (cont_new None None (case_conf 2 false 0 false)).
Proof. split; [cbn; lia|]. split; [reflexivity|]. split; left; reflexivity. Qed.
