(** Elements in other units. *)
From Coq Require Import Reals List Arith Bool Lra Lia FunctionalExtensionality.
From Verif.Lib Require Import RSum Py.
From Verif.Spec Require Import Harmonic Elements Slider Coordinates Units.
From Verif.Model Require Import Harmonic LocalForces Aft VibSys SysElements Jenkins Iwan JaxDual JaxFloat JaxFriction RoughContact SysHistory SysHarmonic.
From Verif.Proofs Require Import AftP JenkinsP IwanP VectorIwanP PostHarmonicP CoordinatesP UnitsFloatP UnitsRoughP UnitsP.
Import ListNotations.
Open Scope R_scope.

(** * a period is repeated in both units *)
Section Loop.
  Context {St In : Type}.
  Variable step : St -> In -> result (St * (R * vec)).
  Variables (cs : St -> St) (cx : In -> In) (a k : R).
  Definition co (o : R * vec) : R * vec := (a * fst o, fun c => k * snd o c).
  Hypothesis Hstep : forall s x, step (cs s) (cx x) = rmap (fun p => (cs (fst p), co (snd p))) (step s x).

  Lemma pass_scale l : forall s, time_loop step (cs s) (map cx l) = rmap (fun p => (cs (fst p), map co (snd p))) (time_loop step s l).
  Proof.
    induction l as [|x l IH]; intros s; [reflexivity|]. cbn [map time_loop]. rewrite Hstep. destruct (step s x) as [[s1 o]|e]; [|reflexivity]. cbn [rmap bind fst snd].
    rewrite IH. destruct (time_loop step s1 l) as [[s2 os]|e]; reflexivity.
  Qed.

  Lemma last_scale os : last_force (map co os) = a * last_force os.
  Proof.
    unfold last_force. rewrite map_map. cbn [co fst]. rewrite !last_nth, !map_length. destruct os as [|o os]; [cbn; ring|].
    rewrite (nth_indep _ 0 (a * fst o)) by (rewrite map_length; cbn; lia). rewrite (map_nth (fun o => a * fst o)). f_equal.
    rewrite (nth_indep (map fst (o :: os)) 0 (fst o)) by (rewrite map_length; cbn; lia). rewrite map_nth. reflexivity.
  Qed.

  Lemma history_scale tol s l :
    (forall s1 os, time_loop step s l = Ok (s1, os) -> not_converged tol tol (Rabs (a * last_force os - 0)) (a * last_force os) = not_converged tol tol (Rabs (last_force os - 0)) (last_force os)) ->
    local_force_history step (cs s) 0 (map cx l) 2 tol tol = rmap (fun p => (cs (fst p), map co (snd p))) (local_force_history step s 0 l 2 tol tol).
  Proof.
    intros H. unfold local_force_history. destruct l as [|x l]; [reflexivity|]. set (ll := x :: l) in *. change (map cx ll) with (cx x :: map cx l) at 1. rewrite pass_scale.
    destruct (time_loop step s ll) as [[s1 os]|e] eqn:E; [|reflexivity]. cbn [rmap bind fst snd read_fp Nat.sub repeat_loop]. rewrite last_scale, (H s1 os eq_refl).
    destruct (not_converged tol tol (Rabs (last_force os - 0)) (last_force os)); [|reflexivity]. rewrite pass_scale. destruct (time_loop step s1 ll) as [[s2 os2]|e]; reflexivity.
  Qed.
End Loop.

Lemma nth_fst_scale a k os : forall i, nth i (map fst (map (co a k) os)) 0 = a * nth i (map fst os) 0.
Proof. induction os as [|o os IH]; intros [|i]; cbn; try ring. apply IH. Qed.
Lemma nth_snd_scale a k os : forall i c, nth i (map snd (map (co a k) os)) (fun _ => 0) c = k * nth i (map snd os) (fun _ => 0) c.
Proof. induction os as [|o os IH]; intros [|i] c; cbn; try ring. apply IH. Qed.

Lemma converged_iff f : not_converged default_tol default_tol (Rabs (f - 0)) f = Rltb default_tol (Rabs f).
Proof.
  destruct (Rltb default_tol (Rabs f)) eqn:E.
  - apply not_converged_default. apply Rltb_true. exact E.
  - unfold not_converged. rewrite Rminus_0_r, E. reflexivity.
Qed.

Lemma npow_scale c x y : 0 < c -> 0 <= x -> 0 < y -> npow (c * x) y = Rpower c y * npow x y.
Proof.
  intros Hc Hx Hy. unfold npow. rewrite Reqb_scale0 by lra. destruct (Reqb x 0) eqn:E.
  - assert (E2 : Reqb y 0 = false) by (unfold Reqb; destruct (Req_EM_T y 0); [lra|reflexivity]). rewrite E2. ring.
  - assert (x <> 0) by (intros ->; unfold Reqb in E; destruct (Req_EM_T 0 0); [discriminate|tauto]). rewrite Rpower_mult_distr by lra. reflexivity.
Qed.

Lemma sign_abs x : Rsign x * x = Rabs x.
Proof. unfold Rsign, Rltb. destruct (Rlt_dec 0 x); [rewrite Rabs_right by lra; ring|]. destruct (Rlt_dec x 0); [rewrite Rabs_left by lra; ring|]. replace x with 0 by lra. rewrite Rabs_R0. ring. Qed.

Section Elements.
  Variable u : units.
  Hypothesis Hu : positive_units u.
  Let L := u_length u.
  Let F := u_force u.
  Let W := u_freq u.
  Let HL : 0 < L. Proof. exact (proj1 Hu). Qed.
  Let HF : 0 < F. Proof. exact (proj1 (proj2 Hu)). Qed.
  Let HW : 0 < W. Proof. exact (proj2 (proj2 Hu)). Qed.
  Let kE : u_stiffness u = F / L. Proof. reflexivity. Qed.
  Let kP : 0 < u_stiffness u. Proof. rewrite kE. apply Rdiv_lt_0_compat; assumption. Qed.
  Let kL : u_stiffness u * L = F. Proof. rewrite kE. field. lra. Qed.

  (** ** laws *)
  Lemma cubic_law k : law_in u (cubic_history k) (cubic_history (fun d => F / L ^ 3 * k d)).
  Proof. intros d x v. unfold law_f, law_du, law_dv, cubic_history. cbn [fst snd]. rewrite kE. fold L F W. repeat split; field; repeat split; lra. Qed.
  Lemma quintic_law k : law_in u (quintic_history k) (quintic_history (fun d => F / L ^ 5 * k d)).
  Proof. intros d x v. unfold law_f, law_du, law_dv, quintic_history. cbn [fst snd]. rewrite kE. fold L F W. repeat split; field; repeat split; lra. Qed.
  Lemma damping_law c : law_in u (damping_history c) (damping_history (fun d => F / (L * W) ^ 3 * c d)).
  Proof. intros d x v. unfold law_f, law_du, law_dv, damping_history. cbn [fst snd]. rewrite kE. fold L F W. repeat split; field; repeat split; lra. Qed.

  Lemma unilateral_force_value k x dl np : Rmax (u_stiffness u * k * (L * x - L * dl) - F * np) (- (F * np)) = F * Rmax (k * (x - dl) - np) (- np).
  Proof. replace (u_stiffness u * k * (L * x - L * dl) - F * np) with (F * (k * (x - dl) - np)) by (rewrite kE; field; lra). replace (- (F * np)) with (F * (- np)) by ring. apply Rmax_scale, HF. Qed.
  Lemma unilateral_law k np dl : law_in u (unilateral_history k np dl) (unilateral_history (fun d => u_stiffness u * k d) (fun d => F * np d) (fun d => L * dl d)).
  Proof.
    intros d x v. unfold law_f, law_du, law_dv, unilateral_history. cbn [fst snd]. fold L F W. cbv zeta. rewrite unilateral_force_value. replace (- (F * np d)) with (F * (- np d)) by ring.
    rewrite Rltb_scale by exact HF. split; [reflexivity|]. split; [ring|ring].
  Qed.

  Section Iwan.
    Variables kt Fs chi beta : R.
    Hypothesis Hk : 0 < kt.
    Hypothesis HFs : 0 < Fs.
    Hypothesis Hc : -1 < chi.
    Hypothesis Hb : 0 <= beta.
    Let den : 0 < beta + (chi + 1) / (chi + 2).
    Proof. assert (0 < (chi + 1) / (chi + 2)) by (apply Rdiv_lt_0_compat; lra). lra. Qed.
    Let den2 : beta * (chi + 2) + (chi + 1) <> 0.
    Proof. nra. Qed.

    Lemma iwan_phi_in : iwan_phi_max (u_stiffness u * kt) (F * Fs) chi beta = L * iwan_phi_max kt Fs chi beta.
    Proof. unfold iwan_phi_max. rewrite kE. set (d := beta + (chi + 1) / (chi + 2)) in *. clearbody d. field. repeat split; lra. Qed.

    Lemma iwan_E_in : iwan_coef_E (u_stiffness u * kt) (F * Fs) chi beta = u_stiffness u * Rpower (/ L) (1 + chi) * iwan_coef_E kt Fs chi beta.
    Proof.
      unfold iwan_coef_E. set (d := beta + (chi + 1) / (chi + 2)) in *. clearbody d.
      assert (0 < kt * d / (Fs * (1 + beta))) by (apply Rdiv_lt_0_compat; apply Rmult_lt_0_compat; lra).
      replace (u_stiffness u * kt * d / (F * Fs * (1 + beta))) with (/ L * (kt * d / (Fs * (1 + beta)))) by (rewrite kE; field; repeat split; lra).
      rewrite npow_scale; [field; lra|apply Rinv_0_lt_compat; lra|lra|lra].
    Qed.

    Lemma power_L (p : R) : Rpower (/ L) p * Rpower L p = 1.
    Proof. rewrite Rpower_mult_distr by (try apply Rinv_0_lt_compat; lra). rewrite Rinv_l by lra. unfold Rpower. rewrite ln_1, Rmult_0_r. apply exp_0. Qed.
    Lemma power_L2 : Rpower L (2 + chi) = L * Rpower L (1 + chi).
    Proof. replace (2 + chi) with (1 + (1 + chi)) by ring. rewrite Rpower_plus, Rpower_1 by exact HL. reflexivity. Qed.

    Lemma iwan_value s x : 0 <= x -> (u_stiffness u * kt * (L * x) - iwan_coef_E (u_stiffness u * kt) (F * Fs) chi beta * npow (L * x) (2 + chi)) * s
      = F * ((kt * x - iwan_coef_E kt Fs chi beta * npow x (2 + chi)) * s).
    Proof.
      intros Hx. rewrite iwan_E_in, npow_scale by lra. rewrite power_L2. pose proof (power_L (1 + chi)) as P. set (a := Rpower (/ L) (1 + chi)) in *. set (b := Rpower L (1 + chi)) in *. clearbody a b.
      replace (u_stiffness u * kt * (L * x)) with (F * (kt * x)) by (rewrite kE; field; lra).
      replace (u_stiffness u * a * iwan_coef_E kt Fs chi beta * (L * b * npow x (2 + chi))) with ((u_stiffness u * L) * (a * b) * (iwan_coef_E kt Fs chi beta * npow x (2 + chi))) by ring.
      rewrite P, kL. ring.
    Qed.
    Lemma iwan_slope x : 0 <= x -> u_stiffness u * kt - iwan_coef_E (u_stiffness u * kt) (F * Fs) chi beta * (2 + chi) * npow (L * x) (1 + chi)
      = u_stiffness u * (kt - iwan_coef_E kt Fs chi beta * (2 + chi) * npow x (1 + chi)).
    Proof.
      intros Hx. rewrite iwan_E_in, npow_scale by lra. pose proof (power_L (1 + chi)) as P. set (a := Rpower (/ L) (1 + chi)) in *. set (b := Rpower L (1 + chi)) in *. clearbody a b.
      replace (u_stiffness u * a * iwan_coef_E kt Fs chi beta * (2 + chi) * (b * npow x (1 + chi))) with (u_stiffness u * (a * b) * (iwan_coef_E kt Fs chi beta * (2 + chi) * npow x (1 + chi))) by ring.
      rewrite P. ring.
    Qed.

    Lemma iwan_law : law_in u (iwan_history kt Fs chi beta) (iwan_history (u_stiffness u * kt) (F * Fs) chi beta).
    Proof.
      intros d x v. unfold law_f, law_du, law_dv, iwan_history. cbn [fst snd]. cbv zeta. fold L F W. rewrite iwan_phi_in, Rsign_scale by exact HL.
      replace (Rsign x * (L * x)) with (L * (Rsign x * x)) by ring. rewrite Rltb_scale, Rleb_scale by exact HL. rewrite iwan_slope, iwan_value by (rewrite sign_abs; apply Rabs_pos).
      repeat split; ring.
    Qed.
  End Iwan.

  (** ** polynomials *)
  Lemma rprod_scale n (e : nat -> nat) (x : vec) a : rprod n (fun j => (a * x j) ^ e j) = a ^ (fold_right Nat.add O (map e (seq 0 n))) * rprod n (fun j => x j ^ e j).
  Proof.
    induction n as [|n IH]; [cbn; ring|]. cbn [rprod]. rewrite IH, seq_S, map_app, fold_right_app. cbn [Nat.add map fold_right].
    assert (A : forall l b, fold_right Nat.add b l = (fold_right Nat.add O l + b)%nat) by (induction l as [|y l I]; intros b; cbn; [reflexivity|rewrite I; lia]).
    rewrite (A _ (e n + 0)%nat), Nat.add_0_r, pow_add, Rpow_mult_distr. ring.
  Qed.
  Lemma degree_down qq c i n : (i < n)%nat -> (0 < qq c i)%nat ->
    (fold_right Nat.add O (map (qq c) (seq 0 n)) = S (fold_right Nat.add O (map (poly_qd qq i c) (seq 0 n))))%nat.
  Proof.
    intros Hi Hq. assert (A : forall l b, fold_right Nat.add b l = (fold_right Nat.add O l + b)%nat) by (clear; induction l as [|y l I]; intros b; cbn; [reflexivity|rewrite I; lia]).
    induction n as [|n IH]; [lia|]. rewrite seq_S, !map_app, !fold_right_app. cbn [Nat.add map fold_right]. rewrite (A _ (qq c n + 0)%nat), (A _ (poly_qd qq i c n + 0)%nat).
    destruct (Nat.eq_dec i n) as [->|Hne].
    - rewrite (map_ext_in (poly_qd qq n c) (qq c)).
      + unfold poly_qd. rewrite Nat.eqb_refl. destruct (Nat.eqb_spec (qq c n) 0); lia.
      + intros j Hj. apply in_seq in Hj. unfold poly_qd. destruct (Nat.eqb_spec j n); [lia|reflexivity].
    - rewrite IH by lia. assert (poly_qd qq i c n = qq c n) by (unfold poly_qd; destruct (Nat.eqb_spec n i); lia). lia.
  Qed.

  Lemma poly_row nnl cnl E qq x d : matvec cnl (fun r c => F / L ^ monomial_degree nnl qq c * E r c) (poly_terms nnl qq (fun j => L * x j)) d = F * matvec cnl E (poly_terms nnl qq x) d.
  Proof.
    unfold matvec. rewrite <- rsum_scal_l. apply rsum_ext. intros c _. unfold poly_terms. rewrite rprod_scale. fold (monomial_degree nnl qq c). field. apply pow_nonzero. lra.
  Qed.
  Lemma poly_slope nnl cnl E qq x d e : (e < nnl)%nat ->
    matmul cnl (fun r c => F / L ^ monomial_degree nnl qq c * E r c) (poly_dterms nnl qq (fun j => L * x j)) d e = u_stiffness u * matmul cnl E (poly_dterms nnl qq x) d e.
  Proof.
    intros He. unfold matmul. rewrite <- rsum_scal_l. apply rsum_ext. intros c _. unfold poly_dterms. rewrite rprod_scale.
    destruct (Nat.eq_dec (qq c e) 0) as [Z|Z]; [rewrite Z; cbn [INR]; ring|]. unfold monomial_degree. rewrite (degree_down qq c e nnl He) by lia. cbn [pow]. rewrite kE. field. split; [lra|apply pow_nonzero; lra].
  Qed.
End Elements.
