From Coq Require Import Reals List Arith Bool ZArith Lia Lra Psatz FunctionalExtensionality.
From Verif.Lib Require Import RSum Calc LinAlg Py.
From Verif.Spec Require Import Calculus Harmonic Elements System.
From Verif.Model Require Import Jenkins Harmonic LocalForces Aft VibSys TimeStability.
From Verif.Proofs Require Import HarmonicP FourierP HarmonicOpsP AftP ElementsP VibSysP VibControlP VprnmP.
Import ListNotations.
Open Scope R_scope.

(** external force of shooting *)
Definition ext_force (N : nat) (Fl : vec) (w t : R) : vec := fun i => Fl i * cos (w * t) + Fl (N + i)%nat * sin (w * t).

Lemma shooting_newton inv t y s Fl w f F dF : vs_forces s = [f] -> nl_force f y = Ok (F, dF) ->
  let N := vs_N s in
  inverse_of N (vs_M s) (inv (vs_M s)) ->
  exists dy, shooting_state_space inv t y s Fl w = Ok dy /\
    (forall i, (i < N)%nat -> dy i = y (N + i)%nat) /\
    newton N (vs_M s) (vs_C s) (vs_K s) y (fun i => y (N + i)%nat) (fun i => dy (N + i)%nat) F (fun i => Fl i * cos (w * t) + Fl (N + i)%nat * sin (w * t)).
Proof.
  intros Hf HF N HI. unfold shooting_state_space. rewrite Hf. cbn [shooting_loop]. rewrite HF. cbn [bind].
  eexists. split; [reflexivity|]. cbv beta zeta. fold N. split.
  - intros i Hi. rewrite ltb_t by exact Hi. reflexivity.
  - intros i Hi.
    set (rhs := fun i : nat => - (matvec N (vs_C s) (fun i0 : nat => y (N + i0)%nat) i + matvec N (vs_K s) y i + F i) + (Fl i * cos (w * t) + Fl (N + i)%nat * sin (w * t))).
    rewrite (matvec_ext N (vs_M s) _ (matvec N (inv (vs_M s)) rhs)).
    2: { intros j Hj. rewrite ltb_f, ltb_t by lia. replace (N + j - N)%nat with j by lia. reflexivity. }
    rewrite matvec_inverse; [|exact HI|exact Hi]. unfold rhs. ring.
Qed.

Lemma rsum_dg_row N Minv K C dF r (v : vec) : (r < N)%nat ->
  rsum (2 * N) (fun c => shooting_dg N Minv K C dF r c * v c) = v (N + r)%nat.
Proof.
  intros Hr. replace (2 * N)%nat with (N + N)%nat by lia. rewrite rsum_split, rsum_zero.
  - rewrite (rsum_single N r).
    + unfold shooting_dg. rewrite ltb_t, ltb_f by lia. replace (N + r - N)%nat with r by lia. rewrite Nat.eqb_refl. ring.
    + exact Hr.
    + intros c Hc Ne. unfold shooting_dg. rewrite ltb_t, ltb_f by lia. replace (N + c - N)%nat with c by lia. rewrite (proj2 (Nat.eqb_neq c r)) by exact Ne. ring.
  - intros c Hc. unfold shooting_dg. rewrite !ltb_t by lia. ring.
Qed.

Lemma rsum_dg_low N Minv K C dF r (v : vec) : (r < N)%nat ->
  rsum (2 * N) (fun c => shooting_dg N Minv K C dF (N + r)%nat c * v c)
  = rsum N (fun k => Minv r k * - (rsum N (fun c => C k c * v (N + c)%nat) + rsum N (fun c => K k c * v c) + rsum N (fun c => dF k c * v c))).
Proof.
  intros Hr. replace (2 * N)%nat with (N + N)%nat by lia. rewrite rsum_split.
  transitivity (rsum N (fun c => matmul N Minv (fun i j => - K i j - dF i j) r c * v c) + rsum N (fun c => matmul N Minv (fun i j => - C i j) r c * v (N + c)%nat)).
  - f_equal; apply rsum_ext; intros c Hc; unfold shooting_dg; rewrite ?ltb_f by lia; rewrite ?ltb_t by lia; rewrite ?ltb_f by lia; replace (N + r - N)%nat with r by lia; [reflexivity|].
    replace (N + c - N)%nat with c by lia. reflexivity.
  - unfold matmul. transitivity (rsum N (fun k => rsum N (fun c => Minv r k * ((- K k c - dF k c) * v c))) + rsum N (fun k => rsum N (fun c => Minv r k * (- C k c * v (N + c)%nat)))).
    + f_equal; rewrite (rsum_swap N N); apply rsum_ext; intros c Hc; rewrite <- rsum_scal_r; apply rsum_ext; intros; ring.
    + rewrite <- rsum_plus. apply rsum_ext. intros k Hk. rewrite !rsum_scal_l. rewrite <- Rmult_plus_distr_l. f_equal.
      rewrite <- rsum_plus, <- !rsum_plus, <- rsum_opp. apply rsum_ext. intros; ring.
Qed.

Lemma shooting_variational inv t y s Fl w f : vs_forces s = [f] ->
  let N := vs_N s in
  let D := (2 * N)%nat in
  static_smooth N y f ->
  exists (G : vec -> R -> vec) (J : mat) (Gw dy : vec),
    (forall z w', exists dz, shooting_state_space inv t z s Fl w' = Ok dz /\ forall i, (i < D)%nat -> dz i = G z w' i) /\
    is_joint_jacobian D D G y w J Gw /\
    shooting_state_space inv t y s Fl w = Ok dy /\
    (forall r c, (r < D)%nat -> (c < D)%nat -> dy (D + (r * D + c))%nat = rsum D (fun k => J r k * y (D + (k * D + c))%nat)) /\
    (forall r, (r < D)%nat -> dy (D + D * D + r)%nat = rsum D (fun k => J r k * y (D + D * D + k)%nat) + Gw r).
Proof.
  intros Hf N D (F & dF & HF & HFy & HJ).
  set (Minv := inv (vs_M s)).
  set (rhs := fun (z : vec) (w' : R) (i : nat) => - (matvec N (vs_C s) (fun i0 : nat => z (N + i0)%nat) i + matvec N (vs_K s) z i + F z i) + (Fl i * cos (w' * t) + Fl (N + i)%nat * sin (w' * t))).
  set (dFx := fun i : nat => - t * Fl i * sin (w * t) + t * Fl (N + i)%nat * cos (w * t)).
  exists (fun z w' i => if Nat.ltb i N then z (N + i)%nat else matvec N Minv (rhs z w') (i - N)%nat),
    (shooting_dg N Minv (vs_K s) (vs_C s) dF), (fun i => if Nat.ltb i N then 0 else matvec N Minv dFx (i - N)%nat).
  eexists. split; [|split; [|split; [|split]]].
  - intros z w'. destruct (HF z) as [dF' E]. unfold shooting_state_space. rewrite Hf. cbn [shooting_loop]. rewrite E. cbn [bind].
    eexists. split; [reflexivity|]. intros i Hi. cbv beta zeta. fold N. fold D.
    rewrite (ltb_t i D Hi). destruct (Nat.ltb i N); reflexivity.
  - intros g v om dom t0 Hg Ho Hv Hd i Hi. destruct (Nat.ltb_spec i N) as [L|L].
    + unfold D. rewrite rsum_dg_row by exact L. eapply dlim_eq; [apply (Hv (N + i)%nat); unfold D; lia|ring].
    + set (r := (i - N)%nat). assert (Hr : (r < N)%nat) by (unfold r, D in *; lia). replace i with (N + r)%nat by (unfold r; lia).
      unfold D. rewrite rsum_dg_low by exact Hr.
      eapply dlim_eq.
      * apply (dlim_matvec N Minv (fun t1 => rhs (g t1) (om t1)) t0
          (fun k => - (rsum N (fun c => vs_C s k c * v (N + c)%nat) + rsum N (fun c => vs_K s k c * v c) + rsum N (fun c => dF k c * v c)) + dFx k * dom)).
        intros k Hk. unfold rhs. apply dlim_plus; [apply dlim_opp; apply dlim_plus; [apply dlim_plus|]|].
        -- apply (dlim_matvec N (vs_C s) (fun t1 i0 => g t1 (N + i0)%nat) t0 (fun c => v (N + c)%nat)). intros c Hc. apply Hv. unfold D. lia.
        -- apply (dlim_matvec N (vs_K s) g t0 v). intros c Hc. apply Hv. unfold D. lia.
        -- apply HJ; [intros j Hj; apply Hg; unfold D; lia|intros j Hj; apply Hv; unfold D; lia|exact Hk].
        -- assert (DO : derivable_pt_lim (fun t1 => om t1 * t) t0 (dom * t)) by (apply dlim_scal_r; exact Hd).
           eapply dlim_eq; [apply dlim_plus; apply dlim_scal; [apply (dlim_comp (fun t1 => om t1 * t) cos); [exact DO|apply derivable_pt_lim_cos]|
             apply (dlim_comp (fun t1 => om t1 * t) sin); [exact DO|apply derivable_pt_lim_sin]]|].
           rewrite Ho. unfold dFx. ring.
      * unfold matvec. rewrite <- rsum_scal_r, <- rsum_plus. apply rsum_ext. intros k Hk. ring.
  - unfold shooting_state_space. rewrite Hf. cbn [shooting_loop]. rewrite HFy. cbn [bind]. reflexivity.
  - intros r c Hr Hc. cbv beta zeta. fold N. fold D. rewrite !ltb_f by (unfold D; nia). rewrite ltb_t by nia.
    replace (D + (r * D + c) - D)%nat with (c + r * D)%nat by lia. rewrite Nat.div_add, Nat.mod_add, Nat.div_small, Nat.mod_small by lia.
    rewrite Nat.add_0_l. unfold matmul. apply rsum_ext. intros k Hk. f_equal.
    unfold shooting_dg. replace (madd mzero dF) with dF; [reflexivity|].
    apply functional_extensionality; intros a; apply functional_extensionality; intros b. unfold madd, mzero. ring.
  - intros r Hr. cbv beta zeta. fold N. fold D. rewrite !ltb_f by (unfold D; nia).
    replace (D + D * D + r - D - D * D)%nat with r by lia. unfold matvec at 3.
    replace (madd mzero dF) with dF; [|apply functional_extensionality; intros a; apply functional_extensionality; intros b; unfold madd, mzero; ring].
    rewrite Rplus_comm. reflexivity.
Qed.

(** a system with two forces: only the last one acts *)
Lemma shooting_two_forces : exists inv s y Fl w t f1 f2 F1 F2 dF1 dF2 dy,
  vs_forces s = [f1; f2] /\ nl_force f1 y = Ok (F1, dF1) /\ nl_force f2 y = Ok (F2, dF2) /\
  inverse_of (vs_N s) (vs_M s) (inv (vs_M s)) /\
  shooting_state_space inv t y s Fl w = Ok dy /\
  ~ newton (vs_N s) (vs_M s) (vs_C s) (vs_K s) y (fun i => y (vs_N s + i)%nat) (fun i => dy (vs_N s + i)%nat)
      (fun i => F1 i + F2 i) (fun i => Fl i * cos (w * t) + Fl (vs_N s + i)%nat * sin (w * t)).
Proof.
  set (f := mkForce O (fun _ => Ok ((fun _ => 1), mzero)) (fun _ _ _ _ => Ok (vzero, mzero, vzero)) (fun _ _ _ _ => Ok vzero)).
  exists (fun M => M), (vs_add_nl_force (vs_add_nl_force (vs_new 1 mid mid None None) f) f), vzero, vzero, 1, 0, f, f, (fun _ => 1), (fun _ => 1), mzero, mzero.
  eexists. split; [reflexivity|]. split; [reflexivity|]. split; [reflexivity|]. split; [|split; [reflexivity|]].
  - intros i j Hi Hj. cbn [vs_N vs_add_nl_force vs_new] in *. assert (i = O) by lia. assert (j = O) by lia. subst. cbn. unfold mid. cbn. lra.
  - intros X. specialize (X O ltac:(cbn; lia)). revert X. cbn. unfold matvec, vzero, mid, mzero. cbn. intros X; ring_simplify in X; lra.
Qed.

Lemma shooting_no_force inv t y s Fl w : vs_forces s = [] -> shooting_state_space inv t y s Fl w = Err NameError.
Proof. intros H. unfold shooting_state_space. rewrite H. reflexivity. Qed.

(** ---- the residual ---- *)
Definition rate inv s Fl : R -> vec -> R -> result vec := fun t y w => shooting_state_space inv t y s Fl w.

Lemma shooting_spec ivp inv s Fl Phi Uw :
  let D := (2 * vs_N s)%nat in
  Forall (fun f => nl_type f = O) (vs_forces s) ->
  exact_integration D ivp (fun t y w => shooting_state_space inv t y s Fl w) (shooting_y0 (vs_N s)) Phi ->
  Uw D <> 0 ->
  exists Rr J l mono, shooting_res ivp inv s Uw Fl = Ok (Rr, J, l, mono) /\
    (forall i, (i < D)%nat -> Rr i = Phi (2 * PI / Uw D) Uw (Uw D) i - Uw i) /\
    is_jacobian (D + 1) D (fun X i => Phi (2 * PI / X D) X (X D) i - X i) Uw (hcat D J l) /\
    is_jacobian D D (fun z => Phi (2 * PI / Uw D) z (Uw D)) Uw mono.
Proof.
  intros D HT HE Hw.
  assert (HP : 2 * PI / Uw D <> 0).
  { pose proof PI_RGT_0. unfold Rdiv. apply Rmult_integral_contrapositive. split; [lra|]. apply Rinv_neq_0_compat. exact Hw. }
  destruct (HE (2 * PI / Uw D) Uw (Uw D) HP) as (y & dy & E1 & E2 & E3 & E4).
  unfold shooting_res. replace (forallb _ (vs_forces s)) with true.
  2: { symmetry. apply forallb_forall. intros f Hf. rewrite Forall_forall in HT. rewrite (HT f Hf). reflexivity. }
  cbv zeta. fold D. cbv beta in E1. rewrite E1. cbn [bind]. rewrite E2. cbn [bind].
  eexists _, _, _, _. split; [reflexivity|]. split; [|split].
  - intros i Hi. rewrite E3 by exact Hi. reflexivity.
  - intros g v t0 Hg Hv i Hi.
    assert (GD : g t0 D = Uw D) by (apply Hg; lia).
    assert (DT : derivable_pt_lim (fun t => 2 * PI / g t D) t0 (2 * PI * (-1 / (Uw D) ^ 2) * v D)).
    { eapply dlim_eq; [apply (dlim_div (fun _ => 2 * PI) (fun t => g t D)); [rewrite GD; exact Hw|apply dlim_const|apply Hv; lia]|].
      rewrite GD. unfold Rsqr. field. exact Hw. }
    eapply dlim_eq; [apply dlim_minus; [|apply Hv; lia]|].
    + apply (E4 g v (fun t => g t D) (fun t => 2 * PI / g t D)); [intros j Hj; apply Hg; lia|exact GD|rewrite GD; reflexivity|intros j Hj; apply Hv; lia|apply Hv; lia|exact DT|exact Hi].
    + rewrite rsum_hcat.
      assert (X : rsum D (fun j => (y (D + (i * D + j))%nat - (if Nat.eqb i j then 1 else 0)) * v j) = rsum D (fun j => y (D + (i * D + j))%nat * v j) - v i).
      { rewrite (rsum_ext D _ (fun j => y (D + (i * D + j))%nat * v j - (if Nat.eqb i j then 1 else 0) * v j)) by (intros; ring).
        rewrite rsum_minus. f_equal. rewrite (rsum_single D i); [rewrite Nat.eqb_refl; ring|exact Hi|intros j Hj Ne; rewrite (proj2 (Nat.eqb_neq i j)) by lia; ring]. }
      cbv beta. rewrite X. ring.
  - intros g v t0 Hg Hv i Hi. eapply dlim_eq.
    + apply (E4 g v (fun t => Uw D) (fun t => 2 * PI / Uw D)); [exact Hg|reflexivity|reflexivity|exact Hv|apply dlim_const|apply dlim_const|exact Hi].
    + cbv beta. ring.
Qed.

(** ---- stability ---- *)
Lemma cabs_modulus l : cabs l = modulus l.
Proof. unfold cabs, modulus. f_equal. ring. Qed.

Lemma fold_max l : forall m c, fold_left (fun m y => Rmax m (cabs y)) l m <= c <-> m <= c /\ forall x, In x l -> cabs x <= c.
Proof.
  induction l as [|y l IH]; intros m c; cbn [fold_left].
  - split; [intros H; split; [exact H|intros x []]|intros [H _]; exact H].
  - rewrite IH. split.
    + intros [A B]. pose proof (Rmax_l m (cabs y)). pose proof (Rmax_r m (cabs y)). split; [lra|]. intros x [<-|I]; [lra|apply B; exact I].
    + intros [A B]. split; [apply Rmax_lub; [exact A|apply B; left; reflexivity]|intros x I; apply B; right; exact I].
Qed.

Lemma max_abs_le l m c : max_abs l = Ok m -> (m <= c <-> forall x, In x l -> modulus x <= c).
Proof.
  destruct l as [|x l]; [discriminate|]. cbn [max_abs]. intros E. injection E as <-. rewrite fold_max. split.
  - intros [A B] y [<-|I]; rewrite <- cabs_modulus; [exact A|apply B; exact I].
  - intros H. split; [rewrite cabs_modulus; apply H; left; reflexivity|intros y I; rewrite cabs_modulus; apply H; right; exact I].
Qed.

Lemma fold_max_attained l : forall m, fold_left (fun m y => Rmax m (cabs y)) l m = m \/ exists x, In x l /\ fold_left (fun m y => Rmax m (cabs y)) l m = cabs x.
Proof.
  induction l as [|y l IH]; intros m; cbn [fold_left]; [left; reflexivity|].
  destruct (IH (Rmax m (cabs y))) as [E|(x & I & E)].
  - rewrite E. unfold Rmax. destruct (Rle_dec m (cabs y)); [right; exists y; split; [left; reflexivity|reflexivity]|left; reflexivity].
  - right. exists x. split; [right; exact I|exact E].
Qed.

Lemma max_abs_attained l m : max_abs l = Ok m -> exists x, In x l /\ m = modulus x.
Proof.
  destruct l as [|x l]; [discriminate|]. cbn [max_abs]. intros E. injection E as <-.
  destruct (fold_max_attained l (cabs x)) as [->|(y & I & ->)]; [exists x; split; [left; reflexivity|apply cabs_modulus]|exists y; split; [right; exact I|apply cabs_modulus]].
Qed.

Lemma stability_spec ivp inv eigvals s Fl : forall pts flags,
  let D := (2 * vs_N s)%nat in
  (forall Uw Rr J l A, In Uw pts -> shooting_res ivp inv s Uw Fl = Ok (Rr, J, l, A) -> forall lam, In lam (eigvals A) <-> eigenvalue D A lam) ->
  time_stability ivp inv eigvals s pts Fl = Ok flags ->
  Forall2 (fun Uw fl => exists Rr J l mono, shooting_res ivp inv s Uw Fl = Ok (Rr, J, l, mono) /\
    (fst fl = true <-> forall lam, eigenvalue D mono lam -> modulus lam <= 1) /\
    (forall lam, eigenvalue D mono lam -> modulus lam <= snd fl) /\ (exists lam, eigenvalue D mono lam /\ modulus lam = snd fl)) pts flags.
Proof.
  induction pts as [|Uw pts IH]; intros flags D HE H; cbn [time_stability] in H.
  - injection H as <-. constructor.
  - destruct (shooting_res ivp inv s Uw Fl) as [[[[Rr J] l] mono]|e] eqn:E; [|discriminate]. cbn [bind] in H.
    destruct (max_abs (eigvals mono)) as [m|e] eqn:Em; [|discriminate]. cbn [bind] in H.
    destruct (time_stability ivp inv eigvals s pts Fl) as [tl|e] eqn:Et; [|discriminate]. cbn [bind] in H. injection H as <-.
    constructor; [|apply IH; [intros Uw' ? ? ? A I; apply (HE Uw'); right; exact I|reflexivity]].
    specialize (HE Uw Rr J l mono (or_introl eq_refl) E). exists Rr, J, l, mono. split; [first [exact E|reflexivity]|]. cbn [fst snd].
    split; [|split].
    + rewrite Rleb_true, (max_abs_le _ _ 1 Em). split; intros X lam Hl; apply X; apply HE; exact Hl.
    + intros lam Hl. apply (proj1 (max_abs_le _ _ m Em) (Rle_refl m)). apply HE. exact Hl.
    + destruct (max_abs_attained _ _ Em) as (x & I & ->). exists x. split; [apply HE; exact I|reflexivity].
Qed.

(** ---- the oscillator u'' + u = 0 ---- *)
Definition zero_nl : nlforce := mkForce O (fun _ => Ok (vzero, mzero)) (fun _ _ _ _ => Ok (vzero, mzero, vzero)) (fun _ _ _ _ => Ok vzero).
Definition osc : vibsys := vs_add_nl_force (vs_new 1 mid mid None None) zero_nl.
Definition osc_flow (T : R) (z : vec) (_ : R) : vec := fun i => match i with O => z O * cos T + z 1%nat * sin T | _ => - z O * sin T + z 1%nat * cos T end.
Definition osc_ivp : (R -> vec -> result vec) -> R -> vec -> result vec := fun _ T y0 => Ok (fun i =>
  match i with O => y0 O * cos T + y0 1%nat * sin T | 1%nat => - y0 O * sin T + y0 1%nat * cos T
  | 2%nat => cos T | 3%nat => sin T | 4%nat => - sin T | 5%nat => cos T | _ => 0 end).

Lemma osc_exact : exact_integration 2 osc_ivp (fun t y w => shooting_state_space (fun M => M) t y osc vzero w) (shooting_y0 1) osc_flow.
Proof.
  intros T z w _. eexists _, _. split; [reflexivity|]. split; [reflexivity|]. split.
  - intros i Hi. destruct i as [|[|i]]; [reflexivity|reflexivity|lia].
  - intros g v om tau dom dtau t0 Hg Ho Ht Hv Hd Hdt i Hi.
    assert (g0 := Hg O ltac:(lia)). assert (g1 := Hg 1%nat ltac:(lia)).
    assert (v0 := Hv O ltac:(lia)). assert (v1 := Hv 1%nat ltac:(lia)).
    assert (dc : derivable_pt_lim (fun t => cos (tau t)) t0 (- sin (tau t0) * dtau)) by (apply (dlim_comp tau cos); [exact Hdt|apply derivable_pt_lim_cos]).
    assert (ds : derivable_pt_lim (fun t => sin (tau t)) t0 (cos (tau t0) * dtau)) by (apply (dlim_comp tau sin); [exact Hdt|apply derivable_pt_lim_sin]).
    rewrite Ht in dc, ds.
    destruct i as [|[|i]]; [| |lia].
    + cbn [osc_flow]. eapply dlim_eq.
      * apply dlim_plus; [apply (dlim_mult (fun t => g t O)); [exact v0|exact dc]|apply (dlim_mult (fun t => g t 1%nat)); [exact v1|exact ds]].
      * rewrite g0, g1, Ht. cbn. unfold matvec, vzero, mid, mzero. cbn. ring.
    + cbn [osc_flow]. eapply dlim_eq.
      * apply dlim_plus; [apply (dlim_mult (fun t => - g t O)); [apply dlim_opp; exact v0|exact ds]|apply (dlim_mult (fun t => g t 1%nat)); [exact v1|exact dc]].
      * rewrite g0, g1, Ht. cbn. unfold matvec, vzero, mid, mzero. cbn. ring.
Qed.

(** at frequency 4 the monodromy matrix is the rotation by a quarter turn *)
Definition osc_eigvals : mat -> list (R * R) := fun _ => [(0, 1); (0, -1)].
Lemma osc_stability Uw : Uw 2%nat = 4 ->
  time_stability osc_ivp (fun M => M) osc_eigvals osc [Uw] vzero = Ok [(true, 1)] /\
  forall Rr J l A, shooting_res osc_ivp (fun M => M) osc Uw vzero = Ok (Rr, J, l, A) -> forall lam, In lam (osc_eigvals A) <-> eigenvalue 2 A lam.
Proof.
  intros Hw.
  assert (C1 : cabs (0, 1) = 1) by (unfold cabs; cbn [fst snd]; replace (0 * 0 + 1 * 1) with 1 by ring; apply sqrt_1).
  assert (C2 : cabs (0, -1) = 1) by (unfold cabs; cbn [fst snd]; replace (0 * 0 + -1 * -1) with 1 by ring; apply sqrt_1).
  split.
  - cbn [time_stability]. unfold shooting_res. cbn. rewrite C1, C2, Rmax_left by lra. rewrite (proj2 (Rleb_true 1 1)) by lra. reflexivity.
  - intros Rr J l A E. unfold shooting_res in E. cbn in E. injection E as _ _ _ <-.
    change (2 * PI / Uw 2%nat) with (2 * PI / Uw 2%nat). rewrite Hw. replace (2 * PI / 4) with (PI / 2) by field. rewrite cos_PI2, sin_PI2.
    intros [a b]. unfold osc_eigvals. split.
    + intros [E|[E|[]]]; injection E as <- <-.
      * exists (fun i => match i with O => 1 | _ => 0 end), (fun i => match i with O => 0 | _ => 1 end). split; [exists O; split; [lia|left; cbn; lra]|].
        intros i Hi. assert (i = 0 \/ i = 1)%nat as [->| ->] by lia; cbn; lra.
      * exists (fun i => match i with O => 1 | _ => 0 end), (fun i => match i with O => 0 | _ => -1 end). split; [exists O; split; [lia|left; cbn; lra]|].
        intros i Hi. assert (i = 0 \/ i = 1)%nat as [->| ->] by lia; cbn; lra.
    + intros (u & v & (k & Hk & Nz) & H). pose proof (H O ltac:(lia)) as [A0 B0]. pose proof (H 1%nat ltac:(lia)) as [A1 B1].
      cbn in A0, B0, A1, B1. set (u0 := u O) in *. set (u1 := u 1%nat) in *. set (v0 := v O) in *. set (v1 := v 1%nat) in *.
      assert (NZ : u0 <> 0 \/ v0 <> 0 \/ u1 <> 0 \/ v1 <> 0) by (assert (k = 0 \/ k = 1)%nat as [->| ->] by lia; fold u0 in Nz; fold v0 in Nz; fold u1 in Nz; fold v1 in Nz; tauto).
      assert (E1 : u1 = a * u0 - b * v0) by lra. assert (E2 : v1 = a * v0 + b * u0) by lra.
      assert (E3 : - u0 = a * u1 - b * v1) by lra. assert (E4 : - v0 = a * v1 + b * u1) by lra.
      rewrite E1, E2 in E3, E4.
      assert (P : u0 <> 0 \/ v0 <> 0) by (destruct (Req_dec u0 0) as [Z|]; [|auto]; destruct (Req_dec v0 0) as [Z'|]; [|auto]; rewrite Z, Z' in *; destruct NZ as [|[|[|]]]; lra).
      assert (Q : 0 < u0 * u0 + v0 * v0) by (destruct P; nra).
      assert (X1 : (a * a - b * b + 1) * u0 = 2 * a * b * v0) by lra. assert (X2 : (a * a - b * b + 1) * v0 = - (2 * a * b * u0)) by lra.
      set (p := a * a - b * b + 1) in *. set (q := 2 * a * b) in *.
      assert (p * (u0 * u0 + v0 * v0) = 0) by (replace (p * (u0 * u0 + v0 * v0)) with (p * u0 * u0 + p * v0 * v0) by ring; rewrite X1, X2; ring).
      assert (q * (u0 * u0 + v0 * v0) = 0) by (replace (q * (u0 * u0 + v0 * v0)) with (q * v0 * v0 - (- (q * u0)) * u0) by ring; rewrite <- X1, <- X2; ring).
      assert (p = 0) by (apply Rmult_integral in H0; destruct H0; lra). assert (q = 0) by (apply Rmult_integral in H1; destruct H1; lra).
      assert (a = 0). { unfold p, q in *. assert (a * b = 0) by lra. apply Rmult_integral in H4. destruct H4 as [|Z]; [assumption|]. rewrite Z in H2. nra. }
      subst a. unfold p in H2. assert ((b - 1) * (b + 1) = 0) by lra. apply Rmult_integral in H4. destruct H4; [left|right; left]; f_equal; lra.
Qed.

Lemma osc_case : Forall (fun f => nl_type f = O) (vs_forces osc) /\ vs_N osc = 1%nat /\
  exact_integration 2 osc_ivp (fun t y w => shooting_state_space (fun M => M) t y osc vzero w) (shooting_y0 1) osc_flow.
Proof. split; [repeat constructor|]. split; [reflexivity|exact osc_exact]. Qed.
