(** The harmonic balance residual of a conservative system is the gradient of the mean action; its Jacobian is symmetric. *)
From Coq Require Import Reals Lra Lia Arith List Bool FunctionalExtensionality.
From Verif.Lib Require Import RSum Calc Py.
From Verif.Spec Require Import Calculus Harmonic Elements System Galerkin Energy StaticHistory Potential.
From Verif.Model Require Import Harmonic LocalForces Aft VibSys SysElements.
From Verif.Proofs Require Import HarmonicP FourierP HarmonicOpsP AftP ElementsP VibSysP EnergyP PotentialP.
Import ListNotations.
Open Scope R_scope.

Definition kof (h : list nat) (c : nat) : R := INR (harm (nth c (components h) (Cos O))).

Lemma dseries_derivative h X w t : derivable_pt_lim (fun s => w * dseries h X (w * s)) t (w ^ 2 * series h (fun c => - kof h c ^ 2 * X c) (w * t)).
Proof.
  apply dlim_eq with (w * (rsum (length (components h)) (fun c => X c * - (kof h c ^ 2 * basis h c (w * t))) * w)).
  - apply dlim_scal. apply (dlim_comp (fun s => w * s) (dseries h X) t w).
    + eapply dlim_eq; [apply dlim_scal; apply dlim_id|ring].
    + unfold dseries. apply (dlim_rsum _ (fun c s => X c * dbasis h c s) (w * t) (fun c => X c * - (kof h c ^ 2 * basis h c (w * t)))). intros c Hc. apply dlim_scal.
      unfold dbasis, basis, kof. destruct (nth c (components h) (Cos O)) as [k|k]; cbn [comp_dfun comp_fun harm].
      * apply dlim_ext with (fun s => - INR k * sin (INR k * s)); [intros; ring|]. eapply dlim_eq; [apply dlim_scal; apply dlim_sin_lin|ring].
      * eapply dlim_eq; [apply dlim_scal; apply dlim_cos_lin|ring].
  - unfold series. rewrite <- rsum_scal_r, <- !rsum_scal_l. apply rsum_ext. intros; ring.
Qed.

Section Linear.
  Variables (N : nat) (h : list nat) (Nt : nat) (M C K : mat) (w : R).
  Hypothesis Ha : admissible h.
  Hypothesis Hw : w <> 0.
  Hypothesis HC : forall i j, (i < N)%nat -> (j < N)%nat -> C i j = 0.
  Let nc := length (components h).

  Lemma linear_rows E dE X c i : harmonic_stiffness N M C K w h true false = Ok (E, dE) -> (c < nc)%nat -> (i < N)%nat ->
    matvec (nc * N) E X (c * N + i)%nat = rsum N (fun j => (K i j - (kof h c * w) ^ 2 * M i j) * X (c * N + j)%nat).
  Proof.
    intros HE Hc Hi. destruct (stiffness_eom N M C K w h true X Ha) as (E' & dE' & v & a & HE' & Dv & Da & EQ). rewrite HE in HE'. injection HE' as <- <-.
    assert (V : forall j t, v j t = w * dseries h (dof_coefs N X j) (w * t)).
    { intros j t. apply (uniqueness_limite (motion N h X w j) t); [apply Dv|]. unfold motion. eapply dlim_eq; [apply (dlim_comp (fun s => w * s) (series h (dof_coefs N X j)) t w); [|apply series_dseries]|ring].
      eapply dlim_eq; [apply dlim_scal; apply dlim_id|ring]. }
    assert (A : forall j t, a j t = w ^ 2 * series h (fun c => - kof h c ^ 2 * dof_coefs N X j c) (w * t)).
    { intros j t. apply (uniqueness_limite (v j) t); [apply Da|]. eapply dlim_ext; [intros s; symmetry; apply V|]. apply dseries_derivative. }
    set (B := fun c => rsum N (fun j => (K i j - (kof h c * w) ^ 2 * M i j) * X (c * N + j)%nat)).
    assert (S : forall tau, series h (dof_coefs N (matvec (nc * N) E X) i) tau = series h B tau).
    { intros tau. pose proof (EQ i (tau / w) Hi) as Q. unfold motion in Q. replace (w * (tau / w)) with tau in Q by (field; exact Hw). unfold nc. rewrite Q.
      rewrite (rsum_ext N _ (fun j => rsum nc (fun c => (K i j - (kof h c * w) ^ 2 * M i j) * X (c * N + j)%nat * basis h c tau))).
      - rewrite rsum_swap. unfold series, B. apply rsum_ext. intros b Hb. rewrite <- rsum_scal_r. reflexivity.
      - intros j Hj. rewrite (HC i j Hi Hj), A. replace (w * (tau / w)) with tau by (field; exact Hw). unfold series. fold nc.
        rewrite <- !rsum_scal_l. rewrite Rmult_0_l, Rplus_0_r, <- rsum_plus. apply rsum_ext. intros b Hb. unfold dof_coefs. ring. }
    change (dof_coefs N (matvec (nc * N) E X) i c = B c). set (Nn := (2 * list_max h + 1)%nat).
    rewrite <- (series_coef Nn h (dof_coefs N (matvec (nc * N) E X) i) c (proj1 (proj2 Ha)) ltac:(unfold Nn; lia) Hc).
    rewrite <- (series_coef Nn h B c (proj1 (proj2 Ha)) ltac:(unfold Nn; lia) Hc). apply fourier_coef_ext. intros n _. apply S.
  Qed.

  Lemma linear_symmetric E dE r s : harmonic_stiffness N M C K w h true false = Ok (E, dE) -> symmetric_matrix N M -> symmetric_matrix N K -> (r < nc * N)%nat -> (s < nc * N)%nat ->
    share N h r * E r s = share N h s * E s r.
  Proof.
    intros HE HM HK Hr Hs.
    assert (U : forall a b, (b < nc * N)%nat -> E a b = matvec (nc * N) E (fun k => if Nat.eqb k b then 1 else 0) a).
    { intros a b Hb. unfold matvec. rewrite (rsum_single _ b _ Hb); [rewrite Nat.eqb_refl; ring|]. intros k Hk Hne. destruct (Nat.eqb_spec k b); [contradiction|ring]. }
    destruct (block_form nc N r Hr) as (c & i & Hc & Hi & ->). destruct (block_form nc N s Hs) as (d & j & Hd & Hj & ->).
    assert (G : forall c d i j, (c < nc)%nat -> (d < nc)%nat -> (i < N)%nat -> (j < N)%nat -> E (c * N + i)%nat (d * N + j)%nat = if Nat.eq_dec c d then K i j - (kof h c * w) ^ 2 * M i j else 0).
    { clear c i Hc Hi d j Hd Hj Hr Hs. intros c d i j Hc Hd Hi Hj. rewrite U by nia. rewrite (linear_rows E dE _ c i HE Hc Hi). destruct (Nat.eq_dec c d) as [->|Hne].
      - rewrite (rsum_single N j _ Hj); [rewrite Nat.eqb_refl; ring|]. intros k Hk Hkj. destruct (Nat.eqb_spec (d * N + k) (d * N + j)); [lia|ring].
      - apply rsum_zero. intros k Hk. destruct (Nat.eqb_spec (c * N + k) (d * N + j)) as [Q|]; [exfalso|ring].
        apply Hne. destruct (divmod_block N c k Hk) as [<- _]. rewrite Q. apply (divmod_block N d j Hj). }
    rewrite !G by assumption. destruct (Nat.eq_dec c d) as [Q|Q]; [subst d; destruct (Nat.eq_dec c c); [|congruence]|destruct (Nat.eq_dec d c); [congruence|]].
    - unfold share. destruct (divmod_block N c i Hi) as [-> _]. destruct (divmod_block N c j Hj) as [-> _]. rewrite (HM i j Hi Hj), (HK i j Hi Hj). reflexivity.
    - ring.
  Qed.
End Linear.

Section Action.
  Variables (N : nat) (h : list nat) (Nt : nat) (M K : mat) (w : R).
  Hypothesis Ha : admissible h.
  Hypothesis HN : (2 * list_max h + 1 < Nt)%nat.
  Hypothesis He : Nat.even Nt = true.
  Hypothesis HM : symmetric_matrix N M.
  Hypothesis HK : symmetric_matrix N K.
  Let nc := length (components h).
  Let ph := sample_phase Nt.

  (** forces of the springs on component c of degree of freedom i *)
  Definition action_force (ps : list (mat * (vec -> R))) ls X c i := coefc h Nt (fun n => lsum (fun pl => law_force N (at_phase N h X (ph n)) pl i) (combine ps ls)) c.

  Lemma action_gradient fs ps ls Fl v X (Rr : vec) : laws N fs ps ls -> (forall U, phase_velocity N h U (v U)) ->
    (forall c i, (c < nc)%nat -> (i < N)%nat -> Rr (c * N + i)%nat = rsum N (fun j => (K i j - (kof h c * w) ^ 2 * M i j) * X (c * N + j)%nat) + action_force ps ls X c i - Fl (c * N + i)%nat) ->
    is_gradient (nc * N) (mean_action N h Nt M K ps Fl w v) X (fun r => share N h r * Rr r).
  Proof.
    intros HL Hv HR g y t H1 H2.
    assert (Lt : forall c i, (c < nc)%nat -> (i < N)%nat -> (c * N + i < nc * N)%nat) by (intros; nia).
    assert (Vd : forall U j tau, (j < N)%nat -> v U j tau = dseries h (dof_coefs N U j) tau).
    { intros U j tau Hj. apply (uniqueness_limite (series h (dof_coefs N U j)) tau); [apply Hv; exact Hj|apply series_dseries]. }
    assert (Sp : forall tau, derivable_pt_lim (fun s => potential_energy N K ps (at_phase N h Fl tau) (at_phase N h (g s) tau)) t
       (rsum N (fun i => (rsum N (fun j => K i j * at_phase N h X tau j) + lsum (fun pl => law_force N (at_phase N h X tau) pl i) (combine ps ls) - at_phase N h Fl tau i) * at_phase N h y tau i))).
    { intros tau. apply (gradient_potential N K fs ps ls (at_phase N h Fl tau) (at_phase N h X tau) HK HL (fun s => at_phase N h (g s) tau) (at_phase N h y tau) t).
      - intros j Hj. unfold at_phase, series. apply rsum_ext. intros c Hc. unfold dof_coefs. rewrite H1 by (apply Lt; assumption). reflexivity.
      - intros j Hj. unfold at_phase, series, dof_coefs. apply (dlim_rsum nc (fun c s => g s (c * N + j)%nat * basis h c tau) t (fun c => y (c * N + j)%nat * basis h c tau)).
        intros c Hc. apply dlim_scal_r. apply H2. apply Lt; assumption. }
    assert (Sk : forall tau, derivable_pt_lim (fun s => quadratic N M (fun j => v (g s) j tau) / 2) t
       (rsum N (fun i => rsum N (fun j => M i j * dseries h (dof_coefs N X j) tau) * dseries h (dof_coefs N y i) tau))).
    { intros tau. apply (gradient_quadratic N M (fun j => dseries h (dof_coefs N X j) tau) HM (fun s j => v (g s) j tau) (fun i => dseries h (dof_coefs N y i) tau) t).
      - intros j Hj. rewrite Vd by exact Hj. unfold dseries, dof_coefs. apply rsum_ext. intros c Hc. rewrite H1 by (apply Lt; assumption). reflexivity.
      - intros j Hj. eapply dlim_ext; [intros s; symmetry; apply Vd; exact Hj|]. unfold dseries, dof_coefs.
        apply (dlim_rsum nc (fun c s => g s (c * N + j)%nat * dbasis h c tau) t (fun c => y (c * N + j)%nat * dbasis h c tau)). intros c Hc. apply dlim_scal_r. apply H2. apply Lt; assumption. }
    set (G := fun i n => rsum N (fun j => K i j * at_phase N h X (ph n) j) + lsum (fun pl => law_force N (at_phase N h X (ph n)) pl i) (combine ps ls) - at_phase N h Fl (ph n) i).
    assert (D : derivable_pt_lim (fun s => mean_action N h Nt M K ps Fl w v (g s)) t
      (rsum Nt (fun n => rsum N (fun i => G i n * at_phase N h y (ph n) i) - w ^ 2 * rsum N (fun i => rsum N (fun j => M i j * dseries h (dof_coefs N X j) (ph n)) * dseries h (dof_coefs N y i) (ph n))) * / INR Nt)).
    { unfold mean_action. apply (dlim_scal_r (/ INR Nt) (fun s => rsum Nt (fun n => potential_energy N K ps (at_phase N h Fl (ph n)) (at_phase N h (g s) (ph n)) - w ^ 2 * quadratic N M (fun j => v (g s) j (ph n)) / 2))).
      match goal with |- derivable_pt_lim _ _ (rsum Nt ?f) => apply (dlim_rsum Nt (fun n s => potential_energy N K ps (at_phase N h Fl (ph n)) (at_phase N h (g s) (ph n)) - w ^ 2 * quadratic N M (fun j => v (g s) j (ph n)) / 2) t f) end.
      intros n Hn. apply dlim_minus; [apply Sp|]. apply dlim_ext with (fun s => w ^ 2 * (quadratic N M (fun j => v (g s) j (ph n)) / 2)); [intros; field|]. apply dlim_scal. apply Sk. }
    eapply dlim_eq; [exact D|]. clear D.
    rewrite (rsum_ext Nt _ (fun n => rsum N (fun i => G i n * series h (dof_coefs N y i) (ph n) - w ^ 2 * rsum N (fun j => M i j * (dseries h (dof_coefs N X j) (ph n) * dseries h (dof_coefs N y i) (ph n)))))).
    2: { intros n _. rewrite <- rsum_scal_l, <- rsum_minus. apply rsum_ext. intros i Hi. unfold at_phase at 1. f_equal. f_equal. rewrite <- rsum_scal_r. apply rsum_ext. intros; ring. }
    rewrite rsum_swap, <- rsum_scal_r. rewrite rsum_blocks. rewrite (rsum_swap nc N). apply rsum_ext. intros i Hi.
    rewrite rsum_minus, rsum_scal_l, rsum_swap.
    rewrite Rmult_minus_distr_r. change (rsum Nt (fun n => G i n * series h (dof_coefs N y i) (ph n)) * / INR Nt) with (rsum Nt (fun n => G i n * series h (dof_coefs N y i) (ph n)) / INR Nt).
    pose proof (mean_series h Nt HN (dof_coefs N y i) (G i)) as MS. fold ph nc in MS. rewrite MS. clear MS.
    assert (Mm : w ^ 2 * rsum N (fun j => rsum Nt (fun n => M i j * (dseries h (dof_coefs N X j) (ph n) * dseries h (dof_coefs N y i) (ph n)))) * / INR Nt =
       rsum nc (fun c => cshare h c * (rsum N (fun j => (kof h c * w) ^ 2 * M i j * X (c * N + j)%nat)) * y (c * N + i)%nat)).
    { rewrite (rsum_ext N _ (fun j => rsum nc (fun c => M i j * (cshare h c * (kof h c ^ 2 * X (c * N + j)%nat) * y (c * N + i)%nat)) * INR Nt)).
      - rewrite rsum_scal_r, rsum_swap. pose proof (INR_Nt h Nt HN) as P. rewrite (Rmult_assoc (w ^ 2)), Rmult_assoc. rewrite Rinv_r by exact P. rewrite Rmult_1_r, <- rsum_scal_l. apply rsum_ext. intros c Hc.
        rewrite <- rsum_scal_l, <- (rsum_scal_l N (cshare h c)), <- rsum_scal_r. apply rsum_ext. intros; ring.
      - intros j Hj. rewrite !rsum_scal_l. pose proof (mean_dseries h Nt Ha HN (dof_coefs N y i) (dof_coefs N X j)) as Q. fold nc ph in Q.
        unfold kof. unfold dof_coefs at 3 4 in Q. rewrite Rmult_assoc. f_equal. rewrite <- Q. pose proof (INR_Nt h Nt HN). field. assumption. }
    rewrite Mm, <- rsum_minus. apply rsum_ext. intros c Hc. rewrite (HR c i Hc Hi).
    assert (GC : coefc h Nt (G i) c = rsum N (fun j => K i j * X (c * N + j)%nat) + action_force ps ls X c i - Fl (c * N + i)%nat).
    { unfold G. transitivity (coefc h Nt (fun n => rsum N (fun j => K i j * at_phase N h X (ph n) j) + (lsum (fun pl => law_force N (at_phase N h X (ph n)) pl i) (combine ps ls) + - 1 * at_phase N h Fl (ph n) i)) c); [apply coefc_ext; intros; ring|].
      rewrite !coefc_plus, coefc_scal, (coefc_rsum h Nt N (fun j n => K i j * at_phase N h X (ph n) j)).
      assert (Z : forall (Y : vec) j, coefc h Nt (fun n => at_phase N h Y (ph n) j) c = Y (c * N + j)%nat).
      { intros Y j. unfold coefc, at_phase. apply (series_coef Nt h (dof_coefs N Y j) c); [apply Ha|lia|exact Hc]. }
      rewrite (rsum_ext N (fun j => coefc h Nt (fun n => K i j * at_phase N h X (ph n) j) c) (fun j => K i j * X (c * N + j)%nat)) by (intros; rewrite coefc_scal, Z; reflexivity).
      rewrite Z. unfold action_force. ring. }
    rewrite GC. unfold share, cshare. destruct (divmod_block N c i Hi) as [-> _].
    rewrite (rsum_ext N (fun j => (K i j - (kof h c * w) ^ 2 * M i j) * X (c * N + j)%nat) (fun j => K i j * X (c * N + j)%nat - (kof h c * w) ^ 2 * M i j * X (c * N + j)%nat)) by (intros; ring).
    rewrite rsum_minus. unfold dof_coefs. ring.
  Qed.

  Lemma laws_aft fs ps ls U : laws N fs ps ls -> exists outs, Forall2 (fun f o => nl_aft f U w h Nt = Ok o) fs outs /\
    forall c i, (c < nc)%nat -> (i < N)%nat -> lsum (fun o => fst (fst o) (c * N + i)%nat) outs = action_force ps ls U c i.
  Proof.
    intros H. induction H as [|f p l fs ps ls F H (outs & IH & E)].
    - exists []. split; [constructor|]. intros c i Hc Hi. unfold action_force, coefc, fourier_coef, lsum. cbn. rewrite (rsum_zero Nt) by (intros; ring). ring.
    - destruct F as (_ & _ & _ & A). destruct (A h Nt Ha HN He U w) as (Fv & dU & dw & EF & VF). exists ((Fv, dU, dw) :: outs). split; [constructor; assumption|].
      intros c i Hc Hi. transitivity (Fv (c * N + i)%nat + lsum (fun o => fst (fst o) (c * N + i)%nat) outs); [reflexivity|]. rewrite (E c i Hc Hi), (VF c i Hc Hi).
      unfold action_force, lsum. cbn [combine map fold_right]. rewrite coefc_plus. reflexivity.
  Qed.
End Action.

Lemma share_pos N h r : 0 < share N h r.
Proof. unfold share. destruct (nth _ _ _) as [[|k]|k]; lra. Qed.

Lemma take_below m (X : vec) j : (j < m)%nat -> take m X j = X j.
Proof. intros H. unfold take, clear_from. apply Nat.ltb_lt in H. rewrite H. reflexivity. Qed.

Lemma mean_action_take N h Nt M K ps Fl w v X Rr : (forall U, phase_velocity N h U (v U)) ->
  let n := (length (components h) * N)%nat in
  is_gradient n (mean_action N h Nt M K ps Fl w v) (take n X) Rr -> is_gradient n (mean_action N h Nt M K ps Fl w v) X Rr.
Proof. intros Hv n H g y t H1 H2. apply H; [|exact H2]. intros j Hj. rewrite (H1 j Hj). unfold take, clear_from. destruct (Nat.ltb_spec j n); [reflexivity|lia]. Qed.

Lemma hbm_gradient s h Nt ps Fl v X : admissible h -> (2 * list_max h + 1 < Nt)%nat -> Nat.even Nt = true ->
  let N := vs_N s in let n := (length (components h) * N)%nat in
  X n <> 0 -> symmetric_matrix N (vs_M s) -> symmetric_matrix N (vs_K s) -> (forall i j, (i < N)%nat -> (j < N)%nat -> vs_C s i j = 0) ->
  springs N (vs_forces s) ps -> (forall U, phase_velocity N h U (v U)) ->
  exists Rr G, hbm_res s X Fl h Nt true = Ok (Rr, Some G) /\
    is_gradient n (mean_action N h Nt (vs_M s) (vs_K s) ps Fl (X n) v) X (fun r => share N h r * Rr r).
Proof.
  intros Ha HN He N n Hw HM HK HC Hs Hv. destruct (springs_have_laws _ _ _ Hs) as (ls & HL).
  destruct (laws_aft N h Nt (X n) Ha HN He _ _ _ (take n X) HL) as (outs & HO & E).
  destruct (hbm_value s h Nt X Fl outs Ha HO) as (Em & dE & Rr & G & EE & ER & VR). exists Rr, G. split; [exact ER|].
  apply mean_action_take; [exact Hv|]. apply (action_gradient N h Nt (vs_M s) (vs_K s) (X n) Ha HN HM HK (vs_forces s) ps ls Fl v); [exact HL|exact Hv|].
  intros c i Hc Hi. etransitivity; [apply VR|]. apply (f_equal (fun x => x - Fl (c * N + i)%nat)). apply f_equal2; [|apply E; assumption].
  etransitivity; [apply (linear_rows N h (vs_M s) (vs_C s) (vs_K s) (X n) Ha Hw HC Em (Some dE) X c i EE Hc Hi)|].
  apply rsum_ext. intros j Hj. f_equal. symmetry. apply take_below. fold N. unfold n. nia.
Qed.

(** gradients are unique *)
Lemma gradient_unique n f X F G : is_gradient n f X F -> is_gradient n f X G -> forall j, (j < n)%nat -> F j = G j.
Proof.
  intros HF HG j Hj. set (g := fun (t : R) (k : nat) => if Nat.eqb k j then X k + t else X k). set (y := fun k => if Nat.eqb k j then 1 else 0).
  assert (H1 : forall k, (k < n)%nat -> g 0 k = X k) by (intros k _; unfold g; destruct (Nat.eqb k j); ring).
  assert (H2 : forall k, (k < n)%nat -> derivable_pt_lim (fun t => g t k) 0 (y k)).
  { intros k _. unfold g, y. destruct (Nat.eqb k j); [eapply dlim_eq; [apply dlim_plus; [apply dlim_const|apply dlim_id]|ring]|apply dlim_const]. }
  pose proof (uniqueness_limite _ _ _ _ (HF g y 0 H1 H2) (HG g y 0 H1 H2)) as Q.
  rewrite !(rsum_single n j _ Hj) in Q.
  - unfold y in Q. rewrite Nat.eqb_refl in Q. lra.
  - intros k Hk Hne. unfold y. destruct (Nat.eqb_spec k j); [contradiction|ring].
  - intros k Hk Hne. unfold y. destruct (Nat.eqb_spec k j); [contradiction|ring].
Qed.

Lemma static_stationary s ps Fst U : symmetric_matrix (vs_N s) (vs_K s) -> springs (vs_N s) (vs_forces s) ps ->
  exists Rr J, static_res s U Fst = Ok (Rr, J) /\ is_gradient (vs_N s) (potential_energy (vs_N s) (vs_K s) ps Fst) U Rr /\
    ((forall i, (i < vs_N s)%nat -> Rr i = 0) <-> is_gradient (vs_N s) (potential_energy (vs_N s) (vs_K s) ps Fst) U (fun _ => 0)).
Proof.
  intros HK H. destruct (static_gradient s ps Fst U HK H) as (Rr & J & E & G). exists Rr, J. split; [exact E|]. split; [exact G|]. split.
  - intros Z. eapply gradient_eq; [exact G|exact Z].
  - intros Z i Hi. apply (gradient_unique _ _ _ _ _ G Z i Hi).
Qed.

Lemma hbm_stationary s h Nt ps Fl v X : admissible h -> (2 * list_max h + 1 < Nt)%nat -> Nat.even Nt = true ->
  let N := vs_N s in let n := (length (components h) * N)%nat in let A := mean_action N h Nt (vs_M s) (vs_K s) ps Fl (X n) v in
  X n <> 0 -> symmetric_matrix N (vs_M s) -> symmetric_matrix N (vs_K s) -> (forall i j, (i < N)%nat -> (j < N)%nat -> vs_C s i j = 0) ->
  springs N (vs_forces s) ps -> (forall U, phase_velocity N h U (v U)) ->
  exists Rr G, hbm_res s X Fl h Nt true = Ok (Rr, Some G) /\ is_gradient n A X (fun r => share N h r * Rr r) /\
    ((forall r, (r < n)%nat -> Rr r = 0) <-> is_gradient n A X (fun _ => 0)).
Proof.
  intros Ha HN He N n A Hw HM HK HC Hs Hv. destruct (hbm_gradient s h Nt ps Fl v X Ha HN He Hw HM HK HC Hs Hv) as (Rr & G & E & D). exists Rr, G. split; [exact E|]. split; [exact D|]. split.
  - intros Z. eapply gradient_eq; [exact D|]. intros r Hr. cbv beta. rewrite (Z r Hr). ring.
  - intros Z r Hr. pose proof (gradient_unique _ _ _ _ _ D Z r Hr) as Q. cbv beta in Q. pose proof (share_pos N h r). apply Rmult_integral in Q. destruct Q as [Q|Q]; [|exact Q]. fold N in Q. lra.
Qed.
