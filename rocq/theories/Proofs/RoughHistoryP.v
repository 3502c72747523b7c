(** Force histories of the rough contact element in the alternating frequency time method. *)
From Coq Require Import Reals Lra Lia Arith List Bool FunctionalExtensionality.
From Verif.Lib Require Import RSum Calc Py.
From Verif.Spec Require Import Calculus Slider Rough RoughCalls.
From Verif.Model Require Import Harmonic Aft JaxDual JaxFloat RoughContact.
From Verif.Proofs Require Import JaxDualP JaxFloatP RoughNormalP RoughStaticP RoughCallsP SliderP.
Import ListNotations.
Open Scope R_scope.

(** ---- one instant ---- *)
Section Cycle.
  Variable s : solid.
  Hypothesis Hs : physical s.
  Let m := mat_of s.
  Let Hm := mat_good s Hs.
  Let HE := effective_pos s Hs.
  Let yl := yield_limit s.

  Lemma limit_pos : 0 < yl. Proof. unfold yl, yield_limit. pose proof (yield_pos s Hs). lra. Qed.
  Lemma radius_param : 0 < s_R s. Proof. pose proof Hs as (_ & _ & H & _). exact H. Qed.

  Lemma peak_force g peak : 0 <= g ->
    asperity_force s (0 - g) 0 peak = if Rlt_dec peak yl then solid_hertz s peak else if Rlt_dec yl peak then plastic_law s peak else 0.
  Proof.
    intros Hg. pose proof limit_pos as Hy. unfold asperity_force. fold yl. destruct (Rlt_dec (Rmax (0 - g) peak) yl) as [A|A].
    - pose proof (Rmax_r (0 - g) peak). destruct (Rlt_dec peak yl); [reflexivity|lra].
    - assert (Hp : yl <= peak) by (destruct (Rlt_le_dec peak yl); [exfalso; apply A; apply Rmax_lub_lt; lra|assumption]). destruct (Rlt_dec peak yl); [lra|].
      rewrite Rmax_right by lra. destruct (Rlt_dec yl peak); [reflexivity|]. destruct (Rlt_dec 0 (Rmin (0 - g) 0)) as [Z|]; [pose proof (Rmin_r (0 - g) 0); lra|reflexivity].
  Qed.

  Lemma hertz_radius d x : 0 < d -> unloading_radius (effective_modulus s) (s_R s) d (solid_hertz s d) x = if Rlt_dec 0 x then sqrt (s_R s * x) else 0.
  Proof.
    intros Hd. pose proof radius_param as HR. pose proof (hertz_pos _ _ d HE HR Hd) as HH. fold (solid_hertz s d) in HH.
    assert (A : permanent (effective_modulus s) (s_R s) d (solid_hertz s d) = 0) by (unfold permanent; fold (solid_hertz s d); field; lra).
    unfold unloading_radius, flattened. rewrite A, !Rminus_0_r. destruct (Rlt_dec 0 x); [|reflexivity]. f_equal.
    unfold solid_hertz, hertz. destruct (Rlt_dec 0 d); [|contradiction]. set (E := effective_modulus s) in *.
    replace ((4 / 3 * E * sqrt (s_R s) * (d * sqrt d) / (4 / 3 * E)) ^ 2) with ((sqrt (s_R s)) ^ 2 * (d ^ 2 * sqrt d ^ 2)) by (field; lra).
    rewrite !pow2_sqrt by lra. field. lra.
  Qed.

  Lemma cycle_value un deltam Fm x peak g : 0 <= g -> fv un x -> fv deltam peak -> fv Fm (asperity_force s (0 - g) 0 peak) -> x <= peak ->
    fv (n_fn (normal_un m un deltam Fm)) (cycle_force s peak x) /\ fv (n_a (normal_un m un deltam Fm)) (cycle_radius s peak x).
  Proof.
    intros Hg Hu Hd HF Hx. rewrite peak_force in HF by exact Hg. pose proof radius_param as HR. destruct (mat_spec s Hs) as (mR & _ & mE & _). fold m in mR, mE. unfold cycle_force, cycle_radius. fold yl.
    destruct (Rlt_dec peak yl) as [Hp|Hp].
    - destruct (Rle_lt_dec peak 0) as [Hn|Hpos].
      + unfold solid_hertz. rewrite hertz_open by lra. destruct (Rlt_dec 0 x); [lra|]. apply (unloading_never m un deltam Fm x peak); assumption.
      + pose proof (hertz_pos _ _ peak HE HR Hpos) as HH. fold (solid_hertz s peak) in HH.
        destruct (un_pieces m Hm un deltam Fm x peak _ Hu Hd HF Hpos HH) as (_ & _ & A). pose proof (unloading_force m Hm un deltam Fm x peak _ Hu Hd HF Hpos HH) as B.
        rewrite (flattened_eq s Hs) in A by assumption. rewrite mE, mR in A, B. split.
        * eapply fv_eq; [exact B|]. unfold solid_hertz. rewrite <- mR, <- mE. apply (unloading_hertz m Hm). exact Hpos.
        * rewrite <- (hertz_radius peak) by exact Hpos. exact A.
    - destruct (Rlt_dec yl peak) as [Hy|Hy].
      + pose proof limit_pos. assert (Hpos : 0 < peak) by lra. pose proof (plastic_pos s Hs peak Hpos) as HH.
        destruct (un_pieces m Hm un deltam Fm x peak _ Hu Hd HF Hpos HH) as (_ & _ & A). pose proof (unloading_force m Hm un deltam Fm x peak _ Hu Hd HF Hpos HH) as B.
        rewrite (flattened_eq s Hs) in A by assumption. rewrite mE, mR in A, B. split; [exact B|exact A].
      + pose proof limit_pos. apply (unloading_unloaded m Hm un deltam Fm x peak 0); try assumption; try reflexivity. lra.
  Qed.

  Lemma cycle_nonneg peak x : 0 <= cycle_force s peak x.
  Proof.
    pose proof radius_param as HR. unfold cycle_force. fold yl. destruct (Rlt_dec peak yl); [apply hertz_nonneg; assumption|]. destruct (Rlt_dec yl peak); [|lra].
    pose proof limit_pos. destruct (mat_spec s Hs) as (mR & _ & mE & _). fold m in mR, mE. unfold solid_unloading. rewrite <- mR, <- mE. apply (unloading_nonneg m Hm); [lra|]. apply plastic_pos; [exact Hs|lra].
  Qed.
  Lemma cycle_radius_pos peak x : 0 <= cycle_radius s peak x /\ (0 < cycle_force s peak x -> 0 < cycle_radius s peak x).
  Proof.
    pose proof radius_param as HR. unfold cycle_force, cycle_radius. fold yl. destruct (Rlt_dec peak yl).
    - destruct (Rlt_dec 0 x); [split; [apply sqrt_pos|intros _; apply sqrt_lt_R0; apply Rmult_lt_0_compat; assumption]|]. split; [lra|]. intros Z. unfold solid_hertz in Z. rewrite hertz_open in Z by lra. lra.
    - destruct (Rlt_dec yl peak); [|lra]. pose proof limit_pos. assert (Hpos : 0 < peak) by lra. pose proof (plastic_pos s Hs peak Hpos) as HH.
      assert (Fl : 0 < flattened (effective_modulus s) (s_R s) peak (plastic_law s peak)) by (rewrite <- (flattened_eq s Hs) by assumption; apply flat_radius_pos; assumption).
      unfold solid_unloading, unloading, unloading_radius. cbv zeta. destruct (Rlt_dec _ x).
      + split; [apply sqrt_pos|]. intros _. apply sqrt_lt_R0. apply Rmult_lt_0_compat; [exact Fl|lra].
      + split; [lra|]. intros Z. lra.
  Qed.
End Cycle.

(** ---- the loop ---- *)
Section Loop.
  Variables (body : nat -> loop_state -> loop_state) (s0 : loop_state) (Nt : nat).
  Hypothesis HNt : (0 < Nt)%nat.
  Hypothesis Hwrite : forall i st t, t <> i -> lp_f (body i st) t = lp_f st t.

  Fixpoint lsteps (k : nat) : loop_state := match k with O => s0 | S j => body (j mod Nt) (lsteps j) end.

  Lemma pass_steps n : forall m, (m <= Nt)%nat -> fold_left (fun st i => body i st) (seq 0 m) (lsteps (n * Nt)) = lsteps (n * Nt + m).
  Proof.
    induction m as [|m IH]; intros Hm; [rewrite Nat.add_0_r; reflexivity|]. rewrite seq_S, fold_left_app, IH by lia. cbn [fold_left Nat.add].
    replace (n * Nt + S m)%nat with (S (n * Nt + m)) by lia. cbn [lsteps]. f_equal. rewrite Nat.add_comm, Nat.mod_add by lia. rewrite Nat.mod_small by lia. reflexivity.
  Qed.
  Lemma passes_steps n : fold_left (fun st _ => fori_loop 0 Nt body st) (seq 0 n) s0 = lsteps (n * Nt).
  Proof.
    induction n as [|n IH]; [reflexivity|]. rewrite seq_S, fold_left_app, IH. cbn [fold_left]. unfold fori_loop. rewrite Nat.sub_0_r, pass_steps by lia. f_equal. lia.
  Qed.
  Lemma last_written n : forall m t, (t < m)%nat -> (m <= Nt)%nat -> lp_f (lsteps (n * Nt + m)) t = lp_f (body t (lsteps (n * Nt + t))) t.
  Proof.
    induction m as [|m IH]; intros t Ht Hm; [lia|]. replace (n * Nt + S m)%nat with (S (n * Nt + m)) by lia. cbn [lsteps].
    rewrite Nat.add_comm with (n := (n * Nt)%nat) (m := m), Nat.mod_add, Nat.mod_small by lia. rewrite (Nat.add_comm m).
    destruct (Nat.eq_dec t m) as [->|Hne]; [reflexivity|]. rewrite Hwrite by exact Hne. apply IH; lia.
  Qed.
  Lemma last_pass n t : (t < Nt)%nat -> lp_f (fold_left (fun st _ => fori_loop 0 Nt body st) (seq 0 (S n)) s0) t = lp_f (body t (lsteps (n * Nt + t))) t.
  Proof. intros Ht. rewrite passes_steps. replace (S n * Nt)%nat with (n * Nt + Nt)%nat by lia. apply last_written; lia. Qed.
End Loop.

Section History.
  Variables (s : solid) (r : rough) (mu : R) (Nt : nat) (unlt : nat -> nat -> dual) (start : nat -> R).
  Hypothesis Hs : physical s.
  Hypothesis Hmat : r_mat r = mat_of s.
  Hypothesis Hgap : forall i, (i < r_n r)%nat -> 0 <= r_meso r + r_gaps r i.
  Hypothesis Hmu : 0 <= mu.
  Hypothesis Hmodel : model_ok (r_model r).
  Hypothesis HNt : (0 < Nt)%nat.
  Let g := fun i => r_meso r + r_gaps r i.
  Let u := fun d t => dv (unlt t d).
  Let um := vmax Nt (u 2%nat).
  Let peak := fun i => um - g i.
  Let x := fun i t => u 2%nat t - g i.
  Let fun1 := fun t d => fdual_of (unlt t d).
  Let body := loop_body r mu (loop_max r Nt unlt) (loop_Fm r Nt unlt) fun1.
  Let st k := lsteps body (loop_start r start) Nt k.
  Let fric := fun i d => cycle_friction s mu (peak i) (repeat_samples Nt (x i)) (repeat_samples Nt (u d)) (start d).

  Lemma peak_value i : fv (loop_max r Nt unlt i) (peak i).
  Proof. eapply fv_eq; [apply fv_sub; [apply fv_sub; [reflexivity|apply fv_const]|apply fv_const]|]. unfold peak, um, u, g. ring. Qed.
  Lemma Fm_value i : (i < r_n r)%nat -> fv (loop_Fm r Nt unlt i) (asperity_force s (0 - g i) 0 (peak i)).
  Proof.
    intros Hi. unfold loop_Fm. rewrite Hmat. apply (general_value s Hs).
    - apply peak_value.
    - eapply fv_eq; [apply fv_const|]. unfold g. ring.
    - apply fv_const.
    - apply (mem_ok_start s). apply Hgap. exact Hi.
  Qed.
  Lemma below_peak i t : (t < Nt)%nat -> x i t <= peak i.
  Proof. intros Ht. destruct (vmax_spec Nt (u 2%nat) HNt) as [A _]. specialize (A t Ht). unfold x, peak, um. lra. Qed.

  Lemma instant t i : (t < Nt)%nat -> (i < r_n r)%nat ->
    let nr := normal_un (r_mat r) (loop_un r fun1 t i) (loop_max r Nt unlt i) (loop_Fm r Nt unlt i) in
    fv (n_fn nr) (cycle_force s (peak i) (x i t)) /\ fv (n_a nr) (cycle_radius s (peak i) (x i t)).
  Proof.
    intros Ht Hi. cbv zeta. rewrite Hmat. apply (cycle_value s Hs _ _ _ _ _ (g i)).
    - apply Hgap. exact Hi.
    - eapply fv_eq; [apply fv_sub; [apply fv_sub; [reflexivity|apply fv_const]|apply fv_const]|]. unfold x, u, g. cbn. ring.
    - apply peak_value.
    - apply Fm_value. exact Hi.
    - apply below_peak. exact Ht.
  Qed.

  Definition prev_position (d k : nat) : R := match k with O => start d | S j => repeat_samples Nt (u d) j end.
  Definition prev_friction (i d k : nat) : R := match k with O => 0 | S j => fric i d j end.

  Definition loop_ok (k : nat) (st : loop_state) : Prop :=
    (forall d, fv (lp_u0 st d) (prev_position d k)) /\
    match r_model r with
    | TAN => forall i d, (i < r_n r)%nat -> fv (lp_fxy st i O d) (prev_friction i d k)
    | MIF n => (forall i j d, (i < r_n r)%nat -> (j < n)%nat -> finite (lp_fxy st i j d)) /\ (forall i j, (i < r_n r)%nat -> (j < n)%nat -> finite (lp_radii st i j))
    end.

  Lemma start_ok : loop_ok 0 (loop_start r start).
  Proof.
    split; [intros d; apply fv_const|]. destruct (r_model r) eqn:Em; [intros i d _; apply fv_const|]. split; [intros; exists 0; apply fv_const|]. intros i j _ _. cbn [loop_start lp_radii]. rewrite Em. eexists. apply fv_const.
  Qed.

  (** the friction forces of step k *)
  Definition row_ok (k t : nat) (row : nat -> fdual) : Prop :=
    let fn := fun i => cycle_force s (peak i) (x i t) in
    fv (row 2%nat) (rsum (r_n r) (fun i => r_weights r i * fn i)) /\
    forall d, (d < 2)%nat -> exists f, fv (row d) f /\
      (r_model r = TAN -> f = rsum (r_n r) (fun i => r_weights r i * fric i d k)) /\
      ((forall i, (i < r_n r)%nat -> 0 <= r_weights r i) -> Rabs f <= mu * rsum (r_n r) (fun i => r_weights r i * fn i)).

  Lemma friction_step i d k : fric i d k = clamp (- (mu * cycle_force s (peak i) (x i (k mod Nt)))) (mu * cycle_force s (peak i) (x i (k mod Nt)))
      (prev_friction i d k + 8 * mindlin_modulus s * cycle_radius s (peak i) (x i (k mod Nt)) * (u d (k mod Nt) - prev_position d k)).
  Proof.
    unfold fric, cycle_friction. destruct k as [|j]; cbn [mindlin prev_friction prev_position].
    - rewrite Rplus_0_l. reflexivity.
    - reflexivity.
  Qed.

  Lemma body_ok k st0 : loop_ok k st0 -> let t := (k mod Nt)%nat in loop_ok (S k) (body t st0) /\ row_ok k t (lp_f (body t st0) t).
  Proof.
    intros [Hu0 Hf]. cbv zeta. assert (Ht : (k mod Nt < Nt)%nat) by (apply Nat.mod_upper_bound; lia). set (t := (k mod Nt)%nat) in *.
    assert (Gm : m_Gstar (r_mat r) = mindlin_modulus s) by (rewrite Hmat; apply (mat_spec s Hs)).
    assert (In : forall i, (i < r_n r)%nat -> let nr := normal_un (r_mat r) (loop_un r fun1 t i) (loop_max r Nt unlt i) (loop_Fm r Nt unlt i) in
      fv (n_fn nr) (cycle_force s (peak i) (x i t)) /\ fv (n_a nr) (cycle_radius s (peak i) (x i t))) by (intros i Hi; apply instant; assumption). cbv zeta in In.
    assert (Hn : forall i, 0 <= cycle_force s (peak i) (x i t)) by (intros i; apply cycle_nonneg; exact Hs).
    assert (U0 : forall st', lp_u0 (body t st') = fun1 t) by (intros st'; unfold body, loop_body; destruct (tangential_part _ _ _ _ _ _ _ _) as [[? ?] ?]; reflexivity).
    assert (P : forall d, fv (lp_u0 (body t st0) d) (prev_position d (S k))) by (intros d; rewrite U0; reflexivity).
    assert (Nf : fv (lp_f (body t st0) t 2%nat) (rsum (r_n r) (fun i => r_weights r i * cycle_force s (peak i) (x i t)))).
    { unfold body, loop_body. destruct (tangential_part _ _ _ _ _ _ _ _) as [[? ?] ?]. cbn [lp_f]. rewrite Nat.eqb_refl. cbn [Nat.ltb Nat.leb]. apply fv_sum. intros i Hi. apply fv_scal. apply (In i Hi). }
    unfold loop_ok, row_ok. destruct (r_model r) as [|n] eqn:Em.
    - assert (Ft : forall i d, (i < r_n r)%nat -> fv (lp_fxy (body t st0) i O d) (fric i d k)).
      { intros i d Hi. unfold body, loop_body, tangential_part. rewrite Em. cbn [lp_fxy]. rewrite friction_step. fold t. rewrite <- Gm.
        apply tangential_value; [reflexivity|apply Hu0|apply Hf; exact Hi|apply (In i Hi)|apply (In i Hi)|apply Rmult_le_pos; [exact Hmu|apply Hn]]. }
      split; [split; [exact P|intros i d Hi; apply Ft; exact Hi]|]. split; [exact Nf|]. intros d Hd. exists (rsum (r_n r) (fun i => r_weights r i * fric i d k)). split; [|split].
      + assert (Ef : lp_f (body t st0) t d = fsum (r_n r) (fun i => fscal (r_weights r i) (lp_fxy (body t st0) i O d))).
        { unfold body, loop_body, tangential_part. rewrite Em. cbn [lp_f lp_fxy]. rewrite Nat.eqb_refl, (proj2 (Nat.ltb_lt d 2)) by exact Hd. reflexivity. }
        rewrite Ef. apply fv_sum. intros i Hi. apply fv_scal. apply Ft. exact Hi.
      + intros _. reflexivity.
      + intros Hw. apply weighted_abs; [exact Hw|]. intros i Hi. rewrite friction_step. fold t. apply Rabs_le. apply clamp_range. pose proof (Rmult_le_pos mu _ Hmu (Hn i)). lra.
    - destruct Hf as [Hf1 Hf2].
      assert (Tr : forall i d, (i < r_n r)%nat -> (forall j, (j < n)%nat -> finite (lp_fxy (body t st0) i j d)) /\
        exists f, fv (mif_force n (quad_radii n) (weight_radii n) (n_a (normal_un (r_mat r) (loop_un r fun1 t i) (loop_max r Nt unlt i) (loop_Fm r Nt unlt i))) (fun j => lp_fxy (body t st0) i j d)) f /\ Rabs f <= mu * cycle_force s (peak i) (x i t)).
      { intros i d Hi. destruct (In i Hi) as [A B]. destruct (cycle_radius_pos s Hs (peak i) (x i t)) as [_ D].
        assert (T : forall j, (j < n)%nat -> exists v, fv (lp_fxy (body t st0) i j d) v /\ Rabs v <= mu * pressure (cycle_force s (peak i) (x i t)) (cycle_radius s (peak i) (x i t)) (quad_radii n j)).
        { intros j Hj. unfold body, loop_body, tangential_part. rewrite Em. cbn [lp_fxy].
          eapply traction_value; [exact Hmodel|reflexivity|apply Hu0|exact A|exact B|apply Hn|exact D|exact Hmu| |].
          - intros j' Hj'. apply Hf1; assumption.
          - intros j' Hj'. apply Hf2; assumption. }
        split; [intros j Hj; destruct (T j Hj) as (v & Hv & _); exists v; exact Hv|].
        assert (Ch : forall l, (l <= n)%nat -> exists v, forall j, (j < l)%nat -> fv (lp_fxy (body t st0) i j d) (v j) /\ Rabs (v j) <= mu * pressure (cycle_force s (peak i) (x i t)) (cycle_radius s (peak i) (x i t)) (quad_radii n j)).
        { induction l as [|l IH]; intros Hl; [exists (fun _ => 0); intros; lia|]. destruct (IH ltac:(lia)) as [v Hv]. destruct (T l ltac:(lia)) as [v' Hv']. exists (fun j => if Nat.eqb j l then v' else v j). intros j Hj.
          destruct (Nat.eqb_spec j l) as [->|]; [exact Hv'|apply Hv; lia]. }
        destruct (Ch n (le_n _)) as [v Hv]. eapply mif_force_value; [exact B| |apply Hn|exact D|exact Hmu|]; intros j Hj; apply (Hv j Hj). }
      split; [split; [exact P|split]|].
      + intros i j d Hi Hj. apply (Tr i d Hi). exact Hj.
      + intros i j Hi Hj. unfold body, loop_body, tangential_part. rewrite Em. cbn [lp_radii]. apply finite_scal. eexists. apply (In i Hi).
      + split; [exact Nf|]. intros d Hd.
        assert (Ch : forall l, (l <= r_n r)%nat -> exists v, forall i, (i < l)%nat -> fv (mif_force n (quad_radii n) (weight_radii n) (n_a (normal_un (r_mat r) (loop_un r fun1 t i) (loop_max r Nt unlt i) (loop_Fm r Nt unlt i))) (fun j => lp_fxy (body t st0) i j d)) (v i) /\ Rabs (v i) <= mu * cycle_force s (peak i) (x i t)).
        { induction l as [|l IH]; intros Hl; [exists (fun _ => 0); intros; lia|]. destruct (IH ltac:(lia)) as [v Hv]. destruct (Tr l d ltac:(lia)) as [_ [v' Hv']]. exists (fun j => if Nat.eqb j l then v' else v j). intros j Hj.
          destruct (Nat.eqb_spec j l) as [->|]; [exact Hv'|apply Hv; lia]. }
        destruct (Ch (r_n r) (le_n _)) as [v Hv]. exists (rsum (r_n r) (fun i => r_weights r i * v i)). split; [|split].
        * assert (Ef : lp_f (body t st0) t d = fsum (r_n r) (fun i => fscal (r_weights r i) (mif_force n (quad_radii n) (weight_radii n) (n_a (normal_un (r_mat r) (loop_un r fun1 t i) (loop_max r Nt unlt i) (loop_Fm r Nt unlt i))) (fun j => lp_fxy (body t st0) i j d)))).
          { unfold body, loop_body, tangential_part. rewrite Em. cbn [lp_f lp_fxy]. rewrite Nat.eqb_refl, (proj2 (Nat.ltb_lt d 2)) by exact Hd. reflexivity. }
          rewrite Ef. apply fv_sum. intros i Hi. apply fv_scal. apply (Hv i Hi).
        * discriminate.
        * intros Hw. apply weighted_abs; [exact Hw|]. intros i Hi. apply (Hv i Hi).
  Qed.

  Lemma steps_ok k : loop_ok k (st k).
  Proof. induction k as [|k IH]; [apply start_ok|]. unfold st. cbn [lsteps]. apply (body_ok k). exact IH. Qed.

  Lemma history_value n t : (t < Nt)%nat -> row_ok (n * Nt + t) t (rough_history r mu Nt unlt start (S n) t).
  Proof.
    intros Ht. unfold rough_history. fold fun1. fold body.
    assert (W : forall i st t, t <> i -> lp_f (body i st) t = lp_f st t).
    { intros i st' t' Hne. unfold body, loop_body. destruct (tangential_part _ _ _ _ _ _ _ _) as [[? ?] ?]. cbn [lp_f]. apply functional_extensionality. intros d. rewrite (proj2 (Nat.eqb_neq t' i)) by exact Hne. reflexivity. }
    rewrite (last_pass body (loop_start r start) Nt HNt W n t Ht).
    assert (Em : ((n * Nt + t) mod Nt = t)%nat) by (rewrite Nat.add_comm, Nat.mod_add by lia; apply Nat.mod_small; exact Ht).
    pose proof (body_ok (n * Nt + t) (st (n * Nt + t)) (steps_ok _)) as [_ H]. cbv zeta in H. rewrite Em in H. exact H.
  Qed.
End History.
