(** Elastic dry friction elements (JAX): history, AFT coefficients and derivatives. *)
From Coq Require Import Reals Lra Lia Arith List Bool FunctionalExtensionality.
From Verif.Lib Require Import RSum Calc Py.
From Verif.Spec Require Import Harmonic Calculus Slider Elements.
From Verif.Model Require Import Harmonic LocalForces Aft JaxDual JaxFriction.
From Verif.Proofs Require Import HarmonicP FourierP HarmonicOpsP AftP SliderP HysteresisP JaxDualP JaxFrictionP.
Import ListNotations.
Open Scope R_scope.

(** ---- columns ---- *)
Lemma is_normal_spec p c : (0 < p)%nat -> is_normal p c = Nat.eqb c (normal_dof p c).
Proof.
  intros Hp. unfold is_normal, normal_dof. pose proof (Nat.div_mod c p ltac:(lia)) as D. rewrite (Nat.mul_comm (c / p) p).
  revert D. generalize (p * (c / p))%nat, (c mod p)%nat. intros q r D. destruct (Nat.eqb_spec r (p - 1)), (Nat.eqb_spec c (q + (p - 1))); try reflexivity; lia.
Qed.
Lemma normal_dof_div p c : (0 < p)%nat -> (normal_dof p c / p = c / p)%nat /\ (normal_dof p c mod p = p - 1)%nat.
Proof. intros Hp. unfold normal_dof. split; [rewrite Nat.div_add_l, (Nat.div_small (p - 1)) by lia; lia|]. rewrite Nat.add_comm, Nat.mod_add by lia. apply Nat.mod_small. lia. Qed.
Lemma normal_dof_idem p c : (0 < p)%nat -> normal_dof p (normal_dof p c) = normal_dof p c.
Proof. intros Hp. unfold normal_dof at 1. rewrite (proj1 (normal_dof_div p c Hp)). reflexivity. Qed.
Lemma normal_is_normal p c : (0 < p)%nat -> is_normal p (normal_dof p c) = true.
Proof. intros Hp. rewrite is_normal_spec, normal_dof_idem by exact Hp. apply Nat.eqb_refl. Qed.
Lemma normal_dof_lt p ne c : (0 < p)%nat -> (c < p * ne)%nat -> (normal_dof p c < p * ne)%nat.
Proof. intros Hp Hc. unfold normal_dof. pose proof (Nat.div_lt_upper_bound c p ne ltac:(lia) Hc). nia. Qed.

Lemma contact_max kn gap un : 0 <= kn -> Rmax (kn * (un - gap)) 0 = contact_force kn gap un.
Proof.
  intros Hk. unfold contact_force. destruct (Rlt_dec gap un).
  - apply Rmax_left. apply Rmult_le_pos; lra.
  - apply Rmax_right. assert (0 <= kn * (gap - un)) by (apply Rmult_le_pos; lra). lra.
Qed.
Lemma contact_nonneg kn gap un : 0 <= kn -> 0 <= contact_force kn gap un.
Proof. intros. rewrite <- contact_max by assumption. apply Rmax_r. Qed.

Section History.
  Variables (Nt p : nat) (P : eldry_pars).
  Hypothesis HNt : (0 < Nt)%nat.
  Hypothesis Hp : (0 < p)%nat.
  Let kt := ep_kt P. Let kn := ep_kn P. Let mu := ep_mu P. Let gap := ep_gap P.

  Variables (unl : vec -> nat -> nat -> dual) (start : vec -> nat -> dual).
  Definition edN (V : vec) (t c : nat) : dual := dmax (dscal kn (dsub (unl V t c) (dconst gap))) (dconst 0).

  Lemma ed_history_normal V k c : (k < Nt)%nat -> is_normal p c = true -> ed_history Nt p P (unl V) (start V) k c = edN V k c.
  Proof.
    intros Hk Hc. unfold ed_history.
    set (g := fun (i c : nat) (x : dual) => if is_normal p c then edN V i c else
           dmax (dmin (dadd (dscal kt (dsub (unl V i c) (unl V (prev_row Nt i) c))) x) (dscal mu (edN V i (normal_dof p c)))) (dscal (- mu) (edN V i (normal_dof p c)))).
    rewrite (two_passes Nt g HNt (ed_body Nt p P (unl V)) (fun ft => forall t c, is_normal p c = true -> ft t c = edN V t c)); [| | |exact Hk].
    - assert (E : forall x k, rowsteps Nt g x k c = edN V (k mod Nt)%nat c).
      { intros x j. destruct j; cbn [rowsteps]; unfold g at 1; rewrite Hc; [rewrite Nat.mod_0_l by lia|]; reflexivity. }
      rewrite E. f_equal. rewrite <- (Nat.mod_small k Nt Hk) at 2. replace (Nt + k)%nat with (k + 1 * Nt)%nat by lia. rewrite Nat.mod_add by lia. reflexivity.
    - intros i ft Hi HI. unfold ed_body, aset, g. split; [|split].
      + intros t c' Hc'. destruct (Nat.eqb_spec t i) as [->|]; [rewrite Hc'|]; apply HI; exact Hc'.
      + intros c'. rewrite Nat.eqb_refl. destruct (is_normal p c') eqn:E; [apply HI; exact E|]. change (normal_col p c') with (normal_dof p c'). rewrite (HI i (normal_dof p c') (normal_is_normal p c' Hp)). reflexivity.
      + intros t c' Ht. destruct (Nat.eqb_spec t i); [contradiction|reflexivity].
    - intros t c' Hc'. unfold aset, ed_normal. rewrite Hc'. destruct (Nat.eqb_spec t (Nt - 1)) as [->|]; reflexivity.
  Qed.

  Lemma ed_history_tangential V k c : (k < Nt)%nat -> is_normal p c = false ->
    ed_history Nt p P (unl V) (start V) k c
    = dsl Nt kt (fun V k => unl V k c) (fun V k => dscal mu (edN V k (normal_dof p c))) (fun V => start V c) V (Nt + k).
  Proof.
    intros Hk Hc. unfold ed_history.
    set (g := fun (i c : nat) (x : dual) => if is_normal p c then edN V i c else
           dmax (dmin (dadd (dscal kt (dsub (unl V i c) (unl V (prev_row Nt i) c))) x) (dscal mu (edN V i (normal_dof p c)))) (dscal (- mu) (edN V i (normal_dof p c)))).
    rewrite (two_passes Nt g HNt (ed_body Nt p P (unl V)) (fun ft => forall t c, is_normal p c = true -> ft t c = edN V t c)); [| | |exact Hk].
    - assert (Gd : forall i x, g i c x = dsl_step Nt kt (fun V k => unl V k c) (fun V k => dscal mu (edN V k (normal_dof p c))) V i x).
      { intros i x. unfold g, dsl_step. rewrite Hc. f_equal. apply dual_eq; cbn; intros; ring. }
      assert (E : forall j, rowsteps Nt g (aset (ed_normal p P (unl V)) (Nt - 1) (fun c => if is_normal p c then ed_normal p P (unl V) (Nt - 1)%nat c else dscal (ep_kt P) (dsub (unl V (Nt - 1)%nat c) (start V c))) (Nt - 1)%nat) j c
                = dsl Nt kt (fun V k => unl V k c) (fun V k => dscal mu (edN V k (normal_dof p c))) (fun V => start V c) V j).
      { induction j as [|j IH]; cbn [rowsteps dsl]; rewrite Gd.
        - unfold aset. rewrite Nat.eqb_refl, Hc. reflexivity.
        - f_equal. exact IH. }
      apply E.
    - intros i ft Hi HI. unfold ed_body, aset, g. split; [|split].
      + intros t c' Hc'. destruct (Nat.eqb_spec t i) as [->|]; [rewrite Hc'|]; apply HI; exact Hc'.
      + intros c'. rewrite Nat.eqb_refl. destruct (is_normal p c') eqn:E; [apply HI; exact E|]. change (normal_col p c') with (normal_dof p c'). rewrite (HI i (normal_dof p c') (normal_is_normal p c' Hp)). reflexivity.
      + intros t c' Ht. destruct (Nat.eqb_spec t i); [contradiction|reflexivity].
    - intros t c' Hc'. unfold aset, ed_normal. rewrite Hc'. destruct (Nat.eqb_spec t (Nt - 1)) as [->|]; reflexivity.
  Qed.

  Hypothesis Hkn : 0 <= kn.
  Lemma edN_value V t c : dv (edN V t c) = contact_force kn gap (dv (unl V t c)).
  Proof. unfold edN. rewrite dv_max. cbn [dv dscal dsub dconst]. apply contact_max. exact Hkn. Qed.

  Lemma mod_next k : (k < Nt)%nat -> ((Nt + k) mod Nt = k)%nat.
  Proof. intros. replace (Nt + k)%nat with (k + 1 * Nt)%nat by lia. rewrite Nat.mod_add by lia. apply Nat.mod_small. assumption. Qed.

  Lemma ed_history_value V k c : (k < Nt)%nat ->
    dv (ed_history Nt p P (unl V) (start V) k c)
    = contact_history p kt kn mu gap (fun d => repeat_samples Nt (fun t => dv (unl V t d))) (fun d => dv (start V d)) c (Nt + k).
  Proof.
    intros Hk. unfold contact_history. rewrite <- (is_normal_spec p c Hp). destruct (is_normal p c) eqn:Hc.
    - rewrite ed_history_normal by assumption. rewrite edN_value. unfold repeat_samples. rewrite mod_next by exact Hk.
      rewrite is_normal_spec in Hc by exact Hp. apply Nat.eqb_eq in Hc. rewrite <- Hc. reflexivity.
    - rewrite ed_history_tangential by assumption. rewrite (proj1 (dsl_value Nt kt HNt _ _ _ V _)). unfold sval, friction_law, uval.
      assert (EH : hval Nt (fun V k => dscal mu (edN V k (normal_dof p c))) V = (fun k => mu * contact_force kn gap (repeat_samples Nt (fun t => dv (unl V t (normal_dof p c))) k))).
      { unfold hval, repeat_samples. extensionality j. cbn [dv dscal]. rewrite edN_value. reflexivity. }
      rewrite EH. reflexivity.
  Qed.
End History.

(** the recorded second cycle is the steady state *)
Lemma contact_second_pass_steady Nt p kt kn mu gap u start d : (0 < Nt)%nat -> 0 <= kn -> 0 <= mu ->
  let law := contact_history p kt kn mu gap (fun d => repeat_samples Nt (u d)) start d in
  steady_state Nt law (fun n => law (Nt + n)%nat).
Proof.
  intros HNt Hkn Hmu. cbv zeta. unfold contact_history.
  assert (Per : forall f, periodic Nt (repeat_samples Nt f)). { intros f k. unfold repeat_samples. f_equal. replace (Nt + k)%nat with (k + 1 * Nt)%nat by lia. rewrite Nat.mod_add by lia. reflexivity. }
  destruct (Nat.eqb d (normal_dof p d)).
  - exists 1%nat. intros n k Hn Hk. f_equal. unfold repeat_samples. f_equal. rewrite (Nat.add_comm (n * Nt)), Nat.mod_add by lia. replace (Nt + k)%nat with (k + 1 * Nt)%nat by lia. rewrite Nat.mod_add by lia. reflexivity.
  - unfold friction_law. apply slider_steady; [exact HNt| | | |apply Per].
    + intros k. pose proof (Rmult_le_pos mu _ Hmu (contact_nonneg kn gap (repeat_samples Nt (u (normal_dof p d)) k) Hkn)). lra.
    + intros k. rewrite (Per (u (normal_dof p d))). reflexivity.
    + intros k. rewrite (Per (u (normal_dof p d))). reflexivity.
Qed.

(** Coulomb's law for every history *)
Lemma contact_coulomb p kt kn mu gap u start d k : (0 < p)%nat -> 0 <= kn -> 0 <= mu ->
  let f := contact_history p kt kn mu gap u start in
  0 <= f (normal_dof p d) k /\
  (u (normal_dof p d) k <= gap -> f (normal_dof p d) k = 0) /\
  (d <> normal_dof p d -> Rabs (f d k) <= mu * f (normal_dof p d) k).
Proof.
  intros Hp Hkn Hmu. cbv zeta. unfold contact_history. rewrite normal_dof_idem by exact Hp. rewrite Nat.eqb_refl. split; [|split].
  - apply contact_nonneg. exact Hkn.
  - intros H. unfold contact_force. destruct (Rlt_dec _ _); [lra|reflexivity].
  - intros Hd. destruct (Nat.eqb_spec d (normal_dof p d)); [contradiction|]. unfold friction_law.
    pose proof (slider_range kt (fun k => - (mu * contact_force kn gap (u (normal_dof p d) k))) (fun k => mu * contact_force kn gap (u (normal_dof p d) k)) (u d)) as R.
    specialize (R (fun k => ltac:(pose proof (Rmult_le_pos mu _ Hmu (contact_nonneg kn gap (u (normal_dof p d) k) Hkn)); cbv beta; lra)) (start d) k). cbv beta in R.
    apply Rabs_le. exact R.
Qed.

(** ---- AFT ---- *)
Section EldryAft.
  Variables (p ne N : nat) (Q T : mat) (P : eldry_pars) (u0 : option vec) (h : list nat) (Nt : nat).
  Hypothesis Hp : (0 < p)%nat.
  Hypothesis Hne : (0 < ne)%nat.
  Hypothesis Ha : admissible h.
  Hypothesis HN : (2 * list_max h + 1 < Nt)%nat.
  Hypothesis Hev : Nat.even Nt = true.
  Let nhc := length (components h).
  Hypothesis Htwo : (1 < nhc)%nat.
  Let kt := ep_kt P. Let kn := ep_kn P. Let mu := ep_mu P. Let gap := ep_gap P.
  Hypothesis Hkn : 0 < kn.
  Hypothesis Hmu : 0 <= mu.
  Let nnl := (p * ne)%nat.
  Let m := (nhc * nnl + 1)%nat.

  Definition edstart (V : vec) (d : nat) : R := match u0 with None => V d | Some x => x d end.
  Definition edu (V : vec) (d : nat) : nat -> R := repeat_samples Nt (fun t => lser nnl h V d (sample_phase Nt t)).
  Definition edlocF (V : vec) (d : nat) : vec :=
    coefc h Nt (fun n => contact_history p kt kn mu gap (edu V) (edstart V) d (Nt + n)).

  Lemma eldry_local : exists F : vec -> nat -> nat -> dual,
    (forall V, ed_local p P u0 h Nt (seeded nnl V) = Ok (F V)) /\
    (forall V c d, (c < nhc)%nat -> (d < nnl)%nat -> dv (F V c d) = edlocF V d c) /\
    (forall V c d, (c < nhc)%nat -> (d < nnl)%nat -> dt (F V c d) (nhc * nnl)%nat = 0) /\
    (forall X,
       (forall d t, (d < nnl)%nat -> (t < Nt)%nat -> d = normal_dof p d -> edu X d t <> gap) ->
       (forall d j, (d < nnl)%nat -> (j < 2 * Nt)%nat -> d <> normal_dof p d ->
          let fn := fun k => contact_force kn gap (edu X (normal_dof p d) k) in
          Rabs (friction_trial kt mu fn (edu X d) (edstart X d) j) <> mu * fn j) ->
       forall c d, (c < nhc)%nat -> (d < nnl)%nat -> dgrad m (fun V => F V c d) X).
  Proof.
    assert (Hnnl : (0 < nnl)%nat) by (unfold nnl; nia).
    destruct (seeded_samples nnl h Nt Ha HN Hev Hnnl) as (unl & E & S). fold nhc in S.
    set (start := fun (V : vec) (d : nat) => match u0 with None => seeded nnl V O d | Some x => dconst (x d) end).
    destruct (gfc_dual_grad h Nt Ha HN m (fun V => ed_history Nt p P (unl V) (start V))) as (F & EF & VF & GF). fold nhc in VF, GF.
    assert (HNt : (0 < Nt)%nat) by lia.
    assert (Nlt : forall d, (d < nnl)%nat -> (normal_dof p d < nnl)%nat) by (intros d Hd; apply normal_dof_lt; assumption).
    assert (Sv : forall V, (fun d => dv (start V d)) = edstart V) by (intros V; extensionality d; unfold start, edstart; destruct u0; reflexivity).
    assert (Uv : forall V d, (d < nnl)%nat -> repeat_samples Nt (fun t => dv (unl V t d)) = edu V d).
    { intros V d Hd. unfold edu, repeat_samples. extensionality k. apply (S (k mod Nt)%nat d); [apply Nat.mod_upper_bound; lia|exact Hd]. }
    assert (Val : forall V k d, (k < Nt)%nat -> (d < nnl)%nat -> dv (ed_history Nt p P (unl V) (start V) k d) = contact_history p kt kn mu gap (edu V) (edstart V) d (Nt + k)).
    { intros V k d Hk Hd. rewrite (ed_history_value Nt p P HNt Hp unl start) by (try exact Hk; fold kn; lra). rewrite Sv. fold kt kn mu gap. unfold contact_history. rewrite (Uv V d Hd), (Uv V _ (Nlt d Hd)). reflexivity. }
    exists F. split; [|split; [|split]].
    - intros V. unfold ed_local. rewrite E. cbn [bind]. exact (EF V).
    - intros V c d Hc Hd. rewrite (proj1 (VF V c d Hc)). unfold edlocF. apply coefc_ext. intros k Hk. apply Val; assumption.
    - intros V c d Hc Hd. rewrite (proj2 (VF V c d Hc)). rewrite (coefc_ext h Nt _ (fun _ => 0 * 0)); [rewrite coefc_scal; ring|].
      intros k Hk. rewrite Rmult_0_l.
      assert (NT : forall t c', (t < Nt)%nat -> (c' < nnl)%nat -> dt (edN P unl V t c') (nhc * nnl)%nat = 0).
      { intros t c' Ht Hc'. pose proof (proj2 (proj2 (proj2 (S t c' Ht Hc'))) V) as Z. unfold edN, dmax. destruct (Rltb _ _); [cbn; rewrite Z; ring|]. destruct (Rltb _ _); [reflexivity|]. cbn. rewrite Z. field. }
      destruct (is_normal p d) eqn:Hd'.
      + rewrite (ed_history_normal Nt p P HNt Hp unl start) by assumption. apply NT; assumption.
      + rewrite (ed_history_tangential Nt p P HNt Hp unl start) by assumption. apply dsl_no_tangent; [exact HNt| | |].
        * intros t Ht. apply (S t d Ht Hd).
        * intros t Ht. cbn. rewrite NT by (try exact Ht; apply Nlt; exact Hd). ring.
        * unfold start. destruct u0; [reflexivity|]. cbn. destruct (Nat.eqb_spec (nhc * nnl) d); [nia|reflexivity].
    - intros X HX1 HX2 c d Hc Hd. apply GF; [exact Hc|]. intros k Hk.
      assert (GN : forall t c', (t < Nt)%nat -> (c' < nnl)%nat -> c' = normal_dof p c' -> dlocal m (fun V => edN P unl V t c') /\ dgrad m (fun V => edN P unl V t c') X).
      { intros t c' Ht Hc' Ec. destruct (S t c' Ht Hc') as (Vt & L & G & _). assert (L' : dlocal m (fun V => unl V t c')) by (apply (dlocal_more (nhc * nnl)); [unfold m; lia|exact L]).
        assert (L1 : dlocal m (fun V => dscal kn (dsub (unl V t c') (dconst gap)))) by (intros A B EAB; cbn; rewrite (L' A B EAB); reflexivity).
        split.
        - intros A B EAB. unfold edN. rewrite !dv_max. cbn. rewrite (L' A B EAB). reflexivity.
        - unfold edN. apply (dgrad_max m X (fun V => dscal (ep_kn P) (dsub (unl V t c') (dconst (ep_gap P)))) (fun _ => dconst 0)); [exact L1|intros A B _; reflexivity| |apply dgrad_const|].
          + apply (dgrad_scal m X (ep_kn P) (fun V => dsub (unl V t c') (dconst (ep_gap P)))). apply (dgrad_sub m X (fun V => unl V t c') (fun _ => dconst (ep_gap P))); [apply G|apply dgrad_const].
          + cbn. rewrite Vt. specialize (HX1 c' t Hc' Ht Ec). unfold edu, repeat_samples in HX1. rewrite Nat.mod_small in HX1 by exact Ht. intros Z. apply HX1. fold kn gap in Z. apply Rmult_integral in Z. destruct Z; lra. }
      destruct (is_normal p d) eqn:Hd'.
      + assert (EH : (fun V => ed_history Nt p P (unl V) (start V) k d) = (fun V => edN P unl V k d)) by (extensionality V; apply (ed_history_normal Nt p P HNt Hp unl start); assumption).
        rewrite EH. apply GN; try assumption. rewrite is_normal_spec in Hd' by exact Hp. apply Nat.eqb_eq in Hd'. exact Hd'.
      + assert (EH : (fun V => ed_history Nt p P (unl V) (start V) k d) = (fun V => dsl Nt kt (fun V k => unl V k d) (fun V k => dscal mu (edN P unl V k (normal_dof p d))) (fun V => start V d) V (Nt + k))) by (extensionality V; apply (ed_history_tangential Nt p P HNt Hp unl start); assumption).
        rewrite EH.
        assert (Hd'' : d <> normal_dof p d) by (rewrite is_normal_spec in Hd' by exact Hp; apply Nat.eqb_neq in Hd'; exact Hd').
        assert (HV : forall V t, dv (dscal mu (edN P unl V t (normal_dof p d))) = mu * contact_force kn gap (dv (unl V t (normal_dof p d)))).
        { intros V t. cbn [dscal dv]. f_equal. apply (edN_value P unl); fold kn; lra. }
        assert (Pos : forall x, 0 <= mu * contact_force kn gap x) by (intros x; apply Rmult_le_pos; [exact Hmu|apply contact_nonneg; lra]).
        apply (dsl_grad Nt m kt HNt (fun V k => unl V k d) (fun V k => dscal mu (edN P unl V k (normal_dof p d))) (fun V => start V d)) with (K := (2 * Nt)%nat); [intros; rewrite HV; apply Pos| | | | | |lia].
        * intros t Ht. destruct (S t d Ht Hd) as (_ & L & G & _). split; [apply (dlocal_more (nhc * nnl)); [unfold m; lia|exact L]|apply G].
        * intros t Ht. destruct (GN t (normal_dof p d) Ht (Nlt d Hd) ltac:(symmetry; apply normal_dof_idem; exact Hp)) as [L G]. split.
          -- intros A B EAB. cbn [dv dscal]. rewrite (L A B EAB). reflexivity.
          -- apply (dgrad_scal m X mu (fun V => edN P unl V t (normal_dof p d))). exact G.
        * intros A B EAB. unfold start. destruct u0; [reflexivity|]. cbn. apply EAB. unfold m. nia.
        * unfold start. destruct u0 as [x|]; [apply (dgrad_const m X (x d))|]. apply (dgrad_seed m X d). unfold m. nia.
        * intros j Hj. specialize (HX2 d j Hd Hj Hd''). cbv zeta in HX2. unfold strial, uval.
          assert (EV : hval Nt (fun V k => dscal mu (edN P unl V k (normal_dof p d))) X = (fun k => mu * contact_force kn gap (edu X (normal_dof p d) k))).
          { rewrite <- (Uv X _ (Nlt d Hd)). unfold hval, repeat_samples. extensionality i. apply HV. }
          rewrite EV, (Uv X d Hd). replace (dv (start X d)) with (edstart X d) by (rewrite <- Sv; reflexivity).
          change (slider_trial kt (fun k => - (mu * contact_force kn gap (edu X (normal_dof p d) k))) (fun k => mu * contact_force kn gap (edu X (normal_dof p d) k)) (edu X d) (edstart X d) j)
            with (friction_trial kt mu (fun k => contact_force kn gap (edu X (normal_dof p d) k)) (edu X d) (edstart X d) j).
          split; intros Z; apply HX2; rewrite Z; [|rewrite Rabs_Ropp]; apply Rabs_right; apply Rle_ge; apply Pos.
  Qed.

  Lemma eldry_aft_exact :
    exists (F : vec -> R -> vec) (dU : vec -> R -> mat) (dw : vec -> R -> vec),
      (forall U w, eldry_aft p ne N Q T P u0 U w h Nt = Ok (F U w, dU U w, dw U w)) /\
      (forall U w c i, (c < nhc)%nat -> (i < N)%nat ->
         let u := fun d => repeat_samples Nt (fun n => local_motion N Q h U d (sample_phase Nt n)) in
         let start := match u0 with None => fun d => rsum N (fun j => Q d j * U j) | Some x => x end in
         F U w (c * N + i)%nat = rsum (p * ne) (fun d => T i d *
           fourier_coef Nt (fun n => contact_history p kt kn mu gap u start d (Nt + n)) (nth c (components h) (Cos O)))) /\
      (forall U w r, (r < nhc * N)%nat -> dw U w r = 0) /\
      (forall U w,
         let u := fun d => repeat_samples Nt (fun n => local_motion N Q h U d (sample_phase Nt n)) in
         let start := match u0 with None => fun d => rsum N (fun j => Q d j * U j) | Some x => x end in
         (forall d t, (d < p * ne)%nat -> (t < Nt)%nat -> d = normal_dof p d -> u d t <> gap) ->
         (forall d j, (d < p * ne)%nat -> (j < 2 * Nt)%nat -> d <> normal_dof p d ->
            let fn := fun k => contact_force kn gap (u (normal_dof p d) k) in
            Rabs (friction_trial kt mu fn (u d) (start d) j) <> mu * fn j) ->
         is_joint_jacobian (nhc * N) (nhc * N) F U w (dU U w) (dw U w)).
  Proof.
    assert (Hnnl : (0 < nnl)%nat) by (unfold nnl; nia).
    assert (Nlt : forall d, (d < nnl)%nat -> (normal_dof p d < nnl)%nat) by (intros d Hd; apply normal_dof_lt; assumption).
    destruct eldry_local as (F & EF & VF & DF & GF).
    assert (CH : forall u u' s s' d, (forall k, u d k = u' d k) -> (forall k, u (normal_dof p d) k = u' (normal_dof p d) k) -> s d = s' d ->
                 (fun n => contact_history p kt kn mu gap u s d (Nt + n)) = (fun n => contact_history p kt kn mu gap u' s' d (Nt + n))).
    { intros u u' s s' d E1 E2 E3. assert (F1 : u d = u' d) by (extensionality k; apply E1). assert (F2 : u (normal_dof p d) = u' (normal_dof p d)) by (extensionality k; apply E2).
      unfold contact_history. rewrite F1, F2, E3. reflexivity. }
    assert (UE : forall V W d, (d < nnl)%nat -> (forall j, (j < nhc * nnl)%nat -> V j = W j) -> forall k, edu V d k = edu W d k).
    { intros V W d Hd E k. unfold edu, repeat_samples, lser. apply (series_ext h). intros c' Hc'. apply E. fold nhc in Hc'. nia. }
    assert (Fext : forall V W d c, (c < nhc)%nat -> (d < nnl)%nat -> (forall j, (j < nhc * nnl)%nat -> V j = W j) -> edlocF V d c = edlocF W d c).
    { intros V W d c Hc Hd E. unfold edlocF. f_equal. apply CH; [apply UE; assumption|apply UE; [apply Nlt; exact Hd|exact E]|]. unfold edstart. destruct u0; [reflexivity|]. apply E. nia. }
    destruct (jax_aft_exact N nnl Q T h Ha Hnnl Htwo (ed_local p P u0 h Nt) F EF edlocF VF Fext DF) as (FF & dU & dw & A & B & C & D). exists FF, dU, dw.
    assert (EM : forall U d, (d < nnl)%nat -> edu (loc N nnl Q h U) d = repeat_samples Nt (fun n => local_motion N Q h U d (sample_phase Nt n))).
    { intros U d Hd. unfold edu. f_equal. extensionality n. apply lser_loc. exact Hd. }
    assert (EL : forall U d, (d < nnl)%nat -> edstart (loc N nnl Q h U) d = (match u0 with None => fun d => rsum N (fun j => Q d j * U j) | Some x => x end) d).
    { intros U d Hd. unfold edstart. destruct u0; [reflexivity|]. pose proof (loc_Unl N nnl Q h U O d ltac:(unfold nhc in Htwo; lia) Hd) as E. rewrite Nat.mul_0_l, Nat.add_0_l in E. rewrite E. unfold aft_Unl. apply rsum_ext. intros j Hj. f_equal. }
    split; [exact A|]. split; [|split; [exact C|]].
    - intros U w c i Hc Hi u start. rewrite B by assumption. apply rsum_ext. intros d Hd. fold nnl in Hd. f_equal. unfold edlocF, coefc. f_equal. apply CH; [rewrite EM by exact Hd; reflexivity|rewrite EM by (apply Nlt; exact Hd); reflexivity|apply EL; exact Hd].
    - intros U w u start H1 H2. apply D. intros c d Hc Hd.
      assert (JU : forall d, (d < nnl)%nat -> edu (join nnl h (loc N nnl Q h U) w) d = u d).
      { intros d' Hd'. unfold u. rewrite <- EM by exact Hd'. extensionality k. apply UE; [exact Hd'|]. intros j Hj. unfold join. fold nhc. destruct (Nat.ltb_spec j (nhc * nnl)); [reflexivity|lia]. }
      assert (JS : forall d, (d < nnl)%nat -> edstart (join nnl h (loc N nnl Q h U) w) d = start d).
      { intros d' Hd'. unfold start. rewrite <- EL by exact Hd'. unfold edstart. destruct u0; [reflexivity|]. unfold join. fold nhc. destruct (Nat.ltb_spec d' (nhc * nnl)); [reflexivity|nia]. }
      apply GF; try assumption.
      + intros d' t Hd' Ht Hn. rewrite JU by exact Hd'. apply H1; assumption.
      + intros d' j Hd' Hj Hn fn. unfold fn. rewrite (JU d' Hd'), (JU _ (Nlt d' Hd')), (JS d' Hd'). apply (H2 d' j); assumption.
  Qed.
End EldryAft.
