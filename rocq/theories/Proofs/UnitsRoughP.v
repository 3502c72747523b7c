(** The rough contact element in other units. *)
From Coq Require Import Reals List Arith Bool Lra Lia.
From Verif.Lib Require Import RSum Py.
From Verif.Spec Require Import Units.
From Verif.Model Require Import Harmonic LocalForces Aft JaxDual JaxFloat RoughContact.
From Verif.Proofs Require Import UnitsFloatP.
Import ListNotations.
Open Scope R_scope.

Lemma power32 x : 0 < x -> Rpower x (3/2) = x * sqrt x.
Proof.
  intros H. replace (3/2) with (1 + / 2) by field. rewrite Rpower_plus, Rpower_1, Rpower_sqrt by exact H. reflexivity.
Qed.

Lemma power_1 p : Rpower 1 p = 1.
Proof. unfold Rpower. rewrite ln_1, Rmult_0_r. apply exp_0. Qed.

Section Rough.
  Variables (u : units) (tau : vec).
  Hypothesis Hu : positive_units u.
  Let L := u_length u.
  Let F := u_force u.
  Let HL : 0 < L. Proof. exact (proj1 Hu). Qed.
  Let HF : 0 < F. Proof. exact (proj1 (proj2 Hu)). Qed.
  Notation sc := (fsc tau).

  Definition normal_sc (x y : normal_result) : Prop :=
    sc F (n_fn x) (n_fn y) /\ sc L (n_a x) (n_a y) /\ sc L (n_deltabar x) (n_deltabar y) /\ sc L (n_Rebar x) (n_Rebar y).

  Let stressE : u_stress u = F / L ^ 2. Proof. reflexivity. Qed.
  Let stressP : 0 < u_stress u. Proof. rewrite stressE. apply Rdiv_lt_0_compat; [exact HF|apply pow_lt, HL]. Qed.
  Let sqL : sqrt L * sqrt L = L. Proof. apply sqrt_sqrt. lra. Qed.
  Let sqLP : 0 < sqrt L. Proof. apply sqrt_lt_R0, HL. Qed.

  Lemma pos_sc x y : sc L x y -> sc L (fwhere (fle (fconst 0) x) x (fconst 0)) (fwhere (fle (fconst 0) y) y (fconst 0)).
  Proof. intros H. apply where_sc; [|exact H|apply zero_sc]. apply (le_sc tau L); [exact HL|apply zero_sc|exact H]. Qed.

  (** the elastic force coefficient times a length to the power 3/2 *)
  Lemma force_coef (k E Re : R) : k * (2 * (u_stress u * E)) * sqrt (2 * (L * Re)) / 3 = u_stress u * sqrt L * (k * (2 * E) * sqrt (2 * Re) / 3).
  Proof. replace (2 * (L * Re)) with (L * (2 * Re)) by ring. rewrite sqrt_mult_alt by lra. field. Qed.
  Lemma force_unit : u_stress u * sqrt L * Rpower L (3/2) = F.
  Proof. rewrite power32 by exact HL. rewrite stressE. replace (F / L ^ 2 * sqrt L * (L * sqrt L)) with (F / L ^ 2 * L * (sqrt L * sqrt L)) by ring. rewrite sqL. field. lra. Qed.

  Lemma el_sc m x y : sc L x y -> normal_sc (normal_el m x) (normal_el (material_units u m) y).
  Proof.
    intros H. unfold normal_el, normal_sc, material_units. cbn [n_fn n_a n_deltabar n_Rebar m_Re m_Estar]. fold L.
    pose proof (pos_sc x y H) as P. pose proof (divc_sc tau 1 L L 2 2 _ _ P ltac:(lra) ltac:(ring) ltac:(field)) as P2.
    split; [|split; [|split; [apply zero_sc|apply const_sc; reflexivity]]].
    - apply (scal_sc tau (u_stress u * sqrt L) (Rpower L (3/2))); [apply (pow_sc tau L); [exact P2|exact HL|reflexivity]|apply force_coef|symmetry; apply force_unit].
    - apply where_sc; [apply (lt_sc tau L); [exact HL|apply zero_sc|exact H]| |apply zero_sc].
      apply (sqrt_sc tau (L * L)); [|apply Rmult_lt_0_compat; exact HL|symmetry; apply sqrt_square; lra].
      apply (scal_sc tau L L); [exact P2|ring|reflexivity].
  Qed.

  Lemma ratio_same a b : (u_stress u * a) / (u_stress u * b) = a / b.
  Proof. unfold Rdiv. rewrite Rinv_mult. replace (u_stress u * a * (/ u_stress u * / b)) with (u_stress u * / u_stress u * (a * / b)) by ring. rewrite Rinv_r by lra. ring. Qed.
  Lemma divL a b : (L * a) / (L * b) = a / b.
  Proof. unfold Rdiv. rewrite Rinv_mult. replace (L * a * (/ L * / b)) with (L * / L * (a * / b)) by ring. rewrite Rinv_r by lra. ring. Qed.

  Lemma upsilon_sc m x y : sc L x y -> sc 1 (upsilon m x) (upsilon (material_units u m) y).
  Proof.
    intros H. unfold upsilon, material_units. cbn [m_Etan m_Emod m_Sys m_dy m_Re]. rewrite !ratio_same. fold L. destruct (Rltb (m_Etan m / m_Emod m) float_eps); [apply zero_sc|].
    apply (divc_sc tau 1 1); [|lra|ring|field]. apply (scal_sc tau 1 1); [|ring|ring]. apply cpow_sc. apply sub_sc; [apply const_sc; ring|].
    apply (divc_sc tau L L); [|lra|ring|field; lra]. apply (divc_sc tau 1 L); [|lra|ring|field]. apply sub_sc; [exact H|apply const_sc; reflexivity].
  Qed.

  Lemma plastic_radius_sc m x y : sc L x y -> sc L (plastic_radius m x) (plastic_radius (material_units u m) y).
  Proof.
    intros H. unfold plastic_radius. pose proof (pos_sc x y H) as P. pose proof (divc_sc tau 1 L L 2 2 _ _ P ltac:(lra) ltac:(ring) ltac:(field)) as P2.
    unfold material_units at 1 2 3 4 5 6 7 8 9 10. cbn [m_Re m_poisson m_Estar m_Sys m_dy]. fold L. cbv zeta.
    assert (A : sc L (fsqrt (fscal (2 * m_Re m) (fdivc (fwhere (fle (fconst 0) x) x (fconst 0)) 2))) (fsqrt (fscal (2 * (L * m_Re m)) (fdivc (fwhere (fle (fconst 0) y) y (fconst 0)) 2)))).
    { apply (sqrt_sc tau (L * L)); [|apply Rmult_lt_0_compat; exact HL|symmetry; apply sqrt_square; lra]. apply (scal_sc tau L L); [exact P2|ring|reflexivity]. }
    apply add_sc; [exact A|]. apply (mul_sc tau L 1); [|apply exp_sc, upsilon_sc, P|ring]. apply sub_sc; [|exact A].
    assert (X : sc 1 (fdivc (fwhere (fle (fconst 0) x) x (fconst 0)) (m_dy m)) (fdivc (fwhere (fle (fconst 0) y) y (fconst 0)) (L * m_dy m))).
    { apply (divc_sc tau L L); [exact P|lra|reflexivity|field; lra]. }
    apply (scal_sc tau L 1).
    - apply (sqrt_sc tau 1); [|lra|symmetry; apply sqrt_1]. apply (mul_sc tau 1 1); [exact X| |ring].
      replace (23 * (u_stress u * m_Sys m) / (2 * (u_stress u * m_Estar m))) with (23 * m_Sys m / (2 * m_Estar m)).
      2:{ replace (23 * (u_stress u * m_Sys m)) with (u_stress u * (23 * m_Sys m)) by ring. replace (2 * (u_stress u * m_Estar m)) with (u_stress u * (2 * m_Estar m)) by ring. symmetry. apply ratio_same. }
      apply (pow_sc tau 1); [|lra|symmetry; apply power_1]. apply (divc_sc tau 1 1); [exact X|lra|ring|field].
    - replace (PI * hard_C (m_poisson m) * (u_stress u * m_Sys m)) with (u_stress u * (PI * hard_C (m_poisson m) * m_Sys m)) by ring.
      replace (2 * 2 * (u_stress u * m_Estar m)) with (u_stress u * (2 * 2 * m_Estar m)) by ring. rewrite ratio_same. ring.
    - ring.
  Qed.

  Lemma pl_sc m x y : sc L x y -> normal_sc (normal_pl m x) (normal_pl (material_units u m) y).
  Proof.
    intros H. unfold normal_pl, normal_sc. cbv zeta. cbn [n_fn n_a n_deltabar n_Rebar].
    pose proof (pos_sc x y H) as P. pose proof (plastic_radius_sc m x y H) as A.
    split; [|split; [exact A|split; [apply zero_sc|apply const_sc; reflexivity]]].
    revert A. generalize (plastic_radius m x) as a. generalize (plastic_radius (material_units u m) y) as b. intros b a A.
    unfold material_units. cbn [m_Re m_poisson m_Estar m_Sys m_dy m_Emod m_Etan]. fold L.
    set (px := fwhere (fle (fconst 0) x) x (fconst 0)) in *. set (py := fwhere (fle (fconst 0) y) y (fconst 0)) in *.
    assert (X : sc 1 (fdivc px (m_dy m)) (fdivc py (L * m_dy m))) by (apply (divc_sc tau L L); [exact P|lra|reflexivity|field; lra]).
    assert (XP : forall p, sc 1 (fpow (fdivc px (m_dy m)) p) (fpow (fdivc py (L * m_dy m)) p)) by (intros p; apply (pow_sc tau 1); [exact X|lra|symmetry; apply power_1]).
    match goal with |- sc _ (fadd (fscal ?c ?g) (fscal _ (fsub ?e _))) (fadd (fscal ?c' ?g') (fscal _ (fsub ?e' _))) =>
      assert (FP : sc F (fscal c g) (fscal c' g')); [|assert (FE : sc F e e'); [|set (fp := fscal c g) in *; set (fp' := fscal c' g') in *; set (fe := e) in *; set (fe' := e') in *]] end.
    - apply (scal_sc tau F 1); [| |ring].
      + assert (HS : sc 1 (fsub (fconst (284/100)) (fscal (92/100) (fsub (fconst 1) (fcos (fdivc (fscal PI a) (2 * m_Re m))))))
                         (fsub (fconst (284/100)) (fscal (92/100) (fsub (fconst 1) (fcos (fdivc (fscal PI b) (2 * (L * m_Re m)))))))).
        { apply sub_sc; [apply const_sc; ring|]. apply (scal_sc tau 1 1); [|ring|ring]. apply sub_sc; [apply const_sc; ring|]. apply cos_sc.
          apply (divc_sc tau L L); [|lra|ring|field; lra]. apply (scal_sc tau 1 L); [exact A|ring|ring]. }
        apply add_sc.
        * apply (mul_sc tau 1 1); [|apply XP|ring]. apply exp_sc. apply (scal_sc tau 1 1); [apply XP|ring|ring].
        * apply (mul_sc tau 1 1); [|exact X|ring]. apply (mul_sc tau 1 1); [| |ring].
          -- apply (divc_sc tau 1 1); [|lra|ring|field]. apply (scal_sc tau 1 1); [exact HS|ring|ring].
          -- apply sub_sc; [apply const_sc; ring|]. apply exp_sc. apply (scal_sc tau 1 1); [apply XP|ring|ring].
      + replace (2 * (L * m_Re m) / (2 * (u_stress u * m_Estar m))) with (L / u_stress u * (2 * m_Re m / (2 * m_Estar m))) by (unfold Rdiv; rewrite !Rinv_mult; ring).
        assert (FE : F = L ^ 2 * u_stress u) by (rewrite stressE; field; lra). rewrite FE. generalize (2 * m_Re m / (2 * m_Estar m)) as q. intros q. field. lra.
    - apply (scal_sc tau (u_stress u * sqrt L) (Rpower L (3/2))); [|apply force_coef|symmetry; apply force_unit].
      apply (pow_sc tau L); [|exact HL|reflexivity]. apply (divc_sc tau 1 L); [exact H|lra|ring|field].
    - apply add_sc; [exact FP|]. apply (scal_sc tau 1 F); [apply sub_sc; assumption| |ring].
      replace (- (33/10) * (u_stress u * m_Etan m)) with (u_stress u * (- (33/10) * m_Etan m)) by ring. rewrite ratio_same. ring.
  Qed.

  Lemma coef43 E Re : 4/3 * (u_stress u * E) * sqrt (L * Re) = u_stress u * sqrt L * (4/3 * E * sqrt Re).
  Proof. rewrite sqrt_mult_alt by lra. ring. Qed.

  Lemma un_sc m x y d d' f f' : sc L x y -> sc L d d' -> sc F f f' -> normal_sc (normal_un m x d f) (normal_un (material_units u m) y d' f').
  Proof.
    intros H Hd Hf. unfold normal_un, normal_sc, material_units. cbn [m_Re m_Estar]. cbv zeta. cbn [n_fn n_a n_deltabar n_Rebar]. fold L.
    set (bar := fmul d _). set (bar' := fmul d' _).
    assert (B : sc L bar bar').
    { apply (mul_sc tau L 1); [exact Hd| |ring]. apply sub_sc; [apply const_sc; ring|]. apply (div_sc tau F F); [exact Hf| |lra|field; lra].
      apply (scal_sc tau (u_stress u * sqrt L) (Rpower L (3/2))); [|apply coef43|symmetry; apply force_unit]. apply (pow_sc tau L); [exact Hd|exact HL|reflexivity]. }
    clearbody bar bar'. pose proof (sub_sc tau L _ _ _ _ H B) as HB. pose proof (sub_sc tau L _ _ _ _ Hd B) as DB. pose proof (pos_sc _ _ HB) as P. pose proof (pos_sc _ _ DB) as PD.
    set (pu := fwhere (fle (fconst 0) (fsub x bar)) _ _) in *. set (pu' := fwhere (fle (fconst 0) (fsub y bar')) _ _) in *.
    set (pd := fwhere (fle (fconst 0) (fsub d bar)) _ _) in *. set (pd' := fwhere (fle (fconst 0) (fsub d' bar')) _ _) in *. clearbody pu pu' pd pd'.
    assert (RB : sc L (fdiv (fipow f 2) (fscal ((4/3 * m_Estar m) ^ 2) (fipow pd 3))) (fdiv (fipow f' 2) (fscal ((4/3 * (u_stress u * m_Estar m)) ^ 2) (fipow pd' 3)))).
    { apply (div_sc tau (F ^ 2) (u_stress u ^ 2 * L ^ 3)).
      - apply (ipow_sc tau F); [exact Hf|reflexivity].
      - apply (scal_sc tau (u_stress u ^ 2) (L ^ 3)); [apply (ipow_sc tau L); [exact PD|reflexivity]|ring|reflexivity].
      - apply Rgt_not_eq, Rmult_lt_0_compat; apply pow_lt; lra.
      - rewrite stressE. field. lra. }
    set (rb := fdiv (fipow f 2) _) in *. set (rb' := fdiv (fipow f' 2) _) in *. clearbody rb rb'.
    assert (PB : flt (fconst 0) pu' = flt (fconst 0) pu) by (apply (lt_sc tau L); [exact HL|apply zero_sc|exact P]).
    split; [|split; [|split; [exact B|exact RB]]]; (apply where_sc; [exact PB| |apply zero_sc]).
    - apply (mul_sc tau (u_stress u * sqrt L) (Rpower L (3/2))); [| |symmetry; apply force_unit].
      + apply (scal_sc tau (u_stress u) (sqrt L)); [apply (sqrt_sc tau L); [exact RB|exact HL|reflexivity]|ring|reflexivity].
      + apply (pow_sc tau L); [exact P|exact HL|reflexivity].
    - apply (sqrt_sc tau (L * L)); [|apply Rmult_lt_0_compat; exact HL|symmetry; apply sqrt_square; lra]. apply (mul_sc tau L L); [exact RB|exact P|reflexivity].
  Qed.

  Lemma normal_where_sc b b' x x' y y' : b' = b -> normal_sc x x' -> normal_sc y y' -> normal_sc (normal_where b x y) (normal_where b' x' y').
  Proof. intros -> (A & B & C & D) (A' & B' & C' & D'). repeat split; cbn [normal_where n_fn n_a n_deltabar n_Rebar]; destruct b; apply A || apply B || apply C || apply D || apply A' || apply B' || apply C' || apply D'. Qed.

  Lemma general_sc m x y d d' f f' : sc L x y -> sc L d d' -> sc F f f' -> normal_sc (normal_general m x d f) (normal_general (material_units u m) y d' f').
  Proof.
    intros H Hd Hf. unfold normal_general. cbv zeta.
    assert (T : sc L (fconst (19/10 * m_dy m)) (fconst (19/10 * m_dy (material_units u m)))) by (apply const_sc; cbn [m_dy material_units]; fold L; ring).
    apply normal_where_sc; [|apply pl_sc, H|apply normal_where_sc; [|apply el_sc, H|apply un_sc; assumption]].
    - f_equal; apply (lt_sc tau L); assumption.
    - f_equal; apply (lt_sc tau L); assumption.
  Qed.

  Lemma tangential_sc m mu x x' x0 x0' f0 f0' fn fn' a a' : sc L x x' -> sc L x0 x0' -> sc F f0 f0' -> sc F fn fn' -> sc L a a' ->
    sc F (tangential m mu x x0 f0 fn a) (tangential (material_units u m) mu x' x0' f0' fn' a').
  Proof.
    intros Hx Hx0 Hf0 Hfn Ha. unfold tangential, material_units. cbn [m_Gstar]. cbv zeta.
    assert (S : sc F (fscal mu fn) (fscal mu fn')) by (apply (scal_sc tau 1 F); [exact Hfn|ring|ring]).
    apply max_sc; [exact HF| |apply (scal_sc tau 1 F); [exact S|ring|ring]]. apply min_sc; [exact HF| |exact S]. apply add_sc; [|exact Hf0].
    apply (mul_sc tau (u_stress u * L) L); [| |rewrite stressE; field; lra].
    - apply (scal_sc tau (u_stress u) L); [exact Ha|ring|reflexivity].
    - apply sub_sc; assumption.
  Qed.

  Definition part_sc (x y : (nat -> fdual) * tractions * (nat -> nat -> fdual)) : Prop :=
    (forall d, sc F (fst (fst x) d) (fst (fst y) d)) /\ (forall i j d, sc F (snd (fst x) i j d) (snd (fst y) i j d)) /\ forall i j, sc L (snd x i j) (snd y i j).
  Lemma tangential_part_sc r mu x x' x0 x0' f0 f0' rd rd' fn fn' a a' : r_model r = TAN -> (forall d, sc L (x d) (x' d)) -> (forall d, sc L (x0 d) (x0' d)) ->
    (forall i j d, sc F (f0 i j d) (f0' i j d)) -> (forall i j, sc L (rd i j) (rd' i j)) -> (forall i, sc F (fn i) (fn' i)) -> (forall i, sc L (a i) (a' i)) ->
    part_sc (tangential_part r mu x x0 f0 rd fn a) (tangential_part (rough_units u r) mu x' x0' f0' rd' fn' a').
  Proof.
    intros HT Hx Hx0 Hf0 Hrd Hfn Ha. unfold tangential_part, rough_units. cbn [r_model r_n r_weights r_mat]. rewrite HT. split; [|split; [|exact Hrd]]; cbn [fst snd].
    - intros d. apply sum_sc. intros i. apply (scal_sc tau 1 F); [apply tangential_sc; auto|ring|ring].
    - intros i j d. apply tangential_sc; auto.
  Qed.

  Definition static_sc (x y : static_result) : Prop :=
    (forall d, sc F (st_f x d) (st_f y d)) /\ (forall i, sc F (st_Fm x i) (st_Fm y i)) /\ (forall i j d, sc F (st_fxy x i j d) (st_fxy y i j d)) /\ (forall i j, sc L (st_radii x i j) (st_radii y i j)).
  Lemma static_force_sc r s x y : r_model r = TAN -> (forall d, sc L (x d) (y d)) ->
    static_sc (static_force r s x) (static_force (rough_units u r) (rough_state_units u s) y).
  Proof.
    intros HT H. unfold static_force. cbv zeta.
    assert (N : forall i, normal_sc (normal_general (r_mat r) (fsub (fsub (x 2%nat) (fconst (r_meso r))) (fconst (r_gaps r i))) (fconst (rs_unmax s - r_meso r - r_gaps r i)) (fstored (rs_Fm s i)))
      (normal_general (material_units u (r_mat r)) (fsub (fsub (y 2%nat) (fconst (L * r_meso r))) (fconst (L * r_gaps r i))) (fconst (L * rs_unmax s - L * r_meso r - L * r_gaps r i)) (fstored (option_map (Rmult F) (rs_Fm s i))))).
    { intros i. apply general_sc; [|apply const_sc; ring|apply stored_sc]. apply sub_sc; [apply sub_sc; [apply H|apply const_sc; reflexivity]|apply const_sc; reflexivity]. }
    match goal with |- static_sc (let (_, _) := ?t in _) (let (_, _) := ?t' in _) => assert (P : part_sc t t') end.
    { apply tangential_part_sc; [exact HT|exact H|intros d; apply const_sc; reflexivity|intros; apply stored_sc|intros; apply stored_sc|intros i; exact (proj1 (N i))|intros i; exact (proj1 (proj2 (N i)))]. }
    match goal with |- static_sc (let (_, _) := ?t in _) (let (_, _) := ?t' in _) => destruct t as [[fx fc] rd], t' as [[fx' fc'] rd'] end.
    destruct P as (P1 & P2 & P3). cbn [fst snd] in *.
    split; [|split; [|split; [exact P2|exact P3]]]; cbn [st_f st_Fm].
    - intros d. destruct (Nat.ltb d 2); [apply P1|]. apply sum_sc. intros i. cbn [r_weights rough_units]. apply (scal_sc tau 1 F); [apply (proj1 (N i))|ring|ring].
    - intros i. apply max_sc; [exact HF|apply (proj1 (N i))|apply stored_sc].
  Qed.

  (** ** a period; only three columns are read *)
  Definition loop_sc (x y : loop_state) : Prop :=
    (forall t d, (d < 3)%nat -> sc F (lp_f x t d) (lp_f y t d)) /\ (forall d, (d < 3)%nat -> sc L (lp_u0 x d) (lp_u0 y d)) /\ (forall i j d, (d < 3)%nat -> sc F (lp_fxy x i j d) (lp_fxy y i j d)) /\
    (forall i j, sc L (lp_radii x i j) (lp_radii y i j)).
  Lemma body_sc r mu dm dm' Fm Fm' ut ut' ind s s' : r_model r = TAN -> (forall i, sc L (dm i) (dm' i)) -> (forall i, sc F (Fm i) (Fm' i)) -> (forall t d, (d < 3)%nat -> sc L (ut t d) (ut' t d)) ->
    loop_sc s s' -> loop_sc (loop_body r mu dm Fm ut ind s) (loop_body (rough_units u r) mu dm' Fm' ut' ind s').
  Proof.
    intros HT Hd HFm Hu' (S1 & S2 & S3 & S4). unfold loop_body. cbv zeta.
    assert (N : forall i, normal_sc (normal_un (r_mat r) (loop_un r ut ind i) (dm i) (Fm i)) (normal_un (r_mat (rough_units u r)) (loop_un (rough_units u r) ut' ind i) (dm' i) (Fm' i))).
    { intros i. cbn [r_mat rough_units]. apply un_sc; [|apply Hd|apply HFm]. unfold loop_un. cbn [r_meso r_gaps rough_units]. fold L.
      apply sub_sc; [apply sub_sc; [apply Hu'; lia|apply const_sc; reflexivity]|apply const_sc; reflexivity]. }
    unfold tangential_part. cbn [r_model r_n r_weights r_mat rough_units]. rewrite HT.
    assert (P : forall i d, (d < 3)%nat -> sc F (tangential (r_mat r) mu (ut ind d) (lp_u0 s d) (lp_fxy s i O d) (n_fn (normal_un (r_mat r) (loop_un r ut ind i) (dm i) (Fm i))) (n_a (normal_un (r_mat r) (loop_un r ut ind i) (dm i) (Fm i))))
      (tangential (material_units u (r_mat r)) mu (ut' ind d) (lp_u0 s' d) (lp_fxy s' i O d) (n_fn (normal_un (r_mat (rough_units u r)) (loop_un (rough_units u r) ut' ind i) (dm' i) (Fm' i)))
        (n_a (normal_un (r_mat (rough_units u r)) (loop_un (rough_units u r) ut' ind i) (dm' i) (Fm' i))))).
    { intros i d Hdd. apply tangential_sc; [apply Hu', Hdd|apply S2, Hdd|apply S3, Hdd|exact (proj1 (N i))|exact (proj1 (proj2 (N i)))]. }
    split; [|split; [intros d Hdd; apply Hu', Hdd|split; [|exact S4]]].
    - intros t d Hdd. cbn [lp_f]. destruct (Nat.eqb t ind); [|apply S1, Hdd]. destruct (Nat.ltb d 2).
      + apply sum_sc. intros i. apply (scal_sc tau 1 F); [apply P, Hdd|ring|ring].
      + apply sum_sc. intros i. apply (scal_sc tau 1 F); [apply (proj1 (N i))|ring|ring].
    - intros i j d Hdd. cbn [lp_fxy]. apply P, Hdd.
  Qed.

  Lemma fori_sc r mu dm dm' Fm Fm' ut ut' : r_model r = TAN -> (forall i, sc L (dm i) (dm' i)) -> (forall i, sc F (Fm i) (Fm' i)) -> (forall t d, (d < 3)%nat -> sc L (ut t d) (ut' t d)) ->
    forall a b s s', loop_sc s s' -> loop_sc (fori_loop a b (loop_body r mu dm Fm ut) s) (fori_loop a b (loop_body (rough_units u r) mu dm' Fm' ut') s').
  Proof.
    intros HT Hd HFm Hu' a b. unfold fori_loop. generalize (seq a (b - a)) as l. induction l as [|i l IH]; intros s s' H; cbn [fold_left]; [exact H|]. apply IH, body_sc; assumption.
  Qed.

  Lemma history_sc r mu Nt ut ut' start start' rep : r_model r = TAN -> (forall t d, (d < 3)%nat -> dsc tau L (ut t d) (ut' t d)) -> (forall d, start' d = L * start d) ->
    forall t d, (d < 3)%nat -> sc F (rough_history r mu Nt ut start rep t d) (rough_history (rough_units u r) mu Nt ut' start' rep t d).
  Proof.
    intros HT Hu' Hs. unfold rough_history. cbv zeta.
    assert (DM : forall i, sc L (loop_max r Nt ut i) (loop_max (rough_units u r) Nt ut' i)).
    { intros i. unfold loop_max. cbn [r_meso r_gaps rough_units]. fold L. apply sub_sc; [apply sub_sc; [|apply const_sc; reflexivity]|apply const_sc; reflexivity]. apply maximum_sc; [exact HL|]. intros t. apply Hu'. lia. }
    assert (FM : forall i, sc F (loop_Fm r Nt ut i) (loop_Fm (rough_units u r) Nt ut' i)).
    { intros i. unfold loop_Fm. apply general_sc; [apply DM| |apply zero_sc]. unfold start_deltam. cbn [r_meso r_gaps rough_units]. fold L. apply const_sc. ring. }
    assert (S : loop_sc (loop_start r start) (loop_start (rough_units u r) start')).
    { unfold loop_start. split; [|split; [|split]]; cbn [lp_f lp_u0 lp_fxy lp_radii].
      - intros t d _. apply zero_sc.
      - intros d _. apply const_sc. apply Hs.
      - intros i j d _. apply zero_sc.
      - intros i j. cbn [r_model rough_units]. rewrite HT. apply zero_sc. }
    assert (G : forall l s s', loop_sc s s' ->
      loop_sc (fold_left (fun s (_ : nat) => fori_loop 0 Nt (loop_body r mu (loop_max r Nt ut) (loop_Fm r Nt ut) (fun t d => fdual_of (ut t d))) s) l s)
              (fold_left (fun s (_ : nat) => fori_loop 0 Nt (loop_body (rough_units u r) mu (loop_max (rough_units u r) Nt ut') (loop_Fm (rough_units u r) Nt ut') (fun t d => fdual_of (ut' t d))) s) l s')).
    { induction l as [|i l IH]; intros s s' H; cbn [fold_left]; [exact H|]. apply IH, fori_sc; [exact HT|exact DM|exact FM|intros t d Hdd; apply of_sc, Hu', Hdd|exact H]. }
    intros t d Hdd. exact (proj1 (G _ _ _ S) t d Hdd).
  Qed.
End Rough.
