(** Normal force of one asperity. *)
From Coq Require Import Reals Lra Lia Arith List Bool FunctionalExtensionality.
From Verif.Lib Require Import RSum Calc Py.
From Verif.Spec Require Import Calculus Slider Rough.
From Verif.Model Require Import JaxDual JaxFloat RoughContact.
From Verif.Proofs Require Import JaxDualP JaxFloatP.
Import ListNotations.
Open Scope R_scope.

(** the parameters used below are positive *)
Record good_material (m : material) : Prop := {
  gm_Re : 0 < m_Re m; gm_E : 0 < m_Estar m; gm_dy : 0 < m_dy m; gm_Sys : 0 < m_Sys m; gm_Emod : 0 < m_Emod m;
  gm_Etan : 0 <= m_Etan m < m_Emod m; gm_G : 0 < m_Gstar m }.

Lemma hard_C_pos nu : 0 < hard_C nu.
Proof. unfold hard_C. pose proof (exp_pos (736/1000 * nu)). lra. Qed.

(** the model's material of a solid *)
Definition mat_of (s : solid) : material := new_material (s_E s) (s_nu s) (s_R s) (s_Et s) (s_Sy s).

Lemma hard_C_spec s : hard_C (s_nu s) = hardness_ratio s.
Proof. reflexivity. Qed.
Lemma effective_pos s : physical s -> 0 < effective_modulus s.
Proof. intros (HE & Hnu & HR & HEt & HS). unfold effective_modulus. assert (0 < 1 - s_nu s ^ 2) by nra. apply Rdiv_lt_0_compat; lra. Qed.
Lemma mindlin_modulus_pos s : physical s -> 0 < mindlin_modulus s.
Proof. intros (HE & Hnu & HR & HEt & HS). unfold mindlin_modulus. apply Rdiv_lt_0_compat; [exact HE|]. apply Rmult_lt_0_compat; lra. Qed.
Lemma yield_pos s : physical s -> 0 < yield_interference s.
Proof.
  intros H. pose proof (effective_pos s H) as HEs. destruct H as (HE & Hnu & HR & HEt & HS). pose proof PI_RGT_0 as HPI. pose proof (hard_C_pos (s_nu s)) as HC. rewrite hard_C_spec in HC.
  unfold yield_interference. apply Rmult_lt_0_compat; [lra|]. apply pow_lt. apply Rdiv_lt_0_compat; [|lra]. apply Rmult_lt_0_compat; [|exact HS]. apply Rmult_lt_0_compat; assumption.
Qed.
Lemma mat_spec s : physical s ->
  m_Re (mat_of s) = s_R s /\ m_poisson (mat_of s) = s_nu s /\ m_Estar (mat_of s) = effective_modulus s /\ m_Emod (mat_of s) = s_E s /\ m_Etan (mat_of s) = s_Et s /\
  m_dy (mat_of s) = yield_interference s /\ m_Sys (mat_of s) = s_Sy s /\ m_Gstar (mat_of s) = mindlin_modulus s.
Proof.
  intros H. pose proof (effective_pos s H) as HEs. destruct H as (HE & Hnu & HR & HEt & HS). assert (H1 : 0 < 1 - s_nu s ^ 2) by nra.
  assert (A : s_E s / 2 / (1 - s_nu s ^ 2) = effective_modulus s) by (unfold effective_modulus; field; lra).
  cbn [mat_of new_material m_Re m_poisson m_Estar m_Emod m_Etan m_dy m_Sys m_Gstar]. rewrite A, hard_C_spec. repeat split.
  - unfold yield_interference. field. lra.
  - unfold mindlin_modulus. field. lra.
Qed.
Lemma mat_good s : physical s -> good_material (mat_of s).
Proof.
  intros H. destruct (mat_spec s H) as (A1 & A2 & A3 & A4 & A5 & A6 & A7 & A8). pose proof (effective_pos s H). pose proof (yield_pos s H). pose proof (mindlin_modulus_pos s H).
  destruct H as (HE & Hnu & HR & HEt & HS). split; rewrite ?A1, ?A3, ?A4, ?A5, ?A6, ?A7, ?A8; assumption.
Qed.

Lemma sqrt_lt_0' x : 0 < x -> 0 < sqrt x. Proof. apply sqrt_lt_R0. Qed.

(** ---- Hertz ---- *)
Lemma hertz_pos E Re d : 0 < E -> 0 < Re -> 0 < d -> 0 < hertz E Re d.
Proof.
  intros. unfold hertz. destruct (Rlt_dec 0 d); [|contradiction]. pose proof (sqrt_lt_R0 Re ltac:(assumption)). pose proof (sqrt_lt_R0 d ltac:(assumption)).
  apply Rmult_lt_0_compat; [|apply Rmult_lt_0_compat; assumption]. apply Rmult_lt_0_compat; [lra|assumption].
Qed.
Lemma hertz_open E Re d : d <= 0 -> hertz E Re d = 0.
Proof. intros. unfold hertz. destruct (Rlt_dec 0 d); [lra|reflexivity]. Qed.
Lemma hertz_nonneg E Re d : 0 < E -> 0 < Re -> 0 <= hertz E Re d.
Proof. intros. destruct (Rlt_dec 0 d); [left; apply hertz_pos; assumption|rewrite hertz_open by lra; lra]. Qed.
Lemma hertz_mono E Re x y : 0 < E -> 0 < Re -> x <= y -> hertz E Re x <= hertz E Re y.
Proof.
  intros HE HR H. destruct (Rlt_dec 0 x) as [Hx|Hx]; [|rewrite (hertz_open E Re x) by lra; apply hertz_nonneg; assumption].
  unfold hertz. destruct (Rlt_dec 0 x); [|contradiction]. destruct (Rlt_dec 0 y); [|lra]. pose proof (sqrt_lt_R0 Re HR). pose proof (sqrt_lt_R0 x Hx). pose proof (sqrt_le_1_alt x y H).
  apply Rmult_le_compat_l; [nra|]. apply Rmult_le_compat; lra.
Qed.
Lemma hertz_max E Re x y : 0 < E -> 0 < Re -> hertz E Re (Rmax x y) = Rmax (hertz E Re x) (hertz E Re y).
Proof.
  intros HE HR. destruct (Rle_lt_dec x y) as [H|H].
  - rewrite (Rmax_right x y) by exact H. rewrite Rmax_right; [reflexivity|]. apply hertz_mono; assumption.
  - rewrite (Rmax_left x y) by lra. rewrite Rmax_left; [reflexivity|]. apply hertz_mono; [assumption|assumption|lra].
Qed.

(** ---- elastic loading ---- *)
Lemma pos_part un x : fv un x -> fv (fwhere (fle (fconst 0) un) un (fconst 0)) (Rmax 0 x).
Proof.
  intros H. rewrite (fle_v _ _ 0 x (fv_const 0) H). unfold Rleb. destruct (Rle_dec 0 x); cbn [fwhere].
  - rewrite Rmax_right by lra. exact H.
  - rewrite Rmax_left by lra. apply fv_const.
Qed.

Section One.
  Variable m : material.
  Hypothesis Hm : good_material m.
  Let E := m_Estar m. Let Re := m_Re m. Let dy := m_dy m.
  Let HE : 0 < E := gm_E m Hm. Let HRe : 0 < Re := gm_Re m Hm. Let Hdy : 0 < dy := gm_dy m Hm.

  Lemma el_force un x : fv un x -> fv (n_fn (normal_el m un)) (hertz E Re x).
  Proof.
    intros H. cbn [normal_el n_fn]. pose proof (pos_part un x H) as P. destruct (Rlt_dec 0 x) as [Hx|Hx].
    - rewrite Rmax_right in P by lra. replace (hertz E Re x) with (4 * (2 * E) * sqrt (2 * Re) / 3 * Rpower (x / 2) (3/2)).
      + apply fv_scal. apply fv_pow; [apply fv_divc; exact P|lra].
      + rewrite Rpower_32 by lra. unfold hertz. destruct (Rlt_dec 0 x); [|contradiction]. replace (x / 2 * sqrt (x / 2)) with (x * / 2 * (sqrt x * / sqrt 2)).
        2:{ rewrite sqrt_div_alt by lra. reflexivity. }
        rewrite (sqrt_mult 2 Re) by lra. assert (S : sqrt 2 * / sqrt 2 = 1) by (field; apply Rgt_not_eq; apply sqrt_lt_R0; lra).
        transitivity (4/3 * E * sqrt Re * (x * sqrt x) * (sqrt 2 * / sqrt 2)); [field; apply Rgt_not_eq; apply sqrt_lt_R0; lra|rewrite S; ring].
    - rewrite Rmax_left in P by lra. rewrite hertz_open by lra. eapply fv_eq; [apply fv_scal; apply fv_pow0|ring].
      eapply fv_eq; [apply fv_divc; exact P|field].
  Qed.
  Lemma el_radius un x : fv un x -> fv (n_a (normal_el m un)) (if Rlt_dec 0 x then sqrt (Re * x) else 0).
  Proof.
    intros H. cbn [normal_el n_a]. rewrite (flt_v _ _ 0 x (fv_const 0) H). unfold Rltb. destruct (Rlt_dec 0 x) as [Hx|Hx]; cbn [fwhere]; [|apply fv_const].
    replace (Re * x) with (2 * Re * (x / 2)) by field. apply fv_sqrt; [|apply Rmult_le_pos; lra]. apply fv_scal. apply fv_divc.
    pose proof (pos_part un x H) as P. rewrite Rmax_right in P by lra. exact P.
  Qed.

  (** ---- unloading ---- *)
  Lemma unloading_never un deltam Fm x d : fv un x -> fv deltam d -> d <= 0 ->
    fv (n_fn (normal_un m un deltam Fm)) 0 /\ fv (n_a (normal_un m un deltam Fm)) 0.
  Proof.
    intros Hu Hd Hneg. cbn [normal_un n_fn n_a].
    assert (N : fval (fmul deltam (fsub (fconst 1) (fdiv Fm (fscal (4/3 * m_Estar m * sqrt (m_Re m)) (fpow deltam (3/2)))))) = None).
    { destruct (Rle_lt_or_eq_dec d 0 Hneg) as [Hl|Heq].
      - rewrite (fpow_neg deltam d (3/2) Hd Hl). cbn [fscal fun1 fnan fval]. unfold fdiv, fun2. cbn [fval fnan]. destruct (fval Fm); cbn [fval fnan]; unfold fsub, fmul, fun2; cbn; destruct (fval deltam); reflexivity.
      - subst d. rewrite (fdiv_zero Fm). + unfold fsub, fmul, fun2. cbn. destruct (fval deltam); reflexivity.
        + eapply fv_eq; [apply fv_scal; apply fv_pow0; exact Hd|ring]. }
    set (db := fmul deltam _) in *. clearbody db.
    assert (S : fle (fconst 0) (fsub un db) = false) by (unfold fle, fsub, fun2; rewrite N; destruct (fval un); reflexivity).
    rewrite S. cbn [fwhere].
    rewrite (flt_v _ _ 0 0 (fv_const 0) (fv_const 0)), (proj2 (Rltb_false 0 0)) by lra. cbn [fwhere]. split; apply fv_const.
  Qed.

  Section Loaded.
    Variables (un deltam Fm : fdual) (x d F : R).
    Hypothesis Hu : fv un x.
    Hypothesis Hd : fv deltam d.
    Hypothesis HF : fv Fm F.
    Hypothesis Hdp : 0 < d.
    Let db := permanent E Re d F.

    Lemma hertz_power : 4/3 * m_Estar m * sqrt (m_Re m) * Rpower d (3/2) = hertz E Re d.
    Proof. rewrite Rpower_32 by exact Hdp. unfold hertz. destruct (Rlt_dec 0 d); [reflexivity|contradiction]. Qed.
    Lemma un_deltabar : fv (n_deltabar (normal_un m un deltam Fm)) db.
    Proof.
      cbn [normal_un n_deltabar]. unfold db, permanent. apply fv_mul; [exact Hd|]. apply fv_sub; [apply fv_const|].
      rewrite <- hertz_power. apply fv_div; [exact HF|apply fv_scal; apply fv_pow; assumption|]. rewrite hertz_power. pose proof (hertz_pos E Re d HE HRe Hdp). lra.
    Qed.

    (** an asperity that never carried a force: no force up to the largest interference *)
    Lemma unloading_unloaded : F = 0 -> x <= d -> fv (n_fn (normal_un m un deltam Fm)) 0 /\ fv (n_a (normal_un m un deltam Fm)) 0.
    Proof.
      intros HF0 Hx. pose proof un_deltabar as D. assert (Edb : db = d) by (unfold db, permanent; rewrite HF0; field; pose proof (hertz_pos E Re d HE HRe Hdp); lra). rewrite Edb in D.
      cbn [normal_un n_fn n_a n_deltabar] in *. set (b := fmul deltam _) in *.
      assert (S : fv (fsub un b) (x - d)) by (apply fv_sub; assumption). clearbody b.
      pose proof (pos_part _ _ S) as P. rewrite Rmax_left in P by lra. set (pu := fwhere _ (fsub un b) (fconst 0)) in *. clearbody pu.
      rewrite (flt_v _ _ 0 0 (fv_const 0) P), (proj2 (Rltb_false 0 0)) by lra. cbn [fwhere]. split; apply fv_const.
    Qed.

    Hypothesis HFp : 0 < F.
    Lemma permanent_gap : d - db = d * F / hertz E Re d /\ 0 < d - db.
    Proof.
      pose proof (hertz_pos E Re d HE HRe Hdp) as HH. assert (A : d - db = d * F / hertz E Re d) by (unfold db, permanent; field; lra).
      split; [exact A|]. rewrite A. apply Rdiv_lt_0_compat; [apply Rmult_lt_0_compat; assumption|exact HH].
    Qed.
    Definition flat_radius : R := F ^ 2 / ((4/3 * E) ^ 2 * (d - db) ^ 3).
    Lemma flat_radius_pos : 0 < flat_radius.
    Proof.
      destruct permanent_gap as [_ G]. unfold flat_radius. apply Rdiv_lt_0_compat; [apply pow_lt; exact HFp|]. apply Rmult_lt_0_compat; apply pow_lt; lra.
    Qed.

    Lemma un_pieces :
      let res := normal_un m un deltam Fm in
      fv (n_Rebar res) flat_radius /\
      fv (n_fn res) (if Rlt_dec db x then 4/3 * E * sqrt flat_radius * ((x - db) * sqrt (x - db)) else 0) /\
      fv (n_a res) (if Rlt_dec db x then sqrt (flat_radius * (x - db)) else 0).
    Proof.
      cbv zeta. pose proof un_deltabar as D. destruct permanent_gap as [_ G]. pose proof flat_radius_pos as Rp.
      cbn [normal_un n_fn n_a n_deltabar n_Rebar] in *. set (b := fmul deltam _) in *. clearbody b.
      assert (S : fv (fsub un b) (x - db)) by (apply fv_sub; assumption). pose proof (pos_part _ _ S) as P. set (pu := fwhere _ (fsub un b) (fconst 0)) in *. clearbody pu.
      assert (S' : fv (fsub deltam b) (d - db)) by (apply fv_sub; assumption). pose proof (pos_part _ _ S') as P'. rewrite Rmax_right in P' by lra. set (pd := fwhere _ (fsub deltam b) (fconst 0)) in *. clearbody pd.
      assert (Rb : fv (fdiv (fipow Fm 2) (fscal ((4/3 * m_Estar m) ^ 2) (fipow pd 3))) flat_radius).
      { unfold flat_radius. apply fv_div; [apply fv_ipow; exact HF|apply fv_scal; apply fv_ipow; exact P'|]. apply Rgt_not_eq. apply Rmult_lt_0_compat; apply pow_lt; fold E; lra. }
      set (rb := fdiv _ _) in *. clearbody rb. split; [exact Rb|].
      rewrite (flt_v _ _ 0 _ (fv_const 0) P). destruct (Rlt_dec db x) as [Hx|Hx].
      - rewrite Rmax_right in * by lra. rewrite (proj2 (Rltb_true 0 _)) by lra. cbn [fwhere]. split.
        + rewrite <- (Rpower_32 (x - db)) by lra. apply fv_mul; [apply fv_scal; apply fv_sqrt; [exact Rb|lra]|apply fv_pow; [exact P|lra]].
        + apply fv_sqrt; [apply fv_mul; assumption|]. apply Rmult_le_pos; lra.
      - rewrite Rmax_left in * by lra. rewrite (proj2 (Rltb_false 0 0)) by lra. cbn [fwhere]. split; apply fv_const.
    Qed.

    Lemma sqrt_flat : 4/3 * E * sqrt flat_radius = F / ((d - db) * sqrt (d - db)).
    Proof.
      destruct permanent_gap as [_ G]. set (g := d - db) in *.
      assert (A : flat_radius = (F / (4/3 * E * (g * sqrt g))) ^ 2).
      { unfold flat_radius. fold g. assert (sqrt g ^ 2 = g) by (rewrite pow2_sqrt; lra). pose proof (sqrt_lt_R0 g G).
        replace ((F / (4/3 * E * (g * sqrt g))) ^ 2) with (F ^ 2 / ((4/3 * E) ^ 2 * (g ^ 2 * sqrt g ^ 2))) by (field; lra). rewrite H. f_equal. ring. }
      pose proof (sqrt_lt_R0 g G) as Sg.
      rewrite A, sqrt_pow2.
      - field. lra.
      - left. apply Rdiv_lt_0_compat; [exact HFp|]. apply Rmult_lt_0_compat; [lra|]. apply Rmult_lt_0_compat; assumption.
    Qed.

    Lemma unloading_force : fv (n_fn (normal_un m un deltam Fm)) (unloading E Re d F x).
    Proof.
      destruct un_pieces as (_ & H & _). unfold unloading. fold db. cbv zeta. destruct (Rlt_dec db x) as [Hx|Hx]; [|exact H]. destruct permanent_gap as [_ G].
      replace (F * ((x - db) / (d - db) * sqrt ((x - db) / (d - db)))) with (4/3 * E * sqrt flat_radius * ((x - db) * sqrt (x - db))); [exact H|].
      rewrite sqrt_flat, sqrt_div_alt by exact G. field. split; [|lra]. apply Rgt_not_eq. apply sqrt_lt_R0. exact G.
    Qed.
    Lemma unloading_at_max : unloading E Re d F d = F.
    Proof. destruct permanent_gap as [_ G]. unfold unloading. fold db. destruct (Rlt_dec db d); [|lra]. replace ((d - db) / (d - db)) with 1 by (field; lra). rewrite sqrt_1. ring. Qed.
    Lemma unloading_nonneg y : 0 <= unloading E Re d F y.
    Proof.
      destruct permanent_gap as [_ G]. unfold unloading. fold db. cbv zeta. destruct (Rlt_dec db y); [|lra]. apply Rmult_le_pos; [lra|]. apply Rmult_le_pos; [|apply sqrt_pos].
      left. apply Rdiv_lt_0_compat; lra.
    Qed.
    Lemma un_radius : exists a, fv (n_a (normal_un m un deltam Fm)) a /\ 0 <= a /\ (0 < unloading E Re d F x -> 0 < a).
    Proof.
      destruct un_pieces as (_ & _ & H). eexists. split; [exact H|]. pose proof flat_radius_pos as Rp. unfold unloading. fold db. cbv zeta. destruct (Rlt_dec db x).
      - split; [apply sqrt_pos|]. intros _. apply sqrt_lt_R0. apply Rmult_lt_0_compat; lra.
      - split; [lra|]. intros Z. lra.
    Qed.
  End Loaded.

  (** unloading of an asperity that did not yield is Hertz contact *)
  Lemma unloading_hertz d y : 0 < d -> unloading E Re d (hertz E Re d) y = hertz E Re y.
  Proof.
    intros Hd. pose proof (hertz_pos E Re d HE HRe Hd) as HH. assert (A : permanent E Re d (hertz E Re d) = 0) by (unfold permanent; field; lra).
    unfold unloading. rewrite A. cbv zeta. rewrite !Rminus_0_r. destruct (Rlt_dec 0 y) as [Hy|Hy]; [|rewrite hertz_open by lra; reflexivity].
    unfold hertz. destruct (Rlt_dec 0 d); [|contradiction]. destruct (Rlt_dec 0 y); [|contradiction]. rewrite sqrt_div_alt by exact Hd. field. split; [|lra]. apply Rgt_not_eq. apply sqrt_lt_R0. exact Hd.
  Qed.
End One.

(** ---- plastic loading ---- *)
Lemma exp_le_1 z : z <= 0 -> exp z <= 1.
Proof. intros H. rewrite <- exp_0. destruct (Req_dec z 0) as [->|]; [lra|left; apply exp_increasing; lra]. Qed.
Lemma neg_div a b : 0 < a -> 0 < b -> - a / b <= 0.
Proof. intros Ha Hb. pose proof (Rdiv_lt_0_compat a b Ha Hb). unfold Rdiv in *. lra. Qed.
Lemma hertz_yield s : physical s -> 4/3 * (2 * s_R s / (2 * effective_modulus s)) ^ 2 * (hardness_ratio s * PI * s_Sy s / 2) ^ 3 = solid_hertz s (yield_interference s).
Proof.
  intros H. pose proof (effective_pos s H) as HEs. pose proof (yield_pos s H) as Hy. destruct H as (HE & Hnu & HR & HEt & HS). pose proof PI_RGT_0 as HPI. pose proof (hard_C_pos (s_nu s)) as HC. rewrite hard_C_spec in HC.
  unfold solid_hertz, hertz. destruct (Rlt_dec 0 (yield_interference s)); [|contradiction]. set (E := effective_modulus s) in *. set (C := hardness_ratio s) in *. set (Sy := s_Sy s) in *. set (Rr := s_R s) in *.
  set (k := PI * C * Sy / (4 * E)). assert (Hk : 0 < k). { apply Rdiv_lt_0_compat; [|lra]. apply Rmult_lt_0_compat; [|exact HS]. apply Rmult_lt_0_compat; assumption. }
  assert (Ey : yield_interference s = (2 * k) ^ 2 * Rr) by (unfold yield_interference; fold E C Sy Rr k; ring).
  rewrite Ey. rewrite (sqrt_mult ((2 * k) ^ 2) Rr) by (try (apply pow_le; lra); lra). rewrite sqrt_pow2 by lra.
  transitivity (4/3 * E * ((2 * k) ^ 3 * Rr * (sqrt Rr * sqrt Rr))); [|ring]. rewrite sqrt_sqrt by lra. unfold k. field. lra.
Qed.

Lemma hardness_pos s : 0 < hardness_ratio s.
Proof. unfold hardness_ratio. apply Rmult_lt_0_compat; [lra|apply exp_pos]. Qed.

Section Plastic.
  Variable s : solid.
  Hypothesis Hs : physical s.
  Let E := effective_modulus s. Let dy := yield_interference s. Let C := hardness_ratio s.
  Let HE : 0 < E := effective_pos s Hs. Let Hdy : 0 < dy := yield_pos s Hs.
  Let HC : 0 < C := hardness_pos s.
  Let HRe : 0 < s_R s. Proof. apply Hs. Qed.
  Let HEm : 0 < s_E s. Proof. apply Hs. Qed.

  Lemma upsilon_value pu d : fv pu d -> fv (fexp (upsilon (mat_of s) pu)) (plastic_share s d).
  Proof.
    intros H. destruct (mat_spec s Hs) as (A1 & A2 & A3 & A4 & A5 & A6 & A7 & A8). unfold upsilon, plastic_share. rewrite A4, A5, A1, A6, A7. unfold Rltb, float_eps. fold dy.
    destruct (Rlt_dec (s_Et s / s_E s) (/ 2 ^ 52)); [rewrite <- exp_0; apply fv_exp; apply fv_const|]. apply fv_exp.
    eapply fv_eq; [apply fv_divc; apply fv_scal; apply fv_cpow; apply fv_sub; [apply fv_const|apply fv_divc; apply fv_divc; apply fv_sub; [exact H|apply fv_const]]|].
    replace ((d - dy) / 2 / (s_R s * 2)) with ((d - dy) / (4 * s_R s)) by (field; lra).
    replace (-2 * sqrt (s_E s / s_Sy s) * (s_Et s / s_E s)) with (- (2 * sqrt (s_E s / s_Sy s) * (s_Et s / s_E s))) by ring.
    f_equal. ring.
  Qed.

  Lemma plastic_radius_value un d : fv un d -> 0 < d -> fv (plastic_radius (mat_of s) un) (plastic_radius_law s d).
  Proof.
    intros H Hd. destruct (mat_spec s Hs) as (A1 & A2 & A3 & A4 & A5 & A6 & A7 & A8). unfold plastic_radius, plastic_radius_law. rewrite A1, A2, A3, A6, A7, hard_C_spec. fold E C dy.
    pose proof (pos_part un d H) as P. rewrite Rmax_right in P by lra. set (pu := fwhere _ un (fconst 0)) in *. clearbody pu. cbv zeta.
    assert (Hx : 0 < d / dy) by (apply Rdiv_lt_0_compat; assumption). assert (Hx' : 0 < d / dy / (19/10)) by (apply Rdiv_lt_0_compat; lra).
    assert (AE : fv (fsqrt (fscal (2 * s_R s) (fdivc pu 2))) (sqrt (s_R s * d))).
    { replace (s_R s * d) with (2 * s_R s * (d / 2)) by field. apply fv_sqrt; [apply fv_scal; apply fv_divc; exact P|]. apply Rmult_le_pos; lra. }
    apply fv_add; [exact AE|]. apply fv_mul; [|apply upsilon_value; exact P]. apply fv_sub; [|exact AE].
    replace (2 * s_R s * (PI * C * s_Sy s / (4 * E))) with (2 * s_R s * (PI * C * s_Sy s / (2 * 2 * E))) by (field; lra). apply fv_scal. apply fv_sqrt.
    - apply fv_mul; [apply fv_divc; exact P|]. apply fv_pow; [apply fv_divc; apply fv_divc; exact P|exact Hx'].
    - apply Rmult_le_pos; [lra|left; apply Rpower_pos].
  Qed.

  Lemma plastic_force_value un d : fv un d -> 0 < d -> fv (n_fn (normal_pl (mat_of s) un)) (plastic_law s d).
  Proof.
    intros H Hd. pose proof (plastic_radius_value un d H Hd) as PR. destruct (mat_spec s Hs) as (A1 & A2 & A3 & A4 & A5 & A6 & A7 & A8). cbn [normal_pl n_fn].
    set (pr := plastic_radius (mat_of s) un) in *. clearbody pr. rewrite A1, A2, A3, A4, A5, A6, A7, hard_C_spec. fold E C dy.
    pose proof (pos_part un d H) as P. rewrite Rmax_right in P by lra. set (pu := fwhere _ un (fconst 0)) in *. clearbody pu.
    pose proof (hertz_yield s Hs) as HY. fold E C in HY. rewrite HY. fold dy. clear HY.
    assert (Hx : 0 < d / dy) by (apply Rdiv_lt_0_compat; assumption).
    assert (FE : fv (fscal (4 * (2 * E) * sqrt (2 * s_R s) / 3) (fpow (fdivc un 2) (3/2))) (solid_hertz s d)).
    { pose proof (el_force (mat_of s) (mat_good s Hs) un d H) as F. cbn [normal_el n_fn] in F. rewrite A1, A3 in F. fold E in F. unfold solid_hertz. fold E.
      rewrite (fle_v _ _ 0 d (fv_const 0) H) in F. rewrite (proj2 (Rleb_true 0 d)) in F by lra. exact F. }
    set (fe := fscal _ (fpow (fdivc un 2) (3/2))) in *. clearbody fe.
    set (H' := 284/100 - 92/100 * (1 - cos (PI * plastic_radius_law s d / (2 * s_R s)))).
    assert (HS : fv (fsub (fconst (284/100)) (fscal (92/100) (fsub (fconst 1) (fcos (fdivc (fscal PI pr) (2 * s_R s)))))) H').
    { apply fv_sub; [apply fv_const|]. apply fv_scal. apply fv_sub; [apply fv_const|]. apply fv_cos. apply fv_divc. apply fv_scal. exact PR. }
    set (hs := fsub (fconst (284/100)) _) in *. clearbody hs.
    assert (FX : fv (fdivc pu dy) (d / dy)) by (apply fv_divc; exact P). set (fx := fdivc pu dy) in *. clearbody fx.
    set (Fp := solid_hertz s dy * (exp (- (1/4) * Rpower (d / dy) (5/12)) * Rpower (d / dy) (3/2) + 4 * H' / C * (1 - exp (- (1/25) * Rpower (d / dy) (5/9))) * (d / dy))).
    assert (FP : fv (fscal (solid_hertz s dy) (fadd (fmul (fexp (fscal (- (25/100)) (fpow fx (5/12)))) (fpow fx (3/2))) (fmul (fmul (fdivc (fscal 4 hs) C) (fsub (fconst 1) (fexp (fscal (- (1/25)) (fpow fx (5/9)))))) fx))) Fp).
    { unfold Fp. apply fv_scal. apply fv_add.
      - replace (- (1/4)) with (- (25/100)) by lra. apply fv_mul; [apply fv_exp; apply fv_scal; apply fv_pow; assumption|apply fv_pow; assumption].
      - apply fv_mul; [|exact FX]. apply fv_mul; [apply fv_divc; apply fv_scal; exact HS|]. apply fv_sub; [apply fv_const|]. apply fv_exp. apply fv_scal. apply fv_pow; assumption. }
    set (fp := fscal (solid_hertz s dy) _) in *. clearbody fp.
    eapply fv_eq; [apply fv_add; [exact FP|apply fv_scal; apply fv_sub; [exact FE|exact FP]]|]. unfold plastic_law. cbv zeta. fold H' dy C. fold Fp.
    replace (- (33 / 10) * s_Et s / s_E s) with (- (33/10) * (s_Et s / s_E s)) by (unfold Rdiv; ring). ring.
  Qed.

  Lemma plastic_share_range d : 0 < d -> 0 < plastic_share s d <= 1.
  Proof.
    intros Hd. unfold plastic_share. destruct (Rlt_dec _ _) as [|Hge]; [lra|]. split; [apply exp_pos|]. apply exp_le_1.
    pose proof Hs as (_ & _ & _ & HEt & HSy).
    assert (Hsq : 0 < sqrt (s_E s / s_Sy s)) by (apply sqrt_lt_R0; apply Rdiv_lt_0_compat; assumption).
    assert (He : 0 <= s_Et s / s_E s < 1).
    { split; [apply Rmult_le_pos; [lra|left; apply Rinv_0_lt_compat; exact HEm]|]. apply (Rmult_lt_reg_r (s_E s)); [exact HEm|]. unfold Rdiv. rewrite Rmult_assoc, Rinv_l by lra. lra. }
    assert (0 < 4 - 3 * exp (- (2 * sqrt (s_E s / s_Sy s) * (s_Et s / s_E s)))).
      { assert (exp (- (2 * sqrt (s_E s / s_Sy s) * (s_Et s / s_E s))) <= 1); [|lra]. apply exp_le_1. assert (0 <= 2 * sqrt (s_E s / s_Sy s) * (s_Et s / s_E s)) as K by (apply Rmult_le_pos; lra). lra. }
      assert (0 < (4 - 3 * exp (- (2 * sqrt (s_E s / s_Sy s) * (s_Et s / s_E s)))) * (1 - s_Et s / s_E s)) by (apply Rmult_lt_0_compat; lra).
      apply neg_div; [|assumption]. apply Rmult_lt_0_compat; [lra|apply Rpower_pos].
  Qed.
  Lemma plastic_radius_pos d : 0 < d -> 0 < plastic_radius_law s d.
  Proof.
    intros Hd. unfold plastic_radius_law. cbv zeta. pose proof (plastic_share_range d Hd) as Sh. assert (0 < sqrt (s_R s * d)) by (apply sqrt_lt_R0; apply Rmult_lt_0_compat; assumption).
    set (ae := sqrt (s_R s * d)) in *. set (ap := _ * sqrt _).
    assert (Hap : 0 < ap).
    { unfold ap. fold E C dy. pose proof PI_RGT_0. pose proof Hs as (_ & _ & _ & _ & HSy). apply Rmult_lt_0_compat.
      - apply Rmult_lt_0_compat; [lra|]. apply Rdiv_lt_0_compat; [|lra]. apply Rmult_lt_0_compat; [|exact HSy]. apply Rmult_lt_0_compat; assumption.
      - apply sqrt_lt_R0. apply Rmult_lt_0_compat; [apply Rdiv_lt_0_compat; assumption|apply Rpower_pos]. }
    replace (ae + (ap - ae) * plastic_share s d) with (ae * (1 - plastic_share s d) + ap * plastic_share s d) by ring. nra.
  Qed.
  Lemma plastic_pos d : 0 < d -> 0 < plastic_law s d.
  Proof.
    intros Hd. unfold plastic_law. cbv zeta. fold dy C. assert (Hx : 0 < d / dy) by (apply Rdiv_lt_0_compat; assumption). set (x := d / dy) in *.
    set (H' := 284/100 - _). assert (HH : 1 <= H') by (unfold H'; pose proof (COS_bound (PI * plastic_radius_law s d / (2 * s_R s))); lra). clearbody H'.
    assert (HY : 0 < solid_hertz s dy) by (apply hertz_pos; assumption). assert (HD : 0 < solid_hertz s d) by (apply hertz_pos; assumption).
    set (lam := exp _). assert (HL : 0 < lam <= 1).
    { unfold lam. split; [apply exp_pos|]. pose proof Hs as (_ & _ & _ & HEt & _). assert (0 <= s_Et s / s_E s) by (apply Rmult_le_pos; [lra|left; apply Rinv_0_lt_compat; exact HEm]).
      apply exp_le_1. lra. }
    assert (HF : 0 < exp (- (1/4) * Rpower x (5/12)) * Rpower x (3/2) + 4 * H' / C * (1 - exp (- (1/25) * Rpower x (5/9))) * x).
    { apply Rplus_lt_le_0_compat; [apply Rmult_lt_0_compat; [apply exp_pos|apply Rpower_pos]|]. apply Rmult_le_pos; [|lra]. apply Rmult_le_pos; [left; apply Rdiv_lt_0_compat; lra|].
      assert (exp (- (1/25) * Rpower x (5/9)) < 1); [|lra]. pose proof (Rpower_pos x (5/9)). rewrite <- exp_0 at 2. apply exp_increasing. lra. }
    set (G := _ + _ * x) in *. assert (0 < solid_hertz s dy * G) by (apply Rmult_lt_0_compat; assumption). nra.
  Qed.
End Plastic.
