(** The normal force of an asperity over all histories, and counterexamples. *)
From Coq Require Import Reals Lra Lia Arith List Bool FunctionalExtensionality.
From Verif.Lib Require Import RSum Calc Py.
From Verif.Spec Require Import Calculus Slider Rough RoughCalls.
From Verif.Model Require Import Harmonic Aft JaxDual JaxFloat RoughContact.
From Verif.Proofs Require Import JaxDualP JaxFloatP RoughNormalP RoughStaticP RoughCallsP RoughHistoryP RoughSteadyP SliderP.
Import ListNotations.
Open Scope R_scope.

Section Memory.
  Variables (s : solid) (g : R).
  Hypothesis Hs : physical s.
  Hypothesis Hg : 0 <= g.
  Let E := effective_modulus s.
  Let HE := effective_pos s Hs.
  Let HR := radius_param s Hs.
  Let yl := yield_limit s.
  Let Hy := limit_pos s Hs.

  Lemma memory_snoc mvs mv : memory_after s g (mvs ++ [mv]) = remember s g (memory_after s g mvs) mv.
  Proof. unfold memory_after. rewrite fold_left_app. reflexivity. Qed.

  Lemma memory_ok mvs : mem_ok s (mem_d (memory_after s g mvs)) (mem_F (memory_after s g mvs)).
  Proof.
    induction mvs as [|mv mvs IH] using rev_ind; [apply (mem_ok_start s); exact Hg|]. rewrite memory_snoc. cbn [remember mem_d mem_F]. apply (mem_ok_step s Hs). exact IH.
  Qed.
  Lemma memory_nonneg mvs x : 0 <= asperity_force s (mem_d (memory_after s g mvs)) (mem_F (memory_after s g mvs)) x.
  Proof. apply (force_nonneg s Hs). apply memory_ok. Qed.

  Lemma memory_grows mvs more : mem_d (memory_after s g mvs) <= mem_d (memory_after s g (mvs ++ more)) /\ mem_F (memory_after s g mvs) <= mem_F (memory_after s g (mvs ++ more)).
  Proof.
    induction more as [|mv more IH] using rev_ind; [rewrite app_nil_r; lra|]. rewrite app_assoc, memory_snoc. cbn [remember mem_d mem_F]. destruct IH as [A B]. split; [eapply Rle_trans; [exact A|apply Rmax_l]|eapply Rle_trans; [exact B|apply Rmax_l]].
  Qed.
  Lemma memory_covers mvs mv more : let M := memory_after s g mvs in let M' := memory_after s g (mvs ++ mv :: more) in
    snd mv 2%nat - g <= mem_d M' /\ asperity_force s (mem_d M) (mem_F M) (snd mv 2%nat - g) <= mem_F M'.
  Proof.
    cbv zeta. change (mv :: more) with ([mv] ++ more). rewrite app_assoc. destruct (memory_grows (mvs ++ [mv]) more) as [A B]. rewrite memory_snoc in A, B at 1. cbn [remember mem_d mem_F] in A, B.
    split; [eapply Rle_trans; [apply Rmax_r|exact A]|eapply Rle_trans; [apply Rmax_r|exact B]].
  Qed.
  Lemma memory_plastic mvs : yl < mem_d (memory_after s g mvs) -> 0 < mem_F (memory_after s g mvs).
  Proof.
    induction mvs as [|mv mvs IH] using rev_ind; [cbn [memory_after fold_left mem_d]; fold yl in Hy; lra|]. rewrite memory_snoc. cbn [remember mem_d mem_F]. set (M := memory_after s g mvs) in *. set (x := snd mv 2%nat - g). intros H.
    destruct (Rle_lt_dec x (mem_d M)) as [Hx|Hx].
    - rewrite Rmax_left in H by exact Hx. eapply Rlt_le_trans; [apply IH; exact H|apply Rmax_l].
    - rewrite Rmax_right in H by lra. eapply Rlt_le_trans; [|apply Rmax_r]. unfold asperity_force. fold yl. destruct (Rlt_dec _ _) as [Z|]; [pose proof (Rmax_r (mem_d M) x); lra|].
      destruct (Rlt_dec (Rmax (mem_d M) yl) x) as [|Z]; [apply plastic_pos; [exact Hs|unfold yl in H; lra]|]. exfalso. apply Z. apply Rmax_lub_lt; assumption.
  Qed.

  (** the force at the largest interference is the largest force *)
  Lemma force_at_max d F : mem_ok s d F -> (yl < d -> 0 < F) -> asperity_force s d F d = F.
  Proof.
    intros [H0 H1] H2. unfold asperity_force. fold yl. rewrite Rmax_left by lra. destruct (Rlt_dec d yl) as [Hd|Hd]; [symmetry; apply H1; exact Hd|].
    destruct (Rlt_dec (Rmax d yl) d) as [Z|_]; [pose proof (Rmax_l d yl); lra|]. fold yl in Hy. destruct (Rlt_dec 0 (Rmin d F)) as [Hp|Hp].
    - pose proof (Rmin_r d F). unfold solid_unloading. destruct (mat_spec s Hs) as (mR & _ & mE & _). rewrite <- mR, <- mE. apply (unloading_at_max _ (mat_good s Hs)); lra.
    - destruct (Rle_lt_or_eq_dec 0 F H0) as [Hf|Hf]; [|exact Hf]. exfalso. apply Hp. apply Rmin_glb_lt; lra.
  Qed.
  Lemma memory_at_max mvs : let M := memory_after s g mvs in asperity_force s (mem_d M) (mem_F M) (mem_d M) = mem_F M.
  Proof. cbv zeta. apply force_at_max; [apply memory_ok|apply memory_plastic]. Qed.

  (** unloading and reloading stay below the largest force *)
  Lemma unloading_le d F x : 0 < d -> 0 < F -> x <= d -> solid_unloading s d F x <= F.
  Proof.
    intros Hd HF Hx. unfold solid_unloading, unloading. cbv zeta. destruct (Rlt_dec _ x) as [Hp|]; [|lra]. destruct (mat_spec s Hs) as (mR & _ & mE & _).
    destruct (permanent_gap _ (mat_good s Hs) d F Hd HF) as [_ G]. rewrite mR, mE in G. set (db := permanent _ _ d F) in *. set (p := (x - db) / (d - db)).
    assert (Hp0 : 0 <= p) by (left; apply Rdiv_lt_0_compat; lra). assert (Hp1 : p <= 1) by (unfold p; apply (Rmult_le_reg_r (d - db)); [exact G|]; unfold Rdiv; rewrite Rmult_assoc, Rinv_l by lra; lra).
    pose proof (sqrt_pos p). assert (sqrt p <= 1) by (rewrite <- sqrt_1; apply sqrt_le_1_alt; exact Hp1). assert (p * sqrt p <= 1) by nra. nra.
  Qed.
  Lemma memory_below mvs x : let M := memory_after s g mvs in x <= mem_d M -> asperity_force s (mem_d M) (mem_F M) x <= mem_F M.
  Proof.
    cbv zeta. intros Hx. destruct (memory_ok mvs) as [H0 H1]. set (d := mem_d (memory_after s g mvs)) in *. set (F := mem_F (memory_after s g mvs)) in *. unfold asperity_force. fold yl. rewrite Rmax_left by exact Hx.
    destruct (Rlt_dec d yl) as [Hd|Hd]; [rewrite H1 by exact Hd; apply hertz_mono; assumption|]. destruct (Rlt_dec (Rmax d yl) x) as [Z|_]; [pose proof (Rmax_l d yl); lra|].
    destruct (Rlt_dec 0 (Rmin d F)) as [Hp|]; [|exact H0]. pose proof (Rmin_l d F). pose proof (Rmin_r d F). apply unloading_le; lra.
  Qed.

  Lemma memory_elastic mvs x : let M := memory_after s g mvs in mem_d M < yl ->
    mem_F M = solid_hertz s (mem_d M) /\ (x < yl -> asperity_force s (mem_d M) (mem_F M) x = solid_hertz s x) /\ (0 < mem_d M -> solid_unloading s (mem_d M) (mem_F M) x = solid_hertz s x).
  Proof.
    cbv zeta. intros Hd. destruct (memory_ok mvs) as [H0 H1]. specialize (H1 Hd). split; [exact H1|]. split.
    - intros Hx. unfold asperity_force. fold yl. destruct (Rlt_dec (Rmax _ x) yl) as [|Z]; [reflexivity|]. exfalso. apply Z. apply Rmax_lub_lt; assumption.
    - intros Hp. rewrite H1. unfold solid_unloading, solid_hertz. destruct (mat_spec s Hs) as (mR & _ & mE & _). rewrite <- mR, <- mE. apply (unloading_hertz _ (mat_good s Hs)). exact Hp.
  Qed.

  (** no force up to the permanent deformation *)
  Lemma memory_open mvs x : let M := memory_after s g mvs in
    let open := if Rlt_dec (mem_d M) yl then 0 else permanent E (s_R s) (mem_d M) (mem_F M) in
    x <= mem_d M -> x <= open -> asperity_force s (mem_d M) (mem_F M) x = 0.
  Proof.
    cbv zeta. intros Hm Hx. set (d := mem_d (memory_after s g mvs)) in *. set (F := mem_F (memory_after s g mvs)) in *. unfold asperity_force. fold yl. rewrite Rmax_left by exact Hm.
    destruct (Rlt_dec d yl) as [Hd|Hd]; [unfold solid_hertz; apply hertz_open; exact Hx|].
    destruct (Rlt_dec (Rmax d yl) x) as [Z|_]; [pose proof (Rmax_l d yl); lra|]. destruct (Rlt_dec 0 (Rmin d F)); [|reflexivity]. unfold solid_unloading, unloading. cbv zeta. fold E. destruct (Rlt_dec _ x); [lra|reflexivity].
  Qed.
  Lemma permanent_nonneg d F : 0 < d -> 0 <= F -> F <= solid_hertz s d -> 0 <= permanent E (s_R s) d F.
  Proof.
    intros Hd HF H. unfold permanent. fold E. pose proof (hertz_pos E (s_R s) d HE HR Hd) as HH. unfold solid_hertz in H. fold E in H. apply Rmult_le_pos; [lra|].
    assert (F / hertz E (s_R s) d <= 1) by (apply (Rmult_le_reg_r (hertz E (s_R s) d)); [exact HH|]; unfold Rdiv; rewrite Rmult_assoc, Rinv_l by lra; lra). lra.
  Qed.
  Lemma memory_separated mvs x : let M := memory_after s g mvs in mem_F M <= solid_hertz s (mem_d M) -> x <= 0 -> asperity_force s (mem_d M) (mem_F M) x = 0.
  Proof.
    cbv zeta. intros HF Hx. destruct (memory_ok mvs) as [H0 H1]. set (d := mem_d (memory_after s g mvs)) in *. set (F := mem_F (memory_after s g mvs)) in *. fold yl in Hy. unfold asperity_force. fold yl.
    destruct (Rlt_dec (Rmax d x) yl); [unfold solid_hertz; apply hertz_open; exact Hx|]. destruct (Rlt_dec (Rmax d yl) x) as [Z|_]; [pose proof (Rmax_r d yl); lra|].
    destruct (Rlt_dec 0 (Rmin d F)) as [Hp|]; [|reflexivity]. pose proof (Rmin_l d F). unfold solid_unloading, unloading. cbv zeta. fold E. pose proof (permanent_nonneg d F ltac:(lra) H0 HF). destruct (Rlt_dec _ x); [lra|reflexivity].
  Qed.

  (** first loading exactly to the yield limit *)
  Lemma yield_gap : let M := memory_after s g [] in
    (forall x, x < yl -> asperity_force s (mem_d M) (mem_F M) x = solid_hertz s x) /\ asperity_force s (mem_d M) (mem_F M) yl = 0 /\ (forall x, yl < x -> asperity_force s (mem_d M) (mem_F M) x = plastic_law s x).
  Proof.
    cbv zeta. cbn [memory_after fold_left mem_d mem_F]. fold yl in Hy. split; [|split]; [intros x Hx| |intros x Hx]; rewrite (peak_force s Hs) by exact Hg; fold yl.
    - destruct (Rlt_dec x yl); [reflexivity|lra].
    - destruct (Rlt_dec yl yl); [lra|reflexivity].
    - destruct (Rlt_dec x yl); [lra|]. destruct (Rlt_dec yl x); [reflexivity|lra].
  Qed.
End Memory.

(** ---- a contact force out of contact ---- *)
Definition steel : solid := mkSolid 2000 0 1 0 1.
Lemma steel_physical : physical steel. Proof. unfold physical, steel. cbn. lra. Qed.
Lemma steel_modulus : effective_modulus steel = 1000. Proof. unfold effective_modulus, steel. cbn. field. Qed.
Lemma steel_ratio : hardness_ratio steel = 1295/1000. Proof. unfold hardness_ratio, steel. cbn [s_nu]. rewrite Rmult_0_r, exp_0. ring. Qed.

Lemma one_minus_cos t : 0 <= t -> 1 - cos t <= t ^ 2 / 2.
Proof.
  intros Ht. replace t with (2 * (t / 2)) at 1 by field. rewrite cos_2a_sin. assert (- (t/2) <= sin (t / 2) <= t / 2).
  { destruct (Rle_lt_or_eq_dec 0 t Ht) as [Hp|<-]; [|replace (0 / 2) with 0 by field; rewrite sin_0; lra]. split; [|left; apply sin_lt_x; lra].
    destruct (Rle_lt_dec (t / 2) 1) as [H1|H1]; [|pose proof (SIN_bound (t / 2)); lra]. pose proof (sin_ge_0 (t / 2) ltac:(lra) ltac:(pose proof PI2_3_2; unfold PI2 in *; lra)). lra. }
  nra.
Qed.
Lemma root_2 : 1414/1000 < sqrt 2 < 1415/1000.
Proof. pose proof (sqrt_sqrt 2 ltac:(lra)). pose proof (sqrt_pos 2). split; nra. Qed.

Lemma steel_plastic : solid_hertz steel (2 * yield_interference steel) < plastic_law steel (2 * yield_interference steel).
Proof.
  pose proof steel_physical as Hs. pose proof (yield_pos steel Hs) as Hdy. set (dy := yield_interference steel) in *. unfold plastic_law. fold dy. cbv zeta.
  replace (2 * dy / dy) with 2 by (field; lra). replace (s_Et steel / s_E steel) with 0 by (unfold steel; cbn; field). rewrite Rmult_0_r, exp_0. rewrite Rminus_diag_eq by reflexivity. rewrite Rmult_0_l, Rplus_0_l, Rmult_1_l, steel_ratio.
  (* contact radius is small *)
  assert (HPI : 3 < PI <= 4) by (split; [pose proof PI2_3_2; unfold PI2 in *; lra|apply PI_4]).
  assert (Ra : 0 < plastic_radius_law steel (2 * dy) <= 1/100).
  { split; [apply plastic_radius_pos; [exact Hs|lra]|]. unfold plastic_radius_law. fold dy. cbv zeta. replace (2 * dy / dy) with 2 by (field; lra).
    assert (Sh : plastic_share steel (2 * dy) = 1). { unfold plastic_share. destruct (Rlt_dec _ _) as [|N]; [reflexivity|]. exfalso. apply N. replace (s_Et steel / s_E steel) with 0 by (unfold steel; cbn; field). apply Rinv_0_lt_compat. apply pow_lt. lra. }
    rewrite Sh, Rmult_1_r. set (ae := sqrt (s_R steel * (2 * dy))). rewrite steel_ratio, steel_modulus. cbn [steel s_R s_Sy].
    set (B := 14 / 100 * exp (23 * 1 / (2 * 1000))). assert (HB : 0 <= B <= 1).
    { unfold B. assert (exp (23 * 1 / (2 * 1000)) <= 3) by (eapply Rle_trans; [|exact exp_le_3]; destruct (Rle_lt_or_eq_dec (23 * 1 / (2 * 1000)) 1 ltac:(lra)) as [H|H]; [left; apply exp_increasing; exact H|rewrite H; lra]). pose proof (exp_pos (23 * 1 / (2 * 1000))). lra. }
    assert (P : Rpower (2 / (19 / 10)) B <= 2). { eapply Rle_trans; [apply (Rle_Rpower _ B 1); lra|]. rewrite Rpower_1 by lra. lra. }
    assert (P0 : 0 < Rpower (2 / (19 / 10)) B) by (unfold Rpower; apply exp_pos).
    assert (Sq : sqrt (2 * Rpower (2 / (19 / 10)) B) <= 2). { apply (Rle_trans _ (sqrt 4)); [apply sqrt_le_1_alt; lra|rewrite sqrt_4; lra]. }
    pose proof (sqrt_pos (2 * Rpower (2 / (19 / 10)) B)). replace (ae + (2 * 1 * (PI * (1295 / 1000) * 1 / (4 * 1000)) * sqrt (2 * Rpower (2 / (19 / 10)) B) - ae)) with (2 * 1 * (PI * (1295 / 1000) * 1 / (4 * 1000)) * sqrt (2 * Rpower (2 / (19 / 10)) B)) by ring.
    assert (2 * 1 * (PI * (1295 / 1000) * 1 / (4 * 1000)) <= 3/1000) by lra. assert (0 <= 2 * 1 * (PI * (1295 / 1000) * 1 / (4 * 1000))) by lra. nra. }
  set (a := plastic_radius_law steel (2 * dy)) in *. set (H := 284 / 100 - 92 / 100 * (1 - cos (PI * a / (2 * s_R steel)))).
  assert (HH : 283/100 <= H).
  { unfold H. cbn [steel s_R]. assert (0 <= PI * a / (2 * 1) <= 2/100) by (split; nra). pose proof (one_minus_cos (PI * a / (2 * 1)) ltac:(lra)). assert ((PI * a / (2 * 1)) ^ 2 <= 4/10000) by nra. lra. }
  clearbody H. clear Ra. clearbody a.
  (* bounds of the powers *)
  destruct root_2 as [R1 R2].
  assert (Q : Rpower 2 (1/2) = sqrt 2) by (replace (1/2) with (/ 2) by lra; apply Rpower_sqrt; lra).
  assert (P1 : Rpower 2 (5/12) <= sqrt 2) by (rewrite <- Q; apply Rle_Rpower; lra).
  assert (P2 : sqrt 2 <= Rpower 2 (5/9)) by (rewrite <- Q; apply Rle_Rpower; lra).
  assert (P3 : Rpower 2 (3/2) = 2 * sqrt 2) by (apply Rpower_32; lra). rewrite P3.
  set (p := Rpower 2 (5/12)) in *. set (q := Rpower 2 (5/9)) in *. clearbody p q.
  assert (Ex1 : 677/1000 <= exp (- (1/4) * p)).
  { replace (- (1/4) * p) with (- (1/8) * p + - (1/8) * p) by field. rewrite exp_plus. pose proof (exp_ineq1_le (- (1/8) * p)). assert (823/1000 <= exp (- (1/8) * p)) by lra. nra. }
  assert (Ex2 : 534/10000 <= 1 - exp (- (1/25) * q)).
  { assert (1 + 1/25 * q <= exp (1/25 * q)) by apply exp_ineq1_le. replace (- (1/25) * q) with (- (1/25 * q)) by ring. rewrite exp_Ropp. assert (10565/10000 <= exp (1/25 * q)) by lra.
    assert (/ exp (1/25 * q) <= / (10565/10000)) by (apply Rinv_le_contravar; lra). lra. }
  set (e1 := exp (- (1/4) * p)) in *. set (e2 := exp (- (1/25) * q)) in *. clearbody e1 e2.
  assert (He2 : 4 * H / (1295/1000) * (1 - e2) * 2 >= 933/1000). { assert (8741/1000 <= 4 * H / (1295/1000)) by lra. nra. }
  assert (Hf : solid_hertz steel (2 * dy) = solid_hertz steel dy * (2 * sqrt 2)).
  { unfold solid_hertz, hertz. destruct (Rlt_dec 0 (2 * dy)); [|lra]. destruct (Rlt_dec 0 dy); [|lra]. rewrite sqrt_mult by lra. ring. }
  rewrite Hf. assert (Hpos : 0 < solid_hertz steel dy) by (apply hertz_pos; [rewrite steel_modulus; lra|cbn; lra|exact Hdy]).
  apply Rmult_lt_compat_l; [exact Hpos|]. assert (e1 * (2 * sqrt 2) >= 677/1000 * (2 * sqrt 2)) by nra. lra.
Qed.
