(** Static states after a load history, kept conditions, and systems with several static states. *)
From Coq Require Import Reals List Arith Bool Lra Lia FunctionalExtensionality Ranalysis5.
From Verif.Lib Require Import RSum Py.
From Verif.Spec Require Import Calculus Elements Slider Rough StaticHistory SystemCalls StaticStates.
From Verif.Model Require Import Harmonic LocalForces Aft VibSys SysElements Jenkins Iwan JaxDual JaxFloat JaxFriction RoughContact SysHistory.
From Verif.Proofs Require Import ElementsP JenkinsP IwanP HysteresisP EldryP EldryStaticP RoughNormalP RoughCasesP SysHistoryP StaticStatesP.
Import ListNotations.
Open Scope R_scope.

(** * Rising laws *)
Lemma law_work N n (Q T : mat) (f : nat -> R -> R) (F : vec -> vec) U V : aligned N n Q T ->
  (forall d, (d < n)%nat -> 0 <= (f d (local_at N Q U d) - f d (local_at N Q V d)) * (local_at N Q U d - local_at N Q V d)) ->
  (forall X i, (X = U \/ X = V) -> F X i = rsum n (fun d => T i d * f d (local_at N Q X d))) -> 0 <= rsum N (fun i => (U i - V i) * (F U i - F V i)).
Proof.
  intros A Hf HF. rewrite (rsum_ext N _ (fun i => (U i - V i) * rsum n (fun d => T i d * (f d (local_at N Q U d) - f d (local_at N Q V d))))).
  - rewrite (aligned_work N n Q T (fun i => U i - V i) _ A). apply rsum_nonneg. intros d Hd. rewrite matvec_minus. apply Hf, Hd.
  - intros i Hi. rewrite (HF U i), (HF V i) by auto. rewrite <- rsum_minus. f_equal. apply rsum_ext. intros d Hd. ring.
Qed.

Lemma law_work_rising N n (Q T : mat) (f : nat -> R -> R) (F : vec -> vec) U V : aligned N n Q T -> (forall d, (d < n)%nat -> rising (f d)) ->
  (forall X i, (X = U \/ X = V) -> F X i = rsum n (fun d => T i d * f d (local_at N Q X d))) -> 0 <= rsum N (fun i => (U i - V i) * (F U i - F V i)).
Proof. intros A Hf. apply law_work; [exact A|]. intros d Hd. apply rising_product, Hf, Hd. Qed.

Lemma force_after_rising phi us : 0 <= phi -> rising (fun u => force_after 1 phi (us ++ [u])).
Proof. intros H u v L. rewrite !force_after_snoc. unfold Slider.clamp. apply Rle_max_compat_l, Rle_min_compat_l. lra. Qed.

Lemma unloading_mono E Re dm Fm x y : 0 < E -> 0 < Re -> 0 < dm -> 0 < Fm -> x <= y -> unloading E Re dm Fm x <= unloading E Re dm Fm y.
Proof.
  intros HE HR Hd HF L. unfold unloading. cbv zeta. pose proof (hertz_pos E Re dm HE HR Hd) as HH. set (b := permanent E Re dm Fm).
  assert (D : 0 < dm - b). { unfold b, permanent. replace (dm - dm * (1 - Fm / hertz E Re dm)) with (dm * (Fm / hertz E Re dm)) by ring. apply Rmult_lt_0_compat; [exact Hd|]. apply Rdiv_lt_0_compat; assumption. }
  assert (I : 0 < / (dm - b)) by (apply Rinv_0_lt_compat; exact D).
  destruct (Rlt_dec b x), (Rlt_dec b y); try lra.
  - apply Rmult_le_compat_l; [lra|]. assert (P : (x - b) / (dm - b) <= (y - b) / (dm - b)) by (apply Rmult_le_compat_r; lra).
    assert (P0 : 0 <= (x - b) / (dm - b)) by (apply Rmult_le_pos; lra). apply Rmult_le_compat; [exact P0|apply sqrt_pos|exact P|apply sqrt_le_1_alt; exact P].
  - assert (P0 : 0 <= (y - b) / (dm - b)) by (apply Rmult_le_pos; lra). apply Rmult_le_pos; [lra|]. apply Rmult_le_pos; [exact P0|apply sqrt_pos].
Qed.

Lemma asperity_rising s g mvs x y : physical s -> 0 <= g -> let M := memory_after s g mvs in
  (x <= mem_d M \/ (mem_d M < yield_limit s /\ x < yield_limit s)) -> (y <= mem_d M \/ (mem_d M < yield_limit s /\ y < yield_limit s)) -> x <= y ->
  asperity_force s (mem_d M) (mem_F M) x <= asperity_force s (mem_d M) (mem_F M) y.
Proof.
  intros Hs Hg M Hx Hy L. destruct (Rlt_dec (mem_d M) (yield_limit s)) as [C|C].
  - destruct (memory_elastic s g Hs Hg mvs x C) as (_ & Ex & _). destruct (memory_elastic s g Hs Hg mvs y C) as (_ & Ey & _). fold M in Ex, Ey. rewrite Ex, Ey by lra.
    apply hertz_mono; [apply effective_pos; exact Hs|apply Hs|exact L].
  - assert (Hx' : x <= mem_d M) by lra. assert (Hy' : y <= mem_d M) by lra. unfold asperity_force. pose proof (Rmax_l (mem_d M) x). pose proof (Rmax_l (mem_d M) y). pose proof (Rmax_l (mem_d M) (yield_limit s)).
    destruct (Rlt_dec (Rmax (mem_d M) x) _); [lra|]. destruct (Rlt_dec (Rmax (mem_d M) y) _); [lra|]. destruct (Rlt_dec _ x); [lra|]. destruct (Rlt_dec _ y); [lra|].
    destruct (Rlt_dec 0 (Rmin (mem_d M) (mem_F M))) as [P|P]; [|lra]. pose proof (Rmin_l (mem_d M) (mem_F M)). pose proof (Rmin_r (mem_d M) (mem_F M)).
    apply unloading_mono; try lra; [apply effective_pos; exact Hs|apply Hs].
Qed.

Lemma no_friction (real : bool) mu : real = false \/ mu = 0 -> friction_in_force real mu = 0.
Proof. intros [->| ->]; [reflexivity|destruct real; reflexivity]. Qed.

Lemma clamp_none x y : x = 0 -> Slider.clamp (- x) x y = 0.
Proof. intros ->. unfold Slider.clamp, Rmax, Rmin. repeat destruct (Rle_dec _ _); lra. Qed.

Lemma element_work N b real l e law U V : has_law N b e law -> resisting_law N real e -> no_yielding N l U e -> no_yielding N l V e ->
  0 <= rsum N (fun i => (U i - V i) * (law l real U i - law l real V i)).
Proof.
  intros H HR YU YV. destruct H as [f F J HF|Q T s Fs H0 H1 H2 H3|Q T s H1|p n Q T s kt kn mu gap H0 H1 H2 H3 H4 H5|Q T r s sol H0 H1 H2 H3 H4 H5].
  - destruct (element_separable N (ElInstant f) HR) as (n & Q & T & g & g' & Hs). destruct (work_nonneg N _ n Q T g g' U V Hs) as (F1 & J1 & F2 & J2 & E1 & E2 & W).
    cbn [element_force] in E1, E2. rewrite HF in E1, E2. cbn [bind] in E1, E2. inversion E1. inversion E2. subst F1 F2. exact W.
  - destruct HR as [A Hk]. apply (law_work_rising N 1 Q T (fun _ u => snd (slide (j_kt s) (slide_all (j_kt s) (map (fun l => (friction_in_force (fst l) Fs, local_at N Q (snd l) O)) l)) (friction_in_force real Fs, u)))).
    + exact A.
    + intros d Hd u v L. unfold slide. cbn [fst snd]. unfold Slider.clamp. apply Rle_max_compat_l, Rle_min_compat_l. nra.
    + intros X i _. unfold jenkins_static. rewrite map_app. cbn [map rsum fst snd]. rewrite slide_snoc, Rplus_0_l. reflexivity.
  - destruct HR as [A Hw]. apply (law_work_rising N 1 Q T (fun _ u => bank_after (iw_n s) (iw_w s) (iw_phi s) (map (fun l => local_at N Q (snd l) O) l ++ [u]))).
    + exact A.
    + intros d Hd u v L. apply rsum_le. intros i Hi. apply Rmult_le_compat_l; [apply Hw, Hi|]. apply force_after_rising; [apply H1, Hi|exact L].
    + intros X i _. unfold iwan_static. cbn [rsum]. ring.
  - destruct HR as [A Hm]. rewrite H4 in Hm. pose proof (no_friction real mu Hm) as Hf.
    apply (law_work_rising N (p * n) Q T (fun d u => if Nat.eqb d (normal_dof p d) then contact_force kn gap u else 0)).
    + exact A.
    + intros d Hd. destruct (Nat.eqb _ _); [apply rising_contact; exact H1|intros u v _; lra].
    + intros X i _. unfold eldry_static. apply rsum_ext. intros d Hd. f_equal. unfold contact_history. destruct (Nat.eqb_spec d (normal_dof p d)) as [E|_]; [rewrite <- E; reflexivity|].
      unfold friction_law. cbn [slider]. rewrite Hf. apply clamp_none. ring.
  - destruct HR as (A & Hm & Hw). pose proof (no_friction real (r_mu r) Hm) as Hf.
    set (M := fun a => memory_after sol (r_meso r + r_gaps r a) (map (fun l => (friction_in_force (fst l) (r_mu r), local_at N Q (snd l))) l)).
    apply (law_work N 3 Q T (fun d u => if Nat.ltb d 2 then 0 else rsum (r_n r) (fun a => r_weights r a * asperity_force sol (mem_d (M a)) (mem_F (M a)) (u - (r_meso r + r_gaps r a))))).
    + exact A.
    + intros d Hd. destruct (Nat.ltb_spec d 2); [lra|]. assert (d = 2)%nat by lia. subst d. rewrite <- rsum_minus, <- rsum_scal_r. apply rsum_nonneg. intros a Ha. cbv beta.
      pose proof (YU sol H0 H1 a Ha) as PU. pose proof (YV sol H0 H1 a Ha) as PV. cbv zeta in PU, PV. change (memory_after sol _ _) with (M a) in PU, PV.
      specialize (H2 a Ha). specialize (Hw a Ha). destruct (Rle_dec (local_at N Q U 2) (local_at N Q V 2)) as [L|L].
      * pose proof (asperity_rising sol _ (map (fun l => (friction_in_force (fst l) (r_mu r), local_at N Q (snd l))) l) _ _ H0 H2 PU PV ltac:(lra)) as I. change (memory_after sol _ _) with (M a) in I.
        set (x := asperity_force sol _ _ (local_at N Q U 2 - _)) in *. set (y := asperity_force sol _ _ (local_at N Q V 2 - _)) in *. clearbody x y. assert (0 <= r_weights r a * (y - x)) by (apply Rmult_le_pos; lra). nra.
      * pose proof (asperity_rising sol _ (map (fun l => (friction_in_force (fst l) (r_mu r), local_at N Q (snd l))) l) _ _ H0 H2 PV PU ltac:(lra)) as I. change (memory_after sol _ _) with (M a) in I.
        set (x := asperity_force sol _ _ (local_at N Q U 2 - _)) in *. set (y := asperity_force sol _ _ (local_at N Q V 2 - _)) in *. clearbody x y. assert (0 <= r_weights r a * (x - y)) by (apply Rmult_le_pos; lra). nra.
    + intros X i _. unfold rough_static. apply rsum_ext. intros d Hd. f_equal. destruct (Nat.ltb_spec d 2).
      * apply rsum_zero. intros a Ha. unfold asperity_friction. rewrite Hf, clamp_none; ring.
      * assert (d = 2)%nat by lia. subst d. reflexivity.
Qed.

Lemma total_work N b real l U V : forall els laws, Forall2 (has_law N b) els laws -> (forall e, In e els -> resisting_law N real e /\ no_yielding N l U e /\ no_yielding N l V e) ->
  0 <= rsum N (fun i => (U i - V i) * (total_static laws l real U i - total_static laws l real V i)).
Proof.
  intros els laws H. induction H as [|e law els laws He H IH]; intros Hc; [right; symmetry; apply rsum_zero; intros; cbn; ring|].
  destruct (Hc e (or_introl eq_refl)) as (A & B & C). pose proof (element_work N b real l e law U V He A B C) as W. specialize (IH (fun e' He' => Hc e' (or_intror He'))).
  rewrite (rsum_ext N _ (fun i => (U i - V i) * (law l real U i - law l real V i) + (U i - V i) * (total_static laws l real U i - total_static laws l real V i))) by (intros i Hi; unfold total_static; cbn [fold_right]; ring).
  rewrite rsum_plus. lra.
Qed.

Lemma distance_bound N m K (F : vec -> vec) U V (Fu Fv R S : vec) : stiffness_at_least N m K -> 0 <= rsum N (fun i => (U i - V i) * (F U i - F V i)) ->
  (forall i, R i = rsum N (fun j => K i j * U j) + F U i - Fu i) -> (forall i, S i = rsum N (fun j => K i j * V j) + F V i - Fv i) ->
  m * m * length2 N (fun i => U i - V i) <= length2 N (fun i => R i + Fu i - (S i + Fv i)) /\
  ((forall i, (i < N)%nat -> R i = 0 /\ S i = 0 /\ Fu i = Fv i) -> forall i, (i < N)%nat -> U i = V i).
Proof.
  intros [Hm HK] W VR VS. destruct (work_distance N m U V (fun i => R i + Fu i) (fun i => S i + Fv i) Hm) as [D E].
  - eapply Rle_trans; [apply HK|]. rewrite (rsum_ext N (fun i => (U i - V i) * (R i + Fu i - (S i + Fv i))) (fun i => (U i - V i) * rsum N (fun j => K i j * (U j - V j)) + (U i - V i) * (F U i - F V i))).
    + rewrite rsum_plus. lra.
    + intros i Hi. pose proof (matvec_minus N K U V i) as M. unfold matvec in M. rewrite VR, VS, M. ring.
  - split; [exact D|]. intros Z. apply E. intros i Hi. destruct (Z i Hi) as (Z1 & Z2 & Z3). rewrite Z1, Z2, Z3. ring.
Qed.

Lemma history_distance N m K els laws real cs U V Fu Fv : stiffness_at_least N m K -> Forall2 (has_law N real) els laws -> switchable els cs ->
  let st := after_calls real cs in (forall e, In e els -> resisting_law N (fst st) e /\ no_yielding N (snd st) U e /\ no_yielding N (snd st) V e) ->
  exists els' R JR S JS, sys_run N els (SInit :: cs) = (els', []) /\ sys_static_res N K els' U Fu = Ok (Some R, JR) /\ sys_static_res N K els' V Fv = Ok (Some S, JS) /\
    m * m * length2 N (fun i => U i - V i) <= length2 N (fun i => R i + Fu i - (S i + Fv i)) /\
    ((forall i, (i < N)%nat -> R i = 0 /\ S i = 0 /\ Fu i = Fv i) -> forall i, (i < N)%nat -> U i = V i).
Proof.
  intros HK H Hs st Hc. destruct (static_after_history N K els laws real cs U Fu H Hs) as (els' & R & JR & E & ER & VR). destruct (static_after_history N K els laws real cs V Fv H Hs) as (els2 & S & JS & E' & ES & VS).
  rewrite E in E'. inversion E'. subst els2. cbv zeta in VR, VS. fold st in VR, VS. exists els', R, JR, S, JS. split; [exact E|]. split; [exact ER|]. split; [exact ES|].
  pose proof (total_work N real (fst st) (snd st) U V els laws H Hc) as W. apply (distance_bound N m K (total_static laws (snd st) (fst st)) U V Fu Fv R S HK W VR VS).
Qed.
