(** Prestress workflow and repeated evaluation of whole systems. *)
From Coq Require Import Reals Lra Lia Arith List Bool.
From Verif.Lib Require Import RSum Py.
From Verif.Spec Require Import System Slider Rough StaticHistory SystemCalls.
From Verif.Model Require Import Harmonic VibSys Jenkins Iwan JaxDual JaxFloat JaxFriction RoughContact SysHistory.
From Verif.Proofs Require Import SliderP JenkinsP HysteresisP IwanP IwanOpsP EldryP EldryStaticP JaxFloatP RoughNormalP RoughStaticP RoughCallsP RoughCasesP SysHistoryP.
Import ListNotations.
Open Scope R_scope.

Lemma clamp_zero_width x y : y = 0 -> clamp (- y) y x = 0.
Proof. intros ->. pose proof (clamp_range (-0) 0 x ltac:(lra)). lra. Qed.
Lemma clamp_stays y : 0 <= y -> clamp (- y) y 0 = 0.
Proof. intros H. apply clamp_id. lra. Qed.

(** the normal force of an asperity does not change when its load is remembered *)
Lemma remembered_force sol g mvs mv : physical sol -> 0 <= g ->
  let M := memory_after sol g mvs in let x := snd mv 2%nat - g in
  (x <= mem_d M \/ x < yield_limit sol \/ mem_F M <= asperity_force sol (mem_d M) (mem_F M) x) ->
  let M' := memory_after sol g (mvs ++ [mv]) in
  asperity_force sol (mem_d M') (mem_F M') x = asperity_force sol (mem_d M) (mem_F M) x.
Proof.
  intros Hs Hg M x H M'.
  assert (E : M' = remember sol g M mv) by apply memory_snoc.
  destruct (Rle_lt_dec x (mem_d M)) as [Hx|Hx].
  - pose proof (memory_below sol g Hs Hg mvs x Hx) as B. fold M in B. rewrite E. cbn [remember mem_d mem_F]. fold x. rewrite (Rmax_left (mem_d M) x) by exact Hx. rewrite (Rmax_left (mem_F M)) by exact B. reflexivity.
  - assert (B : mem_F M <= asperity_force sol (mem_d M) (mem_F M) x).
    { destruct H as [H|[H|H]]; [lra| |exact H]. destruct (memory_elastic sol g Hs Hg mvs x ltac:(fold M; lra)) as (A1 & A2 & _). fold M in A1, A2. rewrite A2 by exact H. rewrite A1 at 1.
      apply hertz_mono; [apply effective_pos; exact Hs|destruct Hs as (? & ? & ? & _); assumption|lra]. }
    pose proof (memory_at_max sol g Hs Hg (mvs ++ [mv])) as A. cbv zeta in A. fold M' in A.
    assert (D : mem_d M' = x) by (rewrite E; cbn [remember mem_d]; fold x; apply Rmax_right; lra).
    assert (F : mem_F M' = asperity_force sol (mem_d M) (mem_F M) x) by (rewrite E; cbn [remember mem_F]; fold x; apply Rmax_right; exact B).
    rewrite D in A. rewrite D. rewrite A. exact F.
Qed.

Lemma remembered_friction sol g mvs mu mu' u d : physical sol -> 0 <= g ->
  let M := memory_after sol g mvs in let x := u 2%nat - g in
  (x <= mem_d M \/ x < yield_limit sol \/ mem_F M <= asperity_force sol (mem_d M) (mem_F M) x) ->
  let M' := memory_after sol g (mvs ++ [(mu, u)]) in
  let lim := mu' * asperity_force sol (mem_d M) (mem_F M) x in
  asperity_friction sol mu' (mem_d M') (mem_F M') x (u d - mem_u M' d) (mem_f M' d)
  = clamp (- lim) lim (asperity_friction sol mu (mem_d M) (mem_F M) x (u d - mem_u M d) (mem_f M d)).
Proof.
  intros Hs Hg M x H M' lim. pose proof (remembered_force sol g mvs (mu, u) Hs Hg H) as RF. cbv zeta in RF. cbn [snd] in RF. fold M M' x in RF.
  unfold asperity_friction at 1. rewrite RF. fold lim. f_equal.
  assert (E : M' = remember sol g M (mu, u)) by apply memory_snoc.
  assert (U : mem_u M' d = u d) by (rewrite E; reflexivity). rewrite U, Rminus_eq_0, Rmult_0_r, Rplus_0_r. rewrite E. reflexivity.
Qed.

Lemma law_repeat N b0 e law loads b X : has_law N b0 e law -> is_eldry e = false -> settled N loads X e -> forall i, law (loads ++ [(b, X)]) b X i = law loads b X i.
Proof.
  intros H He Hs i. destruct H as [f F J HF|Q T s Fs H0 H1 H2 H3|Q T s H|p ne Q T s kt kn mu gap H0 H1 H2 H3 H4 H5|Q T r s sol H0 H1 H2 H3 H4 H5]; cbn [is_eldry] in He; try discriminate He.
  - reflexivity.
  - unfold jenkins_static. f_equal. rewrite !map_app. cbn [map fst snd]. rewrite slide_snoc. rewrite slide_snoc. unfold slide. cbn [fst snd].
    rewrite Rminus_eq_0, Rmult_0_r, Rplus_0_r. apply clamp_idem. pose proof (in_force_range b Fs H0). lra.
  - unfold iwan_static. f_equal. rewrite map_app. cbn [map snd]. unfold bank_after. apply rsum_ext. intros a Ha. f_equal.
    rewrite force_after_snoc. rewrite last_last, Rminus_eq_0, Rmult_0_r, Rplus_0_l. rewrite !force_after_snoc. apply clamp_idem. specialize (H a Ha). lra.
  - unfold rough_static. apply rsum_ext. intros d Hd. f_equal. apply rsum_ext. intros a Ha. f_equal. cbn [settled] in Hs. specialize (Hs sol H0 H1 a Ha). cbv zeta in Hs.
    rewrite map_app. cbn [map fst snd]. destruct (Nat.ltb_spec d 2).
    + rewrite (remembered_friction sol _ _ _ _ (local_at N Q X) d H0 (H2 a Ha) Hs). unfold asperity_friction. apply clamp_idem.
      match goal with |- - ?y <= _ => assert (0 <= y); [|lra] end. apply Rmult_le_pos; [apply in_force_range; exact H3|]. apply memory_nonneg; auto.
    + exact (remembered_force sol _ _ (friction_in_force b (r_mu r), local_at N Q X) H0 (H2 a Ha) Hs).
Qed.

Lemma law_prestress N b0 e law loads X : has_law N b0 e law -> is_iwan e = false -> settled N loads X e -> forall i, law (loads ++ [(false, X)]) true X i = law loads false X i.
Proof.
  intros H He Hs i. destruct H as [f F J HF|Q T s Fs H0 H1 H2 H3|Q T s H|p ne Q T s kt kn mu gap H0 H1 H2 H3 H4 H5|Q T r s sol H0 H1 H2 H3 H4 H5]; cbn [is_iwan] in He; try discriminate He.
  - reflexivity.
  - unfold jenkins_static. f_equal. rewrite !map_app. cbn [map fst snd]. rewrite !slide_snoc. unfold slide. cbn [fst snd friction_in_force].
    rewrite Rminus_eq_0, Rmult_0_r, Rplus_0_r. rewrite !(clamp_zero_width _ 0) by reflexivity. apply clamp_stays. exact H0.
  - unfold eldry_static. apply rsum_ext. intros d Hd. f_equal. rewrite last_map_snoc. cbn [snd]. unfold contact_history. destruct (Nat.eqb d (normal_dof p d)); [reflexivity|].
    unfold friction_law. cbn [slider friction_in_force]. rewrite Rminus_eq_0, Rmult_0_r. rewrite (clamp_zero_width _ (0 * _)) by ring. apply clamp_stays. apply Rmult_le_pos; [exact H2|apply contact_nonneg; exact H1].
  - unfold rough_static. apply rsum_ext. intros d Hd. f_equal. apply rsum_ext. intros a Ha. f_equal. cbn [settled] in Hs. specialize (Hs sol H0 H1 a Ha). cbv zeta in Hs.
    rewrite map_app. cbn [map fst snd]. destruct (Nat.ltb_spec d 2).
    + rewrite (remembered_friction sol _ _ _ _ (local_at N Q X) d H0 (H2 a Ha) Hs). unfold asperity_friction. cbn [friction_in_force]. rewrite (clamp_zero_width _ (0 * _)) by ring. apply clamp_stays.
      apply Rmult_le_pos; [exact H3|]. apply memory_nonneg; auto.
    + exact (remembered_force sol _ _ (friction_in_force false (r_mu r), local_at N Q X) H0 (H2 a Ha) Hs).
Qed.

Lemma total_ext (R : element -> Prop) N b0 els laws l b l' b' X i : Forall2 (has_law N b0) els laws -> (forall e, In e els -> R e) ->
  (forall e law, has_law N b0 e law -> R e -> law l b X i = law l' b' X i) -> total_static laws l b X i = total_static laws l' b' X i.
Proof.
  intros H HR Hl. induction H as [|e law els laws He H IH]; [reflexivity|]. cbn [total_static fold_right]. rewrite (Hl e law He (HR e (or_introl eq_refl))). f_equal. apply IH. intros x Hx. apply HR. right. exact Hx.
Qed.

Lemma run_snocs real cs more : after_calls real (cs ++ more) = fold_left after_call more (after_calls real cs).
Proof. unfold after_calls. apply fold_left_app. Qed.

(** updating the history at X and evaluating again at X *)
Lemma update_keeps N K els laws real cs X Fstatic : Forall2 (has_law N real) els laws -> switchable els cs -> (forall e, In e els -> is_eldry e = false) ->
  (forall e, In e els -> settled N (snd (after_calls real cs)) X e) ->
  exists els1 R1 J1 els2 R2 J2, sys_run N els (SInit :: cs) = (els1, []) /\ sys_static_res N K els1 X Fstatic = Ok (Some R1, J1) /\
    sys_run N els (SInit :: cs ++ [SUpdate X]) = (els2, []) /\ sys_static_res N K els2 X Fstatic = Ok (Some R2, J2) /\ forall i, R2 i = R1 i.
Proof.
  intros H Hs He Hset. destruct (static_after_history N K els laws real cs X Fstatic H Hs) as (els1 & R1 & J1 & A1 & A2 & A3).
  destruct (static_after_history N K els laws real (cs ++ [SUpdate X]) X Fstatic H) as (els2 & R2 & J2 & B1 & B2 & B3).
  { intros Hin. apply Hs. apply in_app_iff in Hin. destruct Hin as [|[|[]]]; [assumption|discriminate]. }
  exists els1, R1, J1, els2, R2, J2. repeat (split; [assumption|]). intros i. rewrite A3, B3. cbv zeta. rewrite run_snocs. destruct (after_calls real cs) as [b l]. cbn [fold_left after_call fst snd] in *.
  f_equal. f_equal. apply (total_ext (fun e => is_eldry e = false /\ settled N l X e) N real els laws _ _ _ _ X i H).
  - intros e Hin. split; auto.
  - intros e law Hl [H1 H2]. apply (law_repeat N real e law l b X Hl H1 H2).
Qed.

(** static solution without friction, stored, and friction switched on: the residual does not change *)
Lemma workflow_keeps N K els laws real cs X Fstatic : Forall2 (has_law N real) els laws -> (forall e, In e els -> is_iwan e = false) ->
  (forall e, In e els -> settled N (snd (after_calls real cs)) X e) ->
  exists els1 R1 J1 els2 R2 J2, sys_run N els (SInit :: cs ++ [SPrestress]) = (els1, []) /\ sys_static_res N K els1 X Fstatic = Ok (Some R1, J1) /\
    sys_run N els (SInit :: cs ++ [SPrestress; SUpdate X; SAftInit X; SReset]) = (els2, []) /\ sys_static_res N K els2 X Fstatic = Ok (Some R2, J2) /\ forall i, R2 i = R1 i.
Proof.
  intros H He Hset. destruct (static_after_history N K els laws real (cs ++ [SPrestress]) X Fstatic H) as (els1 & R1 & J1 & A1 & A2 & A3); [intros _; exact He|].
  destruct (static_after_history N K els laws real (cs ++ [SPrestress; SUpdate X; SAftInit X; SReset]) X Fstatic H) as (els2 & R2 & J2 & B1 & B2 & B3); [intros _; exact He|].
  exists els1, R1, J1, els2, R2, J2. repeat (split; [assumption|]). intros i. rewrite A3, B3. cbv zeta. rewrite !run_snocs. destruct (after_calls real cs) as [b l]. cbn [fold_left after_call fst snd] in *.
  f_equal. f_equal. apply (total_ext (fun e => is_iwan e = false /\ settled N l X e) N real els laws _ _ _ _ X i H).
  - intros e Hin. split; auto.
  - intros e law Hl [H1 H2]. apply (law_prestress N real e law l X Hl H1 H2).
Qed.

(** ---- stiffness after the workflow ---- *)
Lemma seed_pick m T Q (k : vec) i j : matmul m (matmul m T (fun c c' => k c * (if Nat.eqb c' c then 1 else 0))) Q i j = rsum m (fun d => T i d * k d * Q d j).
Proof.
  unfold matmul. rewrite (rsum_ext m _ (fun c' => rsum m (fun c => T i c * k c * (if Nat.eqb c' c then 1 else 0) * Q c' j))).
  2:{ intros c' Hc'. rewrite <- rsum_scal_r. apply rsum_ext. intros c Hc. ring. }
  rewrite rsum_swap. apply rsum_ext. intros c Hc. rewrite (rsum_single m c); [|exact Hc|intros c' _ Hn; destruct (Nat.eqb_spec c' c); [contradiction|ring]]. rewrite Nat.eqb_refl. ring.
Qed.

Lemma static_stuck p P (u : vec) fp c c' : (0 < p)%nat -> 0 < ep_kn P -> 0 < ep_mu P -> u (normal_dof p c) <> ep_gap P ->
  dt (ed_static p P (dseed u) u fp c) c'
  = (if Rlt_dec (ep_gap P) (u (normal_dof p c)) then if Nat.eqb c (normal_dof p c) then ep_kn P else ep_kt P else 0) * (if Nat.eqb c' c then 1 else 0).
Proof.
  intros Hp Hkn Hmu Hg. unfold ed_static. rewrite <- (is_normal_spec p c Hp). change (normal_col p c) with (normal_dof p c).
  set (un := u (normal_dof p c)) in *.
  set (fn := fun c => dmax (dscal (ep_kn P) (dsub (dseed u c) (dconst (ep_gap P)))) (dconst 0)).
  assert (Open : un < ep_gap P -> fn (normal_dof p c) = dconst 0).
  { intros H. unfold fn, dmax. cbn [dv dscal dsub dseed dconst]. fold un. rewrite (proj2 (Rltb_false _ _)) by nra. rewrite (proj2 (Rltb_true _ _)) by nra. reflexivity. }
  assert (Shut : ep_gap P < un -> fn (normal_dof p c) = dscal (ep_kn P) (dsub (dseed u (normal_dof p c)) (dconst (ep_gap P)))).
  { intros H. unfold fn, dmax. cbn [dv dscal dsub dseed dconst]. fold un. rewrite (proj2 (Rltb_true _ _)) by nra. reflexivity. }
  destruct (is_normal p c) eqn:En.
  - pose proof En as En'. rewrite is_normal_spec in En' by exact Hp. apply Nat.eqb_eq in En'. change (dmax (dscal (ep_kn P) (dsub (dseed u c) (dconst (ep_gap P)))) (dconst 0)) with (fn c). rewrite En' at 1.
    destruct (Rlt_dec (ep_gap P) un) as [H|H]; [rewrite (Shut H), <- En'; cbn [dt dscal dsub dseed dconst]; ring|rewrite Open by lra; cbn [dt dconst]; ring].
  - cbv zeta. fold (fn (normal_dof p c)). destruct (Rlt_dec (ep_gap P) un) as [H|H].
    + rewrite (Shut H). cbn [dv dscal dsub dseed dconst]. fold un. rewrite Rminus_eq_0, Rmult_0_r.
      assert (0 < ep_mu P * (ep_kn P * (un - ep_gap P))) by (apply Rmult_lt_0_compat; [exact Hmu|apply Rmult_lt_0_compat; lra]).
      rewrite (proj2 (Rltb_true 0 _)) by assumption. cbn [dwhere dv dscal dsub dseed dconst]. rewrite Rminus_eq_0, Rmult_0_r. rewrite (proj2 (Rltb_true _ 0)) by lra. cbn [dwhere dt dscal dsub dseed dconst]. ring.
    + rewrite Open by lra. cbn [dv dscal dsub dseed dconst]. rewrite Rminus_eq_0, !Rmult_0_r. rewrite (proj2 (Rltb_false 0 0)) by lra. cbn [dwhere dv dscal dconst]. rewrite !Rmult_0_r. rewrite (proj2 (Rltb_false 0 0)) by lra. cbn [dwhere dt dscal dconst]. ring.
Qed.

Lemma tracked_stuck N l e law X : tracked N (true, l ++ [(false, X)]) e law -> can_stick N X e ->
  exists F J, element_force N e X false = Ok (e, (F, Some J)) /\ forall i j, J i j = stuck_stiffness N X e i j.
Proof.
  intros H C. inversion H as [f F J HF E1 E2|Q T s kt Fs H0 H1 H2 H3 H4 H5 E1 E2|Q T s n w phi H1 H2 H3 H4 H5 E1 E2|p ne Q T s kt kn mu gap H0 H1 H2 H3 H4 H5 H6 E1 E2|Q T r s sol H0 H1 H2 H3 H4 H5 H6 E1 E2]; subst e law; cbn [fst snd can_stick] in *; try contradiction.
  - cbn [element_force stuck_stiffness]. rewrite HF. cbn [bind]. do 2 eexists. split; [reflexivity|]. reflexivity.
  - cbn [element_force]. unfold j_force. rewrite map_app in H5. cbn [map fst snd friction_in_force] in H5. rewrite slide_snoc in H5. unfold slide in H5. cbn [fst snd] in H5. rewrite (clamp_zero_width _ 0) in H5 by reflexivity. rewrite H5.
    unfold j_law. change (local_at N Q X 0) with (matvec N Q X 0%nat). rewrite Rminus_eq_0, Rmult_0_r, Rplus_0_r, Rabs_R0. rewrite (proj2 (Rltb_false _ 0)) by (rewrite H4; exact H0).
    cbn [bind fst snd]. do 2 eexists. split; [reflexivity|]. cbn [stuck_stiffness]. reflexivity.
  - destruct C as (C1 & C2 & C3). cbn [element_force ed_force]. do 2 eexists. split; [reflexivity|]. intros i j. cbn [stuck_stiffness].
    set (k := fun d : nat => if Rlt_dec (ep_gap (ed_pars s)) (local_at N Q X (normal_dof p d)) then if Nat.eqb d (normal_dof p d) then ep_kn (ed_pars s) else ep_kt (ed_pars s) else 0).
    change (matmul (p * ne) (matmul (p * ne) T (fun c c' : nat => dt (ed_static p (ed_pars s) (dseed (matvec N Q X)) (ed_up s) (ed_fp s) c) c')) Q i j = rsum (p * ne) (fun d => T i d * k d * Q d j)). rewrite <- seed_pick. unfold matmul. apply rsum_ext. intros c' Hc'. f_equal. apply rsum_ext. intros c Hc. f_equal.
    assert (Eu : forall d, ed_up s d = matvec N Q X d) by (intros d; rewrite H6, last_map_snoc; reflexivity).
    assert (Es : ed_static p (ed_pars s) (dseed (matvec N Q X)) (ed_up s) (ed_fp s) c = ed_static p (ed_pars s) (dseed (matvec N Q X)) (matvec N Q X) (ed_fp s) c) by (unfold ed_static; rewrite Eu; reflexivity).
    rewrite Es. apply static_stuck; [exact H0|exact C1|rewrite H3; cbn [ep_mu friction_in_force]; lra|exact (C3 c Hc)].
Qed.

Lemma loop_stuck N l X : forall els laws, Forall2 (tracked N (true, l ++ [(false, X)])) els laws -> (forall e, In e els -> can_stick N X e) -> forall (F0 : vec) (J0 : mat),
  exists F J, element_loop N els X (Some F0) (Some J0) = Ok (Some F, Some J) /\ (forall i, F i = F0 i + total_static laws (l ++ [(false, X)]) true X i) /\
    forall i j, J i j = J0 i j + fold_right (fun e acc => stuck_stiffness N X e i j + acc) 0 els.
Proof.
  intros els laws H. induction H as [|e law els laws He H IH]; intros Hc F0 J0; cbn [element_loop total_static fold_right].
  - exists F0, J0. repeat split; intros; ring.
  - destruct (tracked_force N true (l ++ [(false, X)]) e law X false He ltac:(discriminate)) as (e' & F & J & E & Hv & _).
    destruct (tracked_stuck N l e law X He (Hc e (or_introl eq_refl))) as (F' & J' & E' & HJ). rewrite E' in E. injection E as <- -> <-. rewrite E'. cbn [bind fst snd oadd omadd].
    destruct (IH (fun x Hx => Hc x (or_intror Hx)) (vadd F0 F) (madd J0 J')) as (F2 & J2 & -> & HF2 & HJ2). exists F2, J2. split; [reflexivity|]. split.
    + intros i. rewrite HF2. unfold vadd. rewrite Hv. unfold total_static. ring.
    + intros i j. rewrite HJ2. unfold madd. rewrite HJ. ring.
Qed.

(** parameters that no call changes *)
Definition same_pars (e e' : element) : Prop :=
  match e, e' with
  | ElInstant f, ElInstant f' => f = f'
  | ElJenkins Q T s, ElJenkins Q' T' s' => Q = Q' /\ T = T' /\ j_kt s = j_kt s' /\ j_real_Fs s = j_real_Fs s'
  | ElEldry p ne Q T s, ElEldry p' ne' Q' T' s' => p = p' /\ ne = ne' /\ Q = Q' /\ T = T' /\ ep_kt (ed_pars s) = ep_kt (ed_pars s') /\ ep_kn (ed_pars s) = ep_kn (ed_pars s') /\
      ep_gap (ed_pars s) = ep_gap (ed_pars s') /\ ed_real_mu s = ed_real_mu s'
  | ElIwan _ _ _, ElIwan _ _ _ | ElRough _ _ _ _, ElRough _ _ _ _ | ElJaxJenkins _ _ _ _ _ _ _, ElJaxJenkins _ _ _ _ _ _ _ => True
  | _, _ => False
  end.
Lemma same_refl e : same_pars e e. Proof. destruct e; cbn; repeat split. Qed.
Lemma same_trans a b c : same_pars a b -> same_pars b c -> same_pars a c.
Proof. destruct a, b; cbn; try contradiction; destruct c; cbn; try contradiction; intuition congruence. Qed.
Lemma same_stuck N X a b : same_pars a b -> (can_stick N X a -> can_stick N X b) /\ forall i j, stuck_stiffness N X b i j = stuck_stiffness N X a i j.
Proof.
  destruct a, b; cbn; try contradiction; intros H.
  - subst. split; auto.
  - destruct H as (<- & <- & Hk & Hf). rewrite Hk, Hf. split; auto.
  - split; auto.
  - destruct H as (<- & <- & <- & <- & A & B & C & D). rewrite A, B, C, D. split; auto.
  - split; auto.
  - split; auto.
Qed.

Lemma el_init_same e e' : el_init e = Ok e' -> same_pars e e'.
Proof. destruct e; cbn; intros H; try discriminate; injection H as <-; cbn; repeat split. Qed.
Lemma force_same N e U upd e' r : element_force N e U upd = Ok (e', r) -> same_pars e e'.
Proof.
  destruct e; cbn [element_force]; intros H.
  - destruct upd; [discriminate|]. destruct (nl_force f U) as [[F J]|]; [|discriminate]. cbn [bind] in H. injection H as <- _. reflexivity.
  - unfold j_force in H. destruct (j_hist s) as [[up fp]|]; [|discriminate]. destruct (j_law _ _ _ _ _) as [[[f df] ?] ?]. cbn [bind] in H. injection H as <- _. destruct upd; cbn; repeat split.
  - destruct (iw_force s (matvec N Q U 0%nat) upd) as [s' [f k]]. injection H as <- _. exact I.
  - unfold ed_force in H. injection H as <- _. destruct upd; cbn; repeat split.
  - destruct (rough_force r0 N Q s U upd) as [s' res]. injection H as <- _. exact I.
  - destruct upd; [discriminate|]. injection H as <- _. exact I.
Qed.

Lemma exec_same N els c els' x : sys_exec N els c = (els', x) -> Forall2 same_pars els els'.
Proof.
  assert (Rf : forall l, Forall2 same_pars l l) by (induction l; constructor; [apply same_refl|assumption]).
  destruct c as [|U| | |U|U F]; cbn [sys_exec].
  - revert els' x. induction els as [|e els IH]; intros els' x H; cbn [init_force_history] in H; [injection H as <- _; constructor|].
    destruct (Nat.eqb (nl_force_type e) 1); [destruct (el_init e) eqn:Ei; [|injection H as <- _; apply Rf]|]; destruct (init_force_history els) as [l1 y]; injection H as <- _; (constructor; [|eapply IH; reflexivity]); [eapply el_init_same; exact Ei|apply same_refl].
  - revert els' x. induction els as [|e els IH]; intros els' x H; cbn [update_force_history] in H; [injection H as <- _; constructor|].
    destruct (Nat.eqb (nl_force_type e) 1); [destruct (element_force N e U true) as [[e1 r]|] eqn:Ei; [|injection H as <- _; apply Rf]|]; destruct (update_force_history N els U) as [l1 y]; injection H as <- _; (constructor; [|eapply IH; reflexivity]); [eapply force_same; exact Ei|apply same_refl].
  - revert els' x. induction els as [|e els IH]; intros els' x H; cbn [prestress_all] in H; [injection H as <- _; constructor|].
    destruct (el_prestress e) as [e1|] eqn:Ei; [|injection H as <- _; apply Rf]. destruct (prestress_all els) as [l1 y]. injection H as <- _. constructor; [|eapply IH; reflexivity].
    destruct e; cbn in Ei; try discriminate; injection Ei as <-; cbn; repeat split.
  - intros H. injection H as <- _. induction els as [|e els IH]; constructor; [|exact IH]. destruct e; cbn; repeat split.
  - intros H. injection H as <- _. induction els as [|e els IH]; constructor; [|exact IH]. destruct e; cbn; repeat split.
  - intros H. injection H as <- _. apply Rf.
Qed.
Lemma run_same N : forall cs els els' xs, sys_run N els cs = (els', xs) -> Forall2 same_pars els els'.
Proof.
  induction cs as [|c cs IH]; intros els els' xs H; cbn [sys_run] in H.
  - injection H as <- _. clear. induction els; constructor; [apply same_refl|assumption].
  - destruct (sys_exec N els c) as [l1 x] eqn:E1. destruct (sys_run N l1 cs) as [l2 ys] eqn:E2. injection H as <- _. apply exec_same in E1. apply IH in E2. clear - E1 E2. revert l2 E2. induction E1 as [|a b la lb Hab H IH]; intros l2 E2; inversion E2; subst; constructor; [eapply same_trans; eassumption|apply IH; assumption].
Qed.

Lemma workflow_stuck N K els laws real cs X Fstatic : Forall2 (has_law N real) els laws -> (forall e, In e els -> can_stick N X e) ->
  exists els' R J, sys_run N els (SInit :: cs ++ [SPrestress; SUpdate X; SAftInit X; SReset]) = (els', []) /\ sys_static_res N K els' X Fstatic = Ok (Some R, Some J) /\
    forall i j, J i j = K i j + fold_right (fun e acc => stuck_stiffness N X e i j + acc) 0 els.
Proof.
  intros H Hc. assert (Hi : forall e, In e els -> is_iwan e = false) by (intros e He; specialize (Hc e He); destruct e; [reflexivity|reflexivity|contradiction|reflexivity|reflexivity|reflexivity]).
  destruct (sys_run N els (SInit :: cs ++ [SPrestress; SUpdate X; SAftInit X; SReset])) as [els2 xs] eqn:Er. pose proof (run_same N _ _ _ _ Er) as Sm. cbn [sys_run sys_exec] in Er. destruct (init_all N real els laws H) as (els1 & E1 & T1 & I1). rewrite E1 in Er.
  destruct (run_tracked N (cs ++ [SPrestress; SUpdate X; SAftInit X; SReset]) els1 laws _ T1) as (els3 & E3 & T3 & _); [intros _; apply (iwan_flags els els1 I1 Hi)|].
  rewrite E3 in Er. injection Er as -> <-. fold (after_calls real (cs ++ [SPrestress; SUpdate X; SAftInit X; SReset])) in T3. rewrite run_snocs in T3. destruct (after_calls real cs) as [b l]. cbn [fold_left after_call fst snd] in T3.
  assert (Hc' : forall e, In e els2 -> can_stick N X e).
  { clear - Sm Hc. induction Sm as [|a c la lc Hab H IH]; [intros e []|]. intros e [<-|He]; [apply (proj1 (same_stuck N X a c Hab)); apply Hc; left; reflexivity|apply IH; [intros x Hx; apply Hc; right; exact Hx|exact He]]. }
  exists els2. unfold sys_static_res. destruct (loop_stuck N l X els2 laws T3 Hc' vzero mzero) as (F & J & -> & _ & HJ). cbn [bind]. do 2 eexists. split; [reflexivity|]. split; [reflexivity|]. intros i j. unfold madd. rewrite HJ. unfold mzero.
  assert (Z : forall la lb, Forall2 same_pars la lb -> fold_right (fun e acc => stuck_stiffness N X e i j + acc) 0 lb = fold_right (fun e acc => stuck_stiffness N X e i j + acc) 0 la).
  { clear. intros la lb H. induction H as [|a c la lc Hab H IH]; [reflexivity|]. cbn [fold_right]. rewrite IH. rewrite (proj2 (same_stuck N X a c Hab)). reflexivity. }
  rewrite (Z els els2 Sm). ring.
Qed.
