(** Elastic elements at rest, counterexamples and examples for vibrations around a static state. *)
From Coq Require Import Reals Lra Lia Arith List Bool FunctionalExtensionality.
From Verif.Lib Require Import RSum Calc Py.
From Verif.Spec Require Import Calculus Harmonic Elements System Slider Rough StaticHistory SystemCalls SysVibration.
From Verif.Model Require Import Harmonic LocalForces Aft VibSys SysElements Jenkins Iwan JaxDual JaxFloat JaxFriction RoughContact SysHistory SysHarmonic.
From Verif.Proofs Require Import HarmonicP FourierP HarmonicOpsP AftP ElementsP VibSysP SliderP JenkinsP JenkinsDerivP HystAftP EldryCasesP RoughNormalP RoughStaticP RoughCasesP SysHistoryP SysWorkflowP SysHistoryCaseP SysHarmonicP SysVibrationP.
Import ListNotations.
Open Scope R_scope.

Section Elastic.
  Variables (N : nat) (h : list nat) (Nt : nat).
  Hypothesis Ha : admissible h.
  Hypothesis H0 : In O h.
  Hypothesis HN : (2 * list_max h + 1 < Nt)%nat.
  Hypothesis Hev : Nat.even Nt = true.

  Lemma rest_velocity X U Q d tau : vibration_about N h X (fun _ => 0) U -> dseries h (fun c => aft_Unl N Q U c d) tau = 0.
  Proof.
    intros HU. eapply uniqueness_limite; [apply (local_motion_deriv N Q h U d tau)|].
    eapply dlim_ext; [intros t; symmetry; apply (rest_motion N h Nt Ha H0 HN X U Q d t HU)|]. apply derivable_pt_lim_const.
  Qed.

  Lemma inst_rests nnl Q T law X U w : vibration_about N h X (fun _ => 0) U ->
    exists F dU dw, aft_instantaneous N nnl Q T law U w h Nt = Ok (F, dU, dw) /\
      forall c i, (c < length (components h))%nat -> (i < N)%nat -> F (c * N + i)%nat = if Nat.eqb c 0 then rsum nnl (fun d => T i d * law_f law d (local_at N Q X d) 0) else 0.
  Proof.
    intros HU. destruct (aft_inst_value N nnl Q T law h Nt Ha HN Hev U w) as (F & dU & dw & E & EF & _). exists F, dU, dw. split; [exact E|].
    intros c i Hc Hi. rewrite EF by nia. unfold aft_global. destruct (divmod_block N c i Hi) as [-> ->]. unfold matvec.
    transitivity (rsum nnl (fun d => T i d * (if Nat.eqb c 0 then law_f law d (local_at N Q X d) 0 else 0))).
    - apply rsum_ext. intros d Hd. f_equal. unfold locF. rewrite <- (coef_const h Nt Ha H0 HN _ c Hc). apply coefc_ext. intros t Ht.
      rewrite lser_loc, ldser_loc by exact Hd. rewrite (rest_motion N h Nt Ha H0 HN X U Q d _ HU), (rest_velocity X U Q d _ HU), Rmult_0_r. reflexivity.
    - destruct (Nat.eqb c 0); [reflexivity|]. apply rsum_zero. intros; ring.
  Qed.

  Lemma inst_harmonic nnl Q T force law : (forall X i, (i < N)%nat -> fst (force X) i = rsum nnl (fun d => T i d * law_f law d (local_at N Q X d) 0)) ->
    static_is_harmonic N h Nt (instantaneous_nl N nnl Q T force law).
  Proof.
    intros Hf X U w HU. destruct (inst_rests nnl Q T law X U w HU) as (F & dU & dw & E & EF).
    exists (fst (force X)), (snd (force X)), F, dU, dw. cbn [nl_force nl_aft instantaneous_nl]. split; [destruct (force X); reflexivity|]. split; [exact E|]. split.
    - intros j Hj. rewrite Hf by exact Hj. exact (EF 0%nat j (nhc_some h Nt Ha H0 HN) Hj).
    - intros k Hk. destruct (block_form _ _ k (proj2 Hk)) as (c & i & Hc & Hi & ->). rewrite EF by assumption. destruct (Nat.eqb_spec c 0); [nia|reflexivity].
  Qed.

  Lemma elastic_harmonic nnl Q T : 
    (forall k, static_is_harmonic N h Nt (cubic_nl N nnl Q T k)) /\ (forall k, static_is_harmonic N h Nt (quintic_nl N nnl Q T k)) /\
    (forall k Np delta, static_is_harmonic N h Nt (unilateral_nl N nnl Q T k Np delta)) /\
    (forall kt Fs chi beta, static_is_harmonic N h Nt (iwan_nl N nnl Q T kt Fs chi beta)) /\
    (forall cnl E qq, static_is_harmonic N h Nt (poly_nl N nnl cnl Q T E qq)).
  Proof.
    split; [|split; [|split; [|split]]]; [intros; apply inst_harmonic; reflexivity|intros; apply inst_harmonic; reflexivity|intros; apply inst_harmonic; reflexivity|intros; apply inst_harmonic; reflexivity|intros cnl E qq].
    intros X U w HU. destruct (aft_poly N nnl Q T h Nt Ha HN Hev cnl E qq) as (F & dU & EA & EF & _).
    exists (fst (poly_force N nnl cnl Q T E qq X)), (snd (poly_force N nnl cnl Q T E qq X)), (F U), (dU U), (fun _ => 0). cbn [nl_force nl_aft poly_nl].
    split; [destruct (poly_force N nnl cnl Q T E qq X); reflexivity|]. split; [apply EA|].
    assert (V : forall c i, (c < length (components h))%nat -> (i < N)%nat -> F U (c * N + i)%nat = if Nat.eqb c 0 then fst (poly_force N nnl cnl Q T E qq X) i else 0).
    { intros c i Hc Hi. rewrite EF by assumption. rewrite <- (coef_const h Nt Ha H0 HN _ c Hc). apply coefc_ext. intros t Ht. rewrite poly_force_value. apply rsum_ext. intros d Hd. f_equal. apply rsum_ext. intros p Hp. f_equal. f_equal.
      apply functional_extensionality. intros e. exact (rest_motion N h Nt Ha H0 HN X U Q e _ HU). }
    split.
    - intros j Hj. exact (V 0%nat j (nhc_some h Nt Ha H0 HN) Hj).
    - intros k Hk. destruct (block_form _ _ k (proj2 Hk)) as (c & i & Hc & Hi & ->). rewrite V by assumption. destruct (Nat.eqb_spec c 0); [nia|reflexivity].
  Qed.
End Elastic.

(** ---- elements without state ---- *)
Lemma stateless_aft N e U w h Nt e' F : harmonic_stateless e -> element_aft N e U w h Nt = Ok (e', F) -> e' = e.
Proof.
  destruct e; cbn [harmonic_stateless element_aft]; intros Hs H; try contradiction.
  - destruct (nl_aft f U w h Nt) as [[? ?]|]; [|discriminate]. cbn [bind] in H. injection H as <- _. reflexivity.
  - destruct (eldry_aft _ _ _ _ _ _ _ _ _ _ _) as [[? ?]|]; [|discriminate]. cbn [bind] in H. injection H as <- _. reflexivity.
  - destruct (rough_aft _ _ _ _ _ _ _ _ _ _) as [[? ?]|]; [|discriminate]. cbn [bind] in H. injection H as <- _. reflexivity.
  - destruct (jax_jenkins_aft _ _ _ _ _ _ _ _ _ _) as [[? ?]|]; [|discriminate]. cbn [bind] in H. injection H as <- _. reflexivity.
Qed.
Lemma stateless_sum N U w h Nt : forall els F, (forall e, In e els -> harmonic_stateless e) -> fst (sys_aft N els U w h Nt F) = els.
Proof.
  induction els as [|e els IH]; intros F Hs; [reflexivity|]. cbn [sys_aft]. destruct (element_aft N e U w h Nt) as [[e' Fe]|] eqn:E; [|reflexivity].
  apply stateless_aft in E; [|apply Hs; left; reflexivity]. specialize (IH (oadd F Fe) (fun x Hx => Hs x (or_intror Hx))). destruct (sys_aft N els U w h Nt (oadd F Fe)). cbn [fst] in *. subst. reflexivity.
Qed.
Lemma stateless_keeps N M C K els Uw Fl h Nt : (forall e, In e els -> harmonic_stateless e) -> fst (sys_hbm_res N M C K els Uw Fl h Nt) = els.
Proof.
  intros Hs. unfold sys_hbm_res. destruct (harmonic_stiffness _ _ _ _ _ _ _ _) as [[E dE]|]; [|reflexivity].
  pose proof (stateless_sum N (take (aft_Nhc h * N) Uw) (Uw (aft_Nhc h * N)%nat) h Nt els (Some vzero) Hs) as Z. destruct (sys_aft _ _ _ _ _ _ _). exact Z.
Qed.

(** ---- the state of a Jenkins element after a harmonic evaluation at rest ---- *)
Section LoopInv.
  Context {St I D : Type} (step : St -> I -> result (St * (R * D))) (P : St -> Prop) (inputs : list I).
  Hypothesis Hstep : forall s x s' o, P s -> In x inputs -> step s x = Ok (s', o) -> P s'.
  Lemma time_loop_inv : forall l s s' os, incl l inputs -> P s -> time_loop step s l = Ok (s', os) -> P s'.
  Proof.
    induction l as [|x l IH]; intros s s' os Hi Hp H; cbn [time_loop] in H; [injection H as <- _; exact Hp|].
    destruct (step s x) as [[s1 o]|] eqn:E1; [|discriminate]. cbn [bind] in H. destruct (time_loop step s1 l) as [[s2 os']|] eqn:E2; [|discriminate]. cbn [bind] in H. injection H as <- _.
    apply (IH s1 s2 os'); [intros y Hy; apply Hi; right; exact Hy| |exact E2]. apply (Hstep s x s1 o Hp); [apply Hi; left; reflexivity|exact E1].
  Qed.
  Lemma repeat_loop_inv atol rtol : forall n s os a s' os', P s -> repeat_loop step n atol rtol inputs s os a = Ok (s', os') -> P s'.
  Proof.
    induction n as [|n IH]; intros s os a s' os' Hp H; cbn [repeat_loop] in H; [injection H as <- _; exact Hp|].
    destruct (not_converged _ _ _ _); [|injection H as <- _; exact Hp]. destruct (time_loop step s inputs) as [[s1 os1]|] eqn:E1; [|discriminate]. cbn [bind] in H.
    apply IH in H; [exact H|]. exact (time_loop_inv inputs s s1 os1 (incl_refl _) Hp E1).
  Qed.
  Lemma history_inv s0 fp0 m atol rtol s' os : P s0 -> local_force_history step s0 fp0 inputs m atol rtol = Ok (s', os) -> P s'.
  Proof.
    intros Hp H. unfold local_force_history in H. assert (Hc : inputs = [] \/ inputs <> []) by (destruct inputs; [left; reflexivity|right; discriminate]).
    destruct Hc as [Z|Z]; [rewrite Z in H; discriminate|].
    assert (H' : (do (s1, os) <- time_loop step s0 inputs; repeat_loop step (m - 1) atol rtol inputs s1 os (Rabs (last_force os - read_fp (FpVal fp0) (last_force os)))) = Ok (s', os)) by (destruct inputs; [contradiction|exact H]). clear H.
    destruct (time_loop step s0 inputs) as [[s1 os1]|] eqn:E1; [|discriminate]. cbn [bind] in H'.
    apply repeat_loop_inv in H'; [exact H'|]. exact (time_loop_inv inputs s0 s1 os1 (incl_refl _) Hp E1).
  Qed.
End LoopInv.

Lemma jenkins_forgets s N Q T U h Nt X st out : admissible h -> In O h -> (2 * list_max h + 1 < Nt)%nat -> Nat.even Nt = true -> 0 <= j_Fs s ->
  vibration_about N h X (fun _ => 0) U -> jenkins_aft s N Q T U h Nt = Ok (st, out) -> j_hist st = Some (local_at N Q X 0, 0) /\ j_kt st = j_kt s /\ j_Fs st = j_Fs s.
Proof.
  intros Ha H0 HN Hev HF HU H. unfold jenkins_aft, aft_hysteretic in H.
  destruct (ts_cols0 h Nt Ha HN Hev (fun d c => aft_Unl N Q U c d)) as [u0 [E0 S0]]. rewrite E0 in H. cbn [bind] in H.
  destruct (ts_cols1 h Nt Ha HN Hev (fun d c => aft_Unl N Q U c d)) as [u1 [E1 S1]]. rewrite E1 in H. cbn [bind] in H.
  destruct (ts_cols0 h Nt Ha HN Hev eye_col) as [cst [Ec Sc]]. rewrite Ec in H. cbn [bind] in H.
  match type of H with bind ?L _ = _ => destruct L as [[s1 [ft df]]|] eqn:EL; [|discriminate] end. cbn [bind] in H.
  destruct (gfc_cols h Nt _) in H; [|discriminate]. cbn [bind] in H. destruct (negb _); [discriminate|]. destruct (gfc_cols h Nt _) in H; [|discriminate]. cbn [bind] in H. injection H as <- _.
  unfold jenkins_lfh in EL. match type of EL with bind ?L _ = _ => destruct L as [[s2 os]|] eqn:EH; [|discriminate] end. cbn [bind] in EL. injection EL as <- _ _.
  unfold jenkins_local_force_history in EH.
  assert (Eu : aft_Unl N Q U 0 0 = local_at N Q X 0) by (apply rsum_ext; intros j Hj; cbn [Nat.mul Nat.add]; rewrite (proj1 HU) by exact Hj; reflexivity). rewrite Eu in EH.
  refine (history_inv jenkins_step (fun s' => j_hist s' = Some (local_at N Q X 0, 0) /\ j_kt s' = j_kt s /\ j_Fs s' = j_Fs s) _ _ _ _ _ _ _ _ _ _ EH); [|cbn; repeat split].
  intros t x t' o (P1 & P2 & P3) Hx E. apply in_map_iff in Hx. destruct Hx as (j & <- & Hj). apply in_seq in Hj. unfold jenkins_step, j_instant_force_harmonic, j_instant_force in E. cbn [fst snd] in E.
  rewrite S0 in E by lia. rewrite (series_Unl N Q h U 0), (rest_motion N h Nt Ha H0 HN X U Q 0 _ HU) in E. rewrite P1, P2, P3 in E. unfold j_law in E. rewrite Rminus_eq_0, Rmult_0_r, Rplus_0_r, Rabs_R0 in E.
  rewrite (proj2 (Rltb_false (j_Fs s) 0)) in E by exact HF. cbn [bind j_f] in E. cbn [j_set_hist j_dhist] in E. destruct (j_dhist t) as [[dup dfp]|]; [|discriminate]. injection E as <- _. cbn. repeat split; assumption.
Qed.

(** ---- counterexamples ---- *)
Definition one_jenkins : list element := [ElJenkins mid mid (j_new 1 1)].
Lemma jenkins_run X : sys_run 1 one_jenkins [SInit; SUpdate X; SAftInit X]
  = ([ElJenkins mid mid (j_set_hist (j_set_hist (j_new 1 1) 0 0) (matvec 1 mid X O) (j_f (j_law 1 1 0 0 (matvec 1 mid X O))))], []).
Proof.
  unfold one_jenkins. cbn [sys_run sys_exec init_force_history nl_force_type Nat.eqb el_init update_force_history element_force]. unfold j_force. cbn [j_init_history j_set_hist j_hist j_kt j_Fs j_new].
  destruct (j_law 1 1 0 0 (matvec 1 mid X 0%nat)) as [[[f df] ?] ?] eqn:E. cbn [bind fst snd]. reflexivity.
Qed.
Lemma jenkins_res x f X : exists J, sys_static_res 1 mzero [ElJenkins mid mid (j_set_hist (j_set_hist (j_new 1 1) 0 0) x f)] X vzero = Ok (Some (fun i => matvec 1 mzero X i + vadd vzero (fun i => mid i O * j_f (j_law 1 1 x f (matvec 1 mid X O))) i - vzero i), J).
Proof.
  unfold sys_static_res. cbn [element_loop element_force]. unfold j_force. cbn [j_init_history j_set_hist j_hist j_kt j_Fs j_new].
  destruct (j_law 1 1 x f (matvec 1 mid X 0%nat)) as [[[g df] ?] ?]. cbn [bind fst snd oadd j_f]. eexists. reflexivity.
Qed.
Lemma mid_one X : matvec 1 mid X O = X O.
Proof. unfold matvec, mid. cbn. ring. Qed.
Lemma law_in up fp u : Rabs (1 * (u - up) + fp) <= 1 -> j_f (j_law 1 1 up fp u) = u - up + fp.
Proof. intros H. unfold j_law. rewrite (proj2 (Rltb_false _ _)) by exact H. cbn [j_f]. ring. Qed.
Lemma h01 : admissible [0; 1]%nat /\ In 0%nat [0; 1]%nat /\ (2 * list_max [0; 1]%nat + 1 < 4)%nat /\ Nat.even 4 = true.
Proof. split; [|split; [left; reflexivity|split; [cbn; lia|reflexivity]]]. split; [discriminate|]. split; [repeat constructor; cbn; intuition lia|]. cbn. intuition lia. Qed.
Definition still (x : R) : vec := fun j => match j with O => x | _ => 0 end.
Lemma still_about x : vibration_about 1 [0; 1]%nat (still x) (fun _ => 0) (still x).
Proof. split; [intros j Hj; reflexivity|]. intros [|k] Hk; [lia|reflexivity]. Qed.

(** the harmonic residual of a stored Jenkins state at rest *)
Lemma jenkins_hbm x f u : exists els R, sys_hbm_res 1 mzero mzero mzero [ElJenkins mid mid (j_set_hist (j_set_hist (j_new 1 1) 0 0) x f)] (still u) vzero [0; 1]%nat 4 = (els, Ok (Some R)) /\ R O = 0 /\
  exists s, els = [ElJenkins mid mid s] /\ j_hist s = Some (u, 0) /\ j_kt s = 1 /\ j_Fs s = 1.
Proof.
  destruct h01 as (Ha & H0 & HN & Hev). set (s0 := j_set_hist (j_set_hist (j_new 1 1) 0 0) x f).
  assert (HU : vibration_about 1 [0; 1]%nat (still u) (fun _ => 0) (take 3 (still u))) by (apply (take_about 1 [0; 1]%nat 4 HN ltac:(cbn; lia)); apply still_about).
  destruct (jenkins_sticks 1 [0; 1]%nat 4 Ha H0 HN Hev mid mid s0 (still u) (fun _ => 0) (take 3 (still u)) HU ltac:(cbn; lra)) as (st & F & dU & dw & E & EF).
  { intros t Ht. rewrite (rest_motion 1 [0; 1]%nat 4 Ha H0 HN (still u) _ mid 0 _ HU), Rminus_eq_0, Rmult_0_r, Rabs_R0. cbn. lra. }
  unfold sys_hbm_res. change (aft_Nhc [0; 1]%nat * 1)%nat with 3%nat. rewrite harmonic_stiffness_ok by exact Ha. cbn [sys_aft element_aft]. rewrite E. cbn [bind fst snd oadd].
  do 2 eexists. split; [reflexivity|]. split.
  - cbv beta. unfold vadd, vzero. pose proof (EF 0%nat 0%nat ltac:(cbn; lia) ltac:(lia)) as Z. cbn [Nat.mul Nat.add Nat.eqb] in Z. rewrite Z.
    pose proof (row_static 1 mzero mzero mzero (still u 3%nat) [0; 1]%nat Ha H0 (still u) (still u) 0 (fun _ _ => eq_refl) ltac:(lia)) as Z2. change (length (components [0; 1]%nat) * 1)%nat with 3%nat in Z2. rewrite Z2. unfold mzero. cbn. ring.
  - exists st. split; [reflexivity|]. destruct (jenkins_forgets s0 1 mid mid (take 3 (still u)) [0; 1]%nat 4 (still u) st _ Ha H0 HN Hev ltac:(cbn; lra) HU E) as (A & B & D).
    rewrite A, B, D. split; [|split; reflexivity]. unfold local_at, mid, still. cbn. f_equal. f_equal. ring.
Qed.

Lemma one_law : Forall2 (has_law 1 true) one_jenkins [jenkins_static 1 mid mid 1 1].
Proof. constructor; [|constructor]. apply (law_jenkins 1 true mid mid (j_new 1 1) 1); cbn; try reflexivity; lra. Qed.

Lemma friction_lost : exists N M C K els laws X Uw h Nt els1 Rs Js els2 R, Forall2 (has_law N true) els laws /\
  admissible h /\ In O h /\ (2 * list_max h + 1 < Nt)%nat /\ Nat.even Nt = true /\ vibration_about N h X (fun _ => 0) Uw /\
  sys_run N els [SInit; SUpdate X; SAftInit X] = (els1, []) /\ sys_static_res N K els1 X vzero = Ok (Some Rs, Js) /\
  sys_hbm_res N M C K els1 Uw vzero h Nt = (els2, Ok (Some R)) /\ Rs O = 1/2 /\ R O = 0.
Proof.
  destruct h01 as (Ha & H0 & HN & Hev). set (X := still (1/2)).
  set (f := j_f (j_law 1 1 0 0 (matvec 1 mid X 0%nat))).
  assert (Ef : f = 1/2). { unfold f. rewrite mid_one. rewrite law_in; unfold X, still; [lra|]. apply Rabs_le. lra. }
  destruct (jenkins_res (matvec 1 mid X 0%nat) f X) as [J EJ]. destruct (jenkins_hbm (matvec 1 mid X 0%nat) f (1/2)) as (els2 & R & EH & ER & _).
  exists 1%nat, mzero, mzero, mzero, one_jenkins, [jenkins_static 1 mid mid 1 1], X, X, [0; 1]%nat, 4%nat. do 3 eexists. exists els2, R.
  split; [exact one_law|]. do 4 (split; [assumption|]). split; [apply still_about|]. split; [apply jenkins_run|]. split; [exact EJ|]. split; [exact EH|]. split; [|exact ER].
  cbv beta. rewrite mid_one. rewrite law_in; [|rewrite Ef; unfold X, still; apply Rabs_le; lra]. rewrite Ef. unfold vadd, vzero, matvec, mzero, mid, X, still. cbn. lra.
Qed.

Lemma static_changed : exists N M C K els laws Y X Uw h Nt els1 R1 J1 els2 R els3 R3 J3, Forall2 (has_law N true) els laws /\
  sys_run N els [SInit; SUpdate Y] = (els1, []) /\ sys_static_res N K els1 X vzero = Ok (Some R1, J1) /\
  sys_hbm_res N M C K els1 Uw vzero h Nt = (els2, Ok (Some R)) /\ els3 = els2 /\ sys_static_res N K els3 X vzero = Ok (Some R3, J3) /\ R1 O = 1/2 /\ R3 O = 1.
Proof.
  set (Y := still 3). set (X := still (5/2)). set (f := j_f (j_law 1 1 0 0 (matvec 1 mid Y 0%nat))).
  assert (Hf : f = 1).
  { unfold f. rewrite mid_one. unfold j_law, Y, still. replace (1 * (3 - 0) + 0) with 3 by ring. rewrite (proj2 (Rltb_true _ _)) by (rewrite Rabs_pos_eq; lra). cbn [j_f]. unfold Rsign. repeat destruct (Rlt_dec _ _); lra. }
  destruct (jenkins_res (matvec 1 mid Y 0%nat) f X) as [J EJ]. destruct (jenkins_hbm (matvec 1 mid Y 0%nat) f 0) as (els2 & R & EH & ER & s & -> & A & B & D).
  assert (E3 : exists J, sys_static_res 1 mzero [ElJenkins mid mid s] X vzero = Ok (Some (fun i => matvec 1 mzero X i + vadd vzero (fun i => mid i O * j_f (j_law 1 1 0 0 (matvec 1 mid X O))) i - vzero i), J)).
  { unfold sys_static_res. cbn [element_loop element_force]. unfold j_force. rewrite A, B, D. destruct (j_law 1 1 0 0 (matvec 1 mid X 0%nat)) as [[[g df] ?] ?]. cbn [bind fst snd oadd j_f]. eexists. reflexivity. }
  destruct E3 as [J3 E3]. pose proof (jenkins_run Y) as ER1. replace [SInit; SUpdate Y; SAftInit Y] with ([SInit; SUpdate Y] ++ [SAftInit Y]) in ER1 by reflexivity. rewrite sys_run_app in ER1.
  destruct (sys_run 1 one_jenkins [SInit; SUpdate Y]) as [l1 x1] eqn:E1. cbn [sys_run sys_exec] in ER1. unfold set_aft_initialize in ER1. cbn [fst] in ER1. injection ER1 as EA EB. rewrite app_nil_r in EB. subst x1.
  assert (l1 = [ElJenkins mid mid (j_set_hist (j_set_hist (j_new 1 1) 0 0) (matvec 1 mid Y 0%nat) f)]).
  { destruct l1 as [|e [|e2 l2]]; try discriminate EA. injection EA as EA. destruct e; cbn in EA; try discriminate EA. rewrite EA. reflexivity. }
  subst l1.
  exists 1%nat, mzero, mzero, mzero, one_jenkins, [jenkins_static 1 mid mid 1 1], Y, X, (still 0), [0; 1]%nat, 4%nat. do 3 eexists. exists [ElJenkins mid mid s], R, [ElJenkins mid mid s]. do 2 eexists.
  split; [exact one_law|]. split; [exact E1|]. split; [exact EJ|]. split; [exact EH|]. split; [reflexivity|]. split; [exact E3|]. cbv beta. rewrite !mid_one. split.
  - rewrite law_in; [|rewrite Hf; unfold X, Y, still; apply Rabs_le; lra]. rewrite Hf. unfold vadd, vzero, matvec, mzero, mid, X, Y, still. cbn. lra.
  - assert (G : j_f (j_law 1 1 0 0 (X 0%nat)) = 1).
    { unfold j_law, X, still. replace (1 * (5/2 - 0) + 0) with (5/2) by field. rewrite (proj2 (Rltb_true _ _)) by (rewrite Rabs_pos_eq; lra). cbn [j_f]. unfold Rsign. repeat destruct (Rlt_dec _ _); lra. }
    rewrite G. unfold vadd, vzero, matvec, mzero, mid, X, still. cbn. lra.
Qed.

Lemma damper_statics : exists N M C K els laws X Uw h Nt els1 Rs Js els2 R, Forall2 (has_law N true) els laws /\
  admissible h /\ In O h /\ (2 * list_max h + 1 < Nt)%nat /\ Nat.even Nt = true /\ vibration_about N h X (fun _ => 0) Uw /\
  sys_run N els [SInit; SUpdate X; SAftInit X] = (els1, []) /\ sys_static_res N K els1 X vzero = Ok (Some Rs, Js) /\
  sys_hbm_res N M C K els1 Uw vzero h Nt = (els2, Ok (Some R)) /\ Rs O = 8 /\ R O = 0.
Proof.
  destruct h01 as (Ha & H0 & HN & Hev). set (X := still 2). set (f := damping_nl 1 1 mid mid (fun _ => 1)).
  assert (HU : vibration_about 1 [0; 1]%nat X (fun _ => 0) (take 3 X)) by (apply (take_about 1 [0; 1]%nat 4 HN ltac:(cbn; lia)); apply still_about).
  destruct (inst_rests 1 [0; 1]%nat 4 Ha H0 HN Hev 1 mid mid (damping_history (fun _ => 1)) X (take 3 X) (X 3%nat) HU) as (F & dU & dw & E & EF).
  exists 1%nat, mzero, mzero, mzero, [ElInstant f], [elastic_static (fun X => fst (damping_force 1 1 mid mid (fun _ => 1) X))], X, X, [0; 1]%nat, 4%nat, [ElInstant f]. do 2 eexists. exists [ElInstant f]. eexists.
  split; [constructor; [|constructor]; apply (law_elastic 1 true f _ (fun X => snd (damping_force 1 1 mid mid (fun _ => 1) X))); intros Z; reflexivity|].
  do 4 (split; [assumption|]). split; [apply still_about|]. split; [reflexivity|]. split; [reflexivity|]. split.
  - unfold sys_hbm_res. change (aft_Nhc [0; 1]%nat * 1)%nat with 3%nat. rewrite harmonic_stiffness_ok by exact Ha. cbn [sys_aft element_aft f damping_nl instantaneous_nl nl_aft]. rewrite E. cbn [bind fst snd oadd]. reflexivity.
  - cbv beta. split.
    + unfold vadd, vzero, matvec, mzero, mid, X, still. cbn. unfold matvec, mid. cbn. lra.
    + unfold vadd, vzero. pose proof (EF 0%nat 0%nat ltac:(cbn; lia) ltac:(lia)) as Z. cbn [Nat.mul Nat.add Nat.eqb] in Z. rewrite Z.
      pose proof (row_static 1 mzero mzero mzero (X 3%nat) [0; 1]%nat Ha H0 X X 0 (fun _ _ => eq_refl) ltac:(lia)) as Z2. change (length (components [0; 1]%nat) * 1)%nat with 3%nat in Z2. rewrite Z2. unfold mzero, law_f, damping_history, mid. cbn. ring.
Qed.

(** ---- examples ---- *)
Lemma three_keep l : (forall e, In e three_els -> keeps_static_state 2 [0; 1]%nat 4 l e) /\ keeps_static_state 3 [0; 1]%nat 4 [] rough_el.
Proof.
  destruct h01 as (Ha & H0 & HN & Hev). split; [|reflexivity]. intros e [<-|[<-|[<-|[]]]]; cbn [keeps_static_state].
  - apply (elastic_harmonic 2 [0; 1]%nat 4 Ha H0 HN Hev 1 mid mid).
  - exact I.
  - cbn. split; [lia|lra].
Qed.
(** around (1/2, 1), the first degree of freedom vibrates with amplitude 1/100 *)
Definition two_els : list element := [ElJenkins mid mid (j_new 3 1); ElEldry 2 1 mid mid (ed_new 5 7 (1/4) 0 None)].
Definition two_laws : list static_law := [jenkins_static 2 mid mid 3 1; eldry_static 2 1 2 mid mid 5 7 (1/4) 0].
Definition small_vibration : vec := fun k => match k with 2%nat => 1/100 | 6%nat => 1 | _ => 0 end.
Definition small_motion : vec := fun k => match k with O => 1/2 | 1%nat => 1 | 2%nat => 1/100 | 6%nat => 1 | _ => 0 end.
Lemma two_stick : Forall2 (has_law 2 true) two_els two_laws /\ vibration_about 2 [0; 1]%nat pull small_vibration small_motion /\ small_vibration 6%nat = small_motion 6%nat /\
  forall e, In e two_els -> sticks 2 [0; 1]%nat 4 pull small_motion e.
Proof.
  assert (L0 : forall tau, local_motion 2 mid [0; 1]%nat small_motion 0 tau = 1/2 + cos tau / 100).
  { intros tau. unfold local_motion, series, dof_coefs, basis, mid, small_motion. cbn. rewrite (Rmult_0_l tau), cos_0, (Rmult_1_l tau). lra. }
  assert (L1 : forall tau, local_motion 2 mid [0; 1]%nat small_motion 1 tau = 1).
  { intros tau. unfold local_motion, series, dof_coefs, basis, mid, small_motion. cbn. rewrite (Rmult_0_l tau), cos_0. lra. }
  assert (P0 : local_at 2 mid pull 0 = 1/2) by (unfold local_at, mid, pull; cbn; lra).
  split; [|split; [|split; [reflexivity|]]].
  - unfold two_els, two_laws. constructor; [apply (law_jenkins 2 true mid mid (j_new 3 1) 1); cbn; try reflexivity; lra|]. constructor; [|constructor]. apply law_eldry; cbn; try reflexivity; try lra; lia.
  - split.
    + intros j Hj. destruct j as [|[|]]; [reflexivity|reflexivity|lia].
    + intros k Hk. do 2 (destruct k as [|k]; [lia|]). reflexivity.
  - intros e [<-|[<-|[]]]; cbn [sticks].
    + intros t _. rewrite L0, P0. pose proof (COS_bound (sample_phase 4 t)). apply Rabs_le. cbn. lra.
    + cbn [ed_new ed_pars ep_kn ep_kt ep_gap ed_real_mu]. repeat split; [lia|lra| |].
      * assert (normal_dof 2 d = 1%nat) as -> by (destruct d as [|[|]]; [reflexivity|reflexivity|cbn in H; lia]). rewrite L1. lra.
      * intros Hd. destruct d as [|[|]]; [|exfalso; apply Hd; reflexivity|cbn in H; lia]. change (normal_dof 2 0) with 1%nat. rewrite L0, L1, P0. pose proof (COS_bound (sample_phase 4 t)). apply Rabs_le. lra.
Qed.
