(** Conditions for unique static states are kept by every call; systems with several static states. *)
From Coq Require Import Reals List Arith Bool Lra Lia FunctionalExtensionality Ranalysis5.
From Verif.Lib Require Import RSum Py.
From Verif.Spec Require Import Calculus Elements Slider Rough StaticHistory SystemCalls StaticStates.
From Verif.Model Require Import Harmonic LocalForces Aft VibSys SysElements Jenkins Iwan JaxDual JaxFloat JaxFriction RoughContact SysHistory.
From Verif.Proofs Require Import ElementsP JenkinsP IwanP HysteresisP EldryP EldryStaticP RoughNormalP RoughCasesP RoughHistoryP SysHistoryP SysHistoryCaseP StaticStatesP StaticLawsP.
Import ListNotations.
Open Scope R_scope.

(** * Calls *)
Definition kept (N : nat) (cs : list sys_call) (e : element) : Prop := resisting N e /\ (is_eldry e = true -> ~ In SReset cs).

Lemma init_kept N cs e e' : kept N cs e -> el_init e = Ok e' -> kept N cs e'.
Proof.
  intros [H Hr] E. destruct e; cbn [el_init] in E; try discriminate E; inversion E; subst e'; (split; [|exact Hr]); cbn in *; try contradiction.
  - decompose [and] H. repeat split; try assumption. discriminate.
  - exact H.
  - exact H.
Qed.

Lemma force_kept N cs e U e' out : kept N cs e -> element_force N e U true = Ok (e', out) -> kept N cs e'.
Proof.
  intros [H Hr] E. destruct e as [f|Q T s|Q T s|p n Q T s|Q T r s|Q T kt u0 Fs rf pf]; cbn [element_force] in E; try discriminate E; try contradiction.
  - unfold j_force in E. destruct (j_hist s) as [[up fp]|]; [|discriminate E]. destruct (j_law _ _ _ _ _) as [[[f k] a] b]. cbn [bind fst snd] in E. inversion E. subst e' out.
    split; [|exact Hr]. cbn in *. decompose [and] H. repeat split; try assumption. discriminate.
  - cbn [iw_force iw_instant_force] in E. inversion E. split; [|exact Hr]. exact H.
  - unfold ed_force in E. inversion E. split; [|exact Hr]. exact H.
Qed.

Lemma prestress_kept N cs e e' : kept N cs e -> el_prestress e = Ok e' -> kept N cs e'.
Proof.
  intros [H Hr] E. destruct e; cbn [el_prestress] in E; try discriminate E; inversion E; subst e'; (split; [|exact Hr]); cbn in *; try contradiction; try exact H.
  - decompose [and] H. repeat split; assumption.
  - decompose [and] H. repeat split; assumption.
Qed.

Lemma reset_kept N cs e : kept N (SReset :: cs) e -> kept N cs (el_reset e).
Proof.
  intros [H Hr]. destruct e; (split; [|intros Z; apply Hr in Z; exfalso; apply Z; left; reflexivity]); cbn in *; try contradiction; try exact H.
  - decompose [and] H. repeat split; assumption.
  - exfalso. apply (Hr eq_refl). left. reflexivity.
Qed.

Lemma aft_kept N M U cs e : kept N cs e -> kept N cs (el_aft_init M U e).
Proof. intros [H Hr]. destruct e; (split; [|exact Hr]); cbn in *; try contradiction; exact H. Qed.

Lemma kept_less N c cs e : kept N (c :: cs) e -> kept N cs e.
Proof. intros [H Hr]. split; [exact H|]. intros Z Hin. apply (Hr Z). right. exact Hin. Qed.

Lemma exec_kept N c cs : forall els, Forall (kept N (c :: cs)) els -> Forall (kept N cs) (fst (sys_exec N els c)).
Proof.
  intros els H. destruct c as [|U| | |U|U F]; cbn [sys_exec].
  - induction H as [|e els He H IH]; [constructor|]. assert (L : Forall (kept N cs) els) by (eapply Forall_impl; [apply kept_less|exact H]). apply kept_less in He.
    cbn [init_force_history]. destruct (init_force_history els) as [l1 x] eqn:E1. cbn [fst] in IH. destruct (Nat.eqb _ _); [destruct (el_init e) as [e'|x'] eqn:E|]; cbn [fst]; constructor; try assumption.
    exact (init_kept N cs e e' He E).
  - induction H as [|e els He H IH]; [constructor|]. assert (L : Forall (kept N cs) els) by (eapply Forall_impl; [apply kept_less|exact H]). apply kept_less in He.
    cbn [update_force_history]. destruct (update_force_history N els U) as [l1 x] eqn:E1. cbn [fst] in IH. destruct (Nat.eqb _ _); [destruct (element_force N e U true) as [[e' out]|x'] eqn:E|]; cbn [fst]; constructor; try assumption.
    exact (force_kept N cs e U e' out He E).
  - induction H as [|e els He H IH]; [constructor|]. assert (L : Forall (kept N cs) els) by (eapply Forall_impl; [apply kept_less|exact H]). apply kept_less in He.
    cbn [prestress_all]. destruct (prestress_all els) as [l1 x] eqn:E1. cbn [fst] in IH. destruct (el_prestress e) as [e'|x'] eqn:E; cbn [fst]; constructor; try assumption.
    exact (prestress_kept N cs e e' He E).
  - cbn [fst]. apply Forall_map. eapply Forall_impl; [|exact H]. apply reset_kept.
  - cbn [fst set_aft_initialize]. apply Forall_map. eapply Forall_impl; [|exact H]. intros e He. apply aft_kept. exact (kept_less N _ cs e He).
  - cbn [fst]. eapply Forall_impl; [|exact H]. apply kept_less.
Qed.

Lemma run_kept N : forall cs els, Forall (kept N cs) els -> Forall (kept N []) (fst (sys_run N els cs)).
Proof.
  induction cs as [|c cs IH]; intros els H; [exact H|]. cbn [sys_run]. pose proof (exec_kept N c cs els H) as H1. destruct (sys_exec N els c) as [l1 x]. cbn [fst] in H1.
  specialize (IH l1 H1). destruct (sys_run N l1 cs) as [l2 xs]. exact IH.
Qed.

Lemma resisting_kept N els cs : (forall e, In e els -> resisting N e) -> (In SReset cs -> forall e, In e els -> is_eldry e = false) ->
  forall e, In e (fst (sys_run N els cs)) -> resisting N e.
Proof.
  intros H Hr. assert (F : Forall (kept N cs) els).
  { apply Forall_forall. intros e He. split; [exact (H e He)|]. intros Z Hin. rewrite (Hr Hin e He) in Z. discriminate Z. }
  pose proof (run_kept N cs els F) as G. rewrite Forall_forall in G. intros e He. exact (proj1 (G e He)).
Qed.

(** * Friction at a contact *)
Definition wedge_K : mat := fun i j => if Nat.eqb i j then 1 else 1/2.
Definition unit_mat : mat := fun i j => if Nat.eqb i j then 1 else 0.
Definition pair (a b : R) : vec := fun i => match i with O => a | _ => b end.

Lemma wedge_stiff : stiffness_at_least 2 (1/2) wedge_K.
Proof. split; [lra|]. intros x. unfold length2, wedge_K. cbn [rsum Nat.eqb]. pose proof (Rle_0_sqr (x O + x 1%nat)). unfold Rsqr in *. nra. Qed.

Lemma wedge_res a b F : sys_static_res 2 wedge_K [ElEldry 2 1 unit_mat unit_mat (ed_new 1 1 (7/2) 0 None)] (pair a b) F =
  Ok (Some (fun i => matvec 2 wedge_K (pair a b) i + fst (snd (ed_force 2 1 2 unit_mat unit_mat (ed_new 1 1 (7/2) 0 None) (pair a b) false)) i - F i),
      snd (match sys_static_res 2 wedge_K [ElEldry 2 1 unit_mat unit_mat (ed_new 1 1 (7/2) 0 None)] (pair a b) F with Ok x => x | Err _ => (None, None) end)).
Proof.
  unfold sys_static_res. cbn [element_loop element_force]. destruct (ed_force 2 1 2 unit_mat unit_mat (ed_new 1 1 (7/2) 0 None) (pair a b) false) as [s' [G J]]. cbn [bind fst snd oadd omadd].
  do 3 f_equal. apply functional_extensionality. intros i. unfold vadd, vzero. ring.
Qed.

Lemma wedge_force a b i : (i < 2)%nat -> 0 < b -> 7/2 * b <= a ->
  fst (snd (ed_force 2 1 2 unit_mat unit_mat (ed_new 1 1 (7/2) 0 None) (pair a b) false)) i = if Nat.eqb i 0 then 7/2 * b else b.
Proof.
  intros Hi Hb Ha. rewrite ed_force_value by (cbn; try lia; lra). cbn [ed_new ed_pars ep_kt ep_kn ep_mu ep_gap ed_up Nat.mul Nat.add].
  assert (L : forall d, (d < 2)%nat -> matvec 2 unit_mat (pair a b) d = pair a b d) by (intros [|[|d]] Hd; [| |lia]; unfold matvec, unit_mat, pair; cbn; ring).
  assert (C0 : contact_history 2 1 1 (7/2) 0 (fun d _ => matvec 2 unit_mat (pair a b) d) (fun _ => 0) 0 0 = 7/2 * b).
  { unfold contact_history. cbn [normal_dof Nat.div Nat.divmod Nat.mul Nat.add Nat.sub Nat.eqb fst]. change (normal_dof 2 0) with 1%nat. cbn [Nat.eqb]. unfold friction_law. cbn [slider]. rewrite !L by lia. cbn [pair].
    unfold contact_force. destruct (Rlt_dec 0 b); [|lra]. unfold Slider.clamp. rewrite Rmin_left by lra. rewrite Rmax_right by lra. ring. }
  assert (C1 : contact_history 2 1 1 (7/2) 0 (fun d _ => matvec 2 unit_mat (pair a b) d) (fun _ => 0) 1 0 = b).
  { unfold contact_history. change (normal_dof 2 1) with 1%nat. cbn [Nat.eqb]. rewrite L by lia. cbn [pair]. unfold contact_force. destruct (Rlt_dec 0 b); lra. }
  destruct i as [|[|i]]; [| |lia]; cbn [rsum Nat.eqb]; rewrite C0, C1; unfold unit_mat; cbn [Nat.eqb]; ring.
Qed.

Lemma wedged_states : exists N m K Q T s Fs U V R JR S JS, stiffness_at_least N m K /\ aligned N 2 Q T /\ 0 < ep_kt (ed_pars s) /\ 0 < ep_kn (ed_pars s) /\ 0 < ep_mu (ed_pars s) /\
  sys_static_res N K [ElEldry 2 1 Q T s] U Fs = Ok (Some R, JR) /\ sys_static_res N K [ElEldry 2 1 Q T s] V Fs = Ok (Some S, JS) /\
  (forall i, (i < N)%nat -> R i = 0 /\ S i = 0) /\ exists i, (i < N)%nat /\ U i <> V i.
Proof.
  exists 2%nat, (1/2), wedge_K, unit_mat, unit_mat, (ed_new 1 1 (7/2) 0 None), (pair 18 9), (pair 10 2), (pair 14 1). do 4 eexists. split; [exact wedge_stiff|].
  split. { intros i d _ _. unfold unit_mat. rewrite Nat.eqb_sym. reflexivity. }
  split; [cbn; lra|]. split; [cbn; lra|]. split; [cbn; lra|]. split; [apply wedge_res|]. split; [apply wedge_res|]. split.
  - intros i Hi. cbv beta. rewrite !wedge_force by (try exact Hi; lra). destruct i as [|[|i]]; [| |lia]; unfold matvec, wedge_K, pair; cbn [rsum Nat.eqb]; split; lra.
  - exists O. split; [lia|]. cbn [pair]. lra.
Qed.

(** * Rough contact at the yield limit *)
Definition normal_dir : mat := fun d j => if Nat.eqb d 2 then 1 else 0.
Definition normal_dirT : mat := fun i d => if Nat.eqb d 2 then 1 else 0.
Definition asperity_r (s : solid) : rough := mkRough (new_material (s_E s) (s_nu s) (s_R s) (s_Et s) (s_Sy s)) 1 (fun _ => 0) (fun _ => 1) 0 TAN 0.
Definition asperity_s : rough_state := mkRS 0 0 (fun _ => Some 0) vzero (fun _ _ _ => Some 0) (fun _ _ => Some 0) vzero.
Definition asperity (s : solid) : element := ElRough normal_dir normal_dirT (asperity_r s) asperity_s.

Lemma asperity_law s : physical s -> has_law 1 true (asperity s) (rough_static 1 normal_dir normal_dirT s 0 1 (fun i => 0 + 0) (fun _ => 1)).
Proof. intros H. apply (law_rough 1 true normal_dir normal_dirT (asperity_r s) asperity_s s H); [reflexivity|intros; cbn; lra|cbn; lra|reflexivity|reflexivity]. Qed.

Lemma asperity_residual s k F : physical s -> exists els', sys_run 1 [asperity s] [SInit] = (els', []) /\
  forall x, exists R J, sys_static_res 1 (fun _ _ => k) els' (fun _ => x) (fun _ => F) = Ok (Some R, J) /\ R O = k * x + asperity_force s 0 0 x - F.
Proof.
  intros H. assert (H2 : Forall2 (has_law 1 true) [asperity s] [rough_static 1 normal_dir normal_dirT s 0 1 (fun i => 0 + 0) (fun _ => 1)]) by (constructor; [apply asperity_law; exact H|constructor]).
  assert (SW : switchable [asperity s] []) by (intros []).
  destruct (static_after_history 1 (fun _ _ => k) _ _ true [] (fun _ => 0) (fun _ => F) H2 SW) as (els' & _ & _ & E & _).
  exists els'. split; [exact E|]. intros x.
  destruct (static_after_history 1 (fun _ _ => k) _ _ true [] (fun _ => x) (fun _ => F) H2 SW) as (els2 & R & J & E' & ER & VR). rewrite E in E'. inversion E'. subst els2. exists R, J. split; [exact ER|].
  rewrite VR. cbn [after_calls fold_left fst snd total_static fold_right]. unfold rough_static. cbn [map memory_after fold_left rsum Nat.ltb Nat.leb mem_d mem_F mem_u mem_f].
  unfold local_at, normal_dir, normal_dirT. cbn [rsum Nat.eqb]. replace (0 - (0 + 0)) with 0 by ring. replace (0 + 1 * x - (0 + 0)) with x by ring. ring.
Qed.

Lemma first_force s x : physical s -> asperity_force s 0 0 x = if Rlt_dec x (yield_limit s) then solid_hertz s x else if Rlt_dec (yield_limit s) x then plastic_law s x else 0.
Proof.
  intros H. pose proof (yield_pos s H) as Y. assert (P : 0 < yield_limit s) by (unfold yield_limit; lra). unfold asperity_force.
  destruct (Rlt_dec x (yield_limit s)) as [L|L].
  - destruct (Rlt_dec _ _) as [|Z]; [reflexivity|]. exfalso. apply Z. apply Rmax_lub_lt; lra.
  - destruct (Rlt_dec (Rmax 0 x) _) as [Z|_]; [pose proof (Rmax_r 0 x); lra|]. rewrite (Rmax_right 0) by lra. rewrite Rmin_left by lra.
    destruct (Rlt_dec (yield_limit s) x); [reflexivity|]. destruct (Rlt_dec 0 0); lra.
Qed.

Lemma two_depths s k : physical s -> 0 < k -> exists x, 0 < x < yield_limit s /\ k * x + solid_hertz s x = k * yield_limit s.
Proof.
  intros H Hk. pose proof (yield_pos s H) as Y. assert (P : 0 < yield_limit s) by (unfold yield_limit; lra). pose proof (effective_pos s H) as HE. assert (HR : 0 < s_R s) by apply H.
  set (c := 4/3 * effective_modulus s * sqrt (s_R s)). assert (Hc : 0 < c) by (apply Rmult_lt_0_compat; [lra|apply sqrt_lt_R0; exact HR]). set (f := fun x => k * x + c * (x * sqrt x) - k * yield_limit s).
  destruct (IVT_interv f 0 (yield_limit s)) as (x & Hx & Ex).
  - intros a [Ha _]. unfold f. apply continuity_pt_minus; [|apply continuity_pt_const; intros ? ?; reflexivity]. apply continuity_pt_plus.
    + apply continuity_pt_scal. apply derivable_continuous_pt, derivable_pt_id.
    + apply continuity_pt_scal. apply continuity_pt_mult; [apply derivable_continuous_pt, derivable_pt_id|apply continuity_pt_sqrt; exact Ha].
  - exact P.
  - unfold f. rewrite Rmult_0_l, !Rmult_0_r. assert (0 < k * yield_limit s) by nra. lra.
  - unfold f. pose proof (sqrt_lt_R0 (yield_limit s) P). assert (0 < c * (yield_limit s * sqrt (yield_limit s))) by (apply Rmult_lt_0_compat; [exact Hc|apply Rmult_lt_0_compat; assumption]). lra.
  - exists x. unfold f in Ex. assert (X0 : x <> 0) by (intros ->; rewrite Rmult_0_l, !Rmult_0_r in Ex; assert (0 < k * yield_limit s) by nra; lra).
    assert (X1 : 0 < c * (x * sqrt x)) by (apply Rmult_lt_0_compat; [exact Hc|apply Rmult_lt_0_compat; [lra|apply sqrt_lt_R0; lra]]). split; [split; [lra|nra]|].
    unfold solid_hertz, hertz. destruct (Rlt_dec 0 x); [|lra]. fold c. lra.
Qed.

Lemma rough_states s k : physical s -> 0 < k -> exists e els' Fs U V R JR S JS, resisting_law 1 true e /\ (exists law, has_law 1 true e law) /\ sys_run 1 [e] [SInit] = (els', []) /\
  stiffness_at_least 1 k (fun _ _ => k) /\ sys_static_res 1 (fun _ _ => k) els' U Fs = Ok (Some R, JR) /\ sys_static_res 1 (fun _ _ => k) els' V Fs = Ok (Some S, JS) /\
  R O = 0 /\ S O = 0 /\ U O < V O.
Proof.
  intros H Hk. destruct (two_depths s k H Hk) as (x & Hx & Ex). destruct (asperity_residual s k (k * yield_limit s) H) as (els' & E & HR).
  destruct (HR x) as (R & JR & E1 & V1). destruct (HR (yield_limit s)) as (S & JS & E2 & V2).
  exists (asperity s), els', (fun _ => k * yield_limit s), (fun _ => x), (fun _ => yield_limit s), R, JR, S, JS.
  split. { split; [|split; [right; reflexivity|intros; cbn; lra]]. intros i d _ _. reflexivity. }
  split; [eexists; apply asperity_law; exact H|]. split; [exact E|].
  split. { split; [exact Hk|]. intros y. unfold length2. cbn [rsum]. lra. }
  split; [exact E1|]. split; [exact E2|]. rewrite V1, V2, !first_force by exact H. split; [|split; [|lra]].
  - destruct (Rlt_dec x (yield_limit s)); lra.
  - destruct (Rlt_dec (yield_limit s) (yield_limit s)); lra.
Qed.

(** * Systems that meet the conditions *)
Definition held_els : list element :=
  [ElInstant (cubic_nl 2 2 unit_mat unit_mat (fun _ => 3)); ElInstant (unilateral_nl 2 1 unit_mat unit_mat (fun _ => 2) (fun _ => 1) (fun _ => 0));
   ElJenkins unit_mat unit_mat (mkJ 4 1 0 1 (Some (2, 1)) None); ElEldry 2 1 unit_mat unit_mat (ed_set_prestress_mu (ed_new 1 5 (1/2) 0 None))].

Lemma unit_aligned N n : aligned N n unit_mat unit_mat.
Proof. intros i d _ _. unfold unit_mat. rewrite Nat.eqb_sym. reflexivity. Qed.

Lemma held_resist : forall e, In e held_els -> resisting 2 e.
Proof.
  intros e [<-|[<-|[<-|[<-|[]]]]].
  - exists 2%nat, unit_mat, unit_mat. split; [apply unit_aligned|]. left. exists (fun _ => 3). split; [intros; lra|reflexivity].
  - exists 1%nat, unit_mat, unit_mat. split; [apply unit_aligned|]. right. right. right. left. do 3 eexists. split; [|reflexivity]. intros; cbn; lra.
  - cbn. split; [apply unit_aligned|]. repeat split; try lra. discriminate.
  - cbn. split; [apply unit_aligned|]. repeat split; try lra. lia.
Qed.

Lemma pressed_ok : exists law, has_law 3 true rough_el law /\ switchable [rough_el] [SPrestress] /\ resisting_law 3 (fst (after_calls true [SPrestress])) rough_el /\
  forall t : R, t < 1 -> no_yielding 3 (snd (after_calls true [SPrestress])) (fun j => match j with 2%nat => t * yield_limit steel | _ => 0 end) rough_el.
Proof.
  pose proof (limit_pos steel steel_physical) as Hp.
  destruct rough_ok as (law & HL & _). exists law. split; [exact HL|]. split; [intros _ e [<-|[]]; reflexivity|]. split.
  - split; [intros i d _ _; cbn; rewrite Nat.eqb_sym; reflexivity|]. split; [left; reflexivity|]. intros; cbn; lra.
  - intros t Ht. cbn [no_yielding rough_el r_mat r_n r_meso r_gaps r_mu map after_calls fold_left snd fst]. intros sol _ E a Ha. injection E as E1 E2 E3 E4 E5.
    assert (Es : sol = steel) by (destruct sol; cbn in *; subst; reflexivity). rewrite Es. cbn [memory_after fold_left mem_d]. unfold local_at. cbn [rsum Nat.eqb]. right. split; [|nra].
    cbn. lra.
Qed.
