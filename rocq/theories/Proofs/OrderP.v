(** The order of the nonlinear elements in a system. *)
From Coq Require Import Reals List Arith Lia Lra Permutation FunctionalExtensionality.
From Verif.Lib Require Import RSum Py.
From Verif.Model Require Import Harmonic Aft VibSys Jenkins Iwan JaxFriction RoughContact SysHistory SysHarmonic.
From Verif.Spec Require Import Order.
From Verif.Proofs Require Import SysHistoryCaseP.
Import ListNotations.
Open Scope R_scope.

Lemma same_refl {A} (r : result A) : same_outcome r r.
Proof. destruct r; cbn; auto. Qed.
Lemma same_trans {A} (a b c : result A) : same_outcome a b -> same_outcome b c -> same_outcome a c.
Proof. destruct a, b, c; cbn; intuition congruence. Qed.
Lemma same_bind {A B} (r r' : result A) (k k' : A -> result B) :
  same_outcome r r' -> (forall x, same_outcome (k x) (k' x)) -> same_outcome (bind r k) (bind r' k').
Proof. destruct r, r'; cbn; intros H K; subst; auto; contradiction. Qed.

(** a loop that adds the contributions of its elements *)
Section Loop.
  Context {E V A : Type} (get : E -> result V) (add : A -> V -> A).
  Hypothesis add_swap : forall a x y, add (add a x) y = add (add a y) x.
  Fixpoint fold_loop (l : list E) (a : A) : result A :=
    match l with [] => Ok a | e :: l' => do v <- get e; fold_loop l' (add a v) end.
  Lemma fold_err l : (exists e x, In e l /\ get e = Err x) -> forall a, exists x, fold_loop l a = Err x.
  Proof.
    induction l as [|e l IH]; intros (e0 & x0 & [] & H0) a; cbn.
    - subst. rewrite H0. cbn. eauto.
    - destruct (get e); cbn; eauto.
  Qed.
  Lemma fold_perm l l' : Permutation l l' -> forall a, same_outcome (fold_loop l a) (fold_loop l' a).
  Proof.
    induction 1; intros a; cbn.
    - reflexivity.
    - apply same_bind; [apply same_refl|]. intros v. apply IHPermutation.
    - destruct (get x) as [vx|] eqn:X, (get y) as [vy|] eqn:Y; cbn; try rewrite X; try rewrite Y; cbn; auto.
      rewrite add_swap. apply same_refl.
    - eapply same_trans; eauto.
  Qed.
End Loop.

Lemma vadd_swap a x y : vadd (vadd a x) y = vadd (vadd a y) x.
Proof. apply functional_extensionality; intros i. unfold vadd. ring. Qed.
Lemma madd_swap a x y : madd (madd a x) y = madd (madd a y) x.
Proof. apply functional_extensionality; intros i. apply functional_extensionality; intros j. unfold madd. ring. Qed.

(** ---- systems without memory ---- *)
Lemma static_loop_fold fs U acc :
  static_loop fs U acc = fold_loop (fun f => nl_force f U) (fun (a FJ : vec * mat) => (vadd (fst a) (fst FJ), madd (snd a) (snd FJ))) fs acc.
Proof. revert acc. induction fs as [|f fs IH]; intros acc; cbn; auto. destruct (nl_force f U) as [[F J]|]; cbn; auto. Qed.
Lemma aft_loop_fold fs U w h Nt acc :
  aft_loop fs U w h Nt acc = fold_loop (fun f => nl_aft f U w h Nt)
    (fun (a v : vec * mat * vec) => (vadd (fst (fst a)) (fst (fst v)), madd (snd (fst a)) (snd (fst v)), vadd (snd a) (snd v))) fs acc.
Proof. revert acc. induction fs as [|f fs IH]; intros acc; cbn; auto. destruct (nl_aft f U w h Nt) as [[[F J] d]|]; cbn; auto. Qed.
Lemma aft_loop_F_fold fs U w h Nt acc :
  aft_loop_F fs U w h Nt acc = fold_loop (fun f => nl_aft_F f U w h Nt) vadd fs acc.
Proof. revert acc. induction fs as [|f fs IH]; intros acc; cbn; auto. destruct (nl_aft_F f U w h Nt); cbn; auto. Qed.

Lemma static_order s s' : reordered s s' -> forall U Fs, same_outcome (static_res s U Fs) (static_res s' U Fs).
Proof.
  intros (N & M & K & C & ab & P) U Fs. unfold static_res. rewrite N, K. apply same_bind; [|intros [F J]; apply same_refl].
  rewrite !static_loop_fold. apply fold_perm; auto. intros a x y. cbn. f_equal; [apply vadd_swap|apply madd_swap].
Qed.

Lemma total_order s s' : reordered s s' -> forall U w h Nt g, same_outcome (total_aft s U w h Nt g) (total_aft s' U w h Nt g).
Proof.
  intros (N & M & K & C & ab & P) U w h Nt g. unfold total_aft. apply same_bind; [apply same_refl|]. intros _. destruct g.
  - apply same_bind; [|intros [F J]; apply same_refl]. rewrite !aft_loop_fold. apply fold_perm; auto.
    intros a x y. cbn. rewrite (vadd_swap (fst (fst a))), (madd_swap (snd (fst a))), (vadd_swap (snd a)). reflexivity.
  - apply same_bind; [|intros F; apply same_refl]. rewrite !aft_loop_F_fold. apply fold_perm; auto. intros; apply vadd_swap.
Qed.

Ltac order_step s s' R :=
  match goal with
  | |- same_outcome ?x ?x => apply same_refl
  | |- same_outcome (bind ?r _) (bind ?r' _) => apply same_bind; [| let v := fresh "v" in intros v]
  | |- same_outcome (total_aft s _ _ _ _ _) _ => apply total_order; exact R
  | |- same_outcome (match ?x with _ => _ end) (match ?x with _ => _ end) => destruct x
  end.

Lemma hbm_order s s' : reordered s s' -> forall Uw Fl h Nt g, same_outcome (hbm_res s Uw Fl h Nt g) (hbm_res s' Uw Fl h Nt g).
Proof. intros R Uw Fl h Nt g. pose proof R as R0. unfold hbm_res. cbv zeta. destruct R as (HN & HM & HK & HC & Hab & HP). rewrite ?HN, ?HM, ?HK, ?HC, ?Hab. repeat order_step s s' R0. Qed.

Lemma dFl_order s s' : reordered s s' -> forall UF w Fl h Nt g, same_outcome (hbm_res_dFl s UF w Fl h Nt g) (hbm_res_dFl s' UF w Fl h Nt g).
Proof. intros R UF w Fl h Nt g. pose proof R as R0. unfold hbm_res_dFl. cbv zeta. destruct R as (HN & HM & HK & HC & Hab & HP). rewrite ?HN, ?HM, ?HK, ?HC, ?Hab.
  destruct h; [apply same_refl|]. repeat first [apply hbm_order; exact R0 | order_step s s' R0]. Qed.

Lemma base_order s s' : reordered s s' -> forall Uw Ub bf h Nt, same_outcome (hbm_base_res s Uw Ub bf h Nt) (hbm_base_res s' Uw Ub bf h Nt).
Proof. intros R Uw Ub bf h Nt. pose proof R as R0. unfold hbm_base_res. cbv zeta. destruct R as (HN & HM & HK & HC & Hab & HP). rewrite ?HN, ?HM, ?HK, ?HC, ?Hab.
  repeat first [apply hbm_order; exact R0 | order_step s s' R0]. Qed.

Lemma epmc_order s s' : reordered s s' -> forall U Fl h Nt g, same_outcome (epmc_res s U Fl h Nt g) (epmc_res s' U Fl h Nt g).
Proof. intros R U Fl h Nt g. pose proof R as R0. unfold epmc_res. cbv zeta. destruct R as (HN & HM & HK & HC & Hab & HP). rewrite ?HN, ?HM, ?HK, ?HC, ?Hab. repeat order_step s s' R0. Qed.

Lemma amp_order s s' : reordered s s' -> forall X Fl h r a o Nt g,
  same_outcome (hbm_amp_control_res s X Fl h r a o Nt g) (hbm_amp_control_res s' X Fl h r a o Nt g).
Proof. intros R X Fl h r a o Nt g. pose proof R as R0. unfold hbm_amp_control_res. cbv zeta. destruct R as (HN & HM & HK & HC & Hab & HP). rewrite ?HN, ?HM, ?HK, ?HC, ?Hab.
  destruct h; [apply same_refl|]. repeat first [apply hbm_order; exact R0 | order_step s s' R0]. Qed.

Lemma amp_phase_order s s' : reordered s s' -> forall X Fl h r a o Nt g,
  same_outcome (hbm_amp_phase_control_res s X Fl h r a o Nt g) (hbm_amp_phase_control_res s' X Fl h r a o Nt g).
Proof. intros R X Fl h r a o Nt g. pose proof R as R0. unfold hbm_amp_phase_control_res. cbv zeta. destruct R as (HN & HM & HK & HC & Hab & HP). rewrite ?HN, ?HM, ?HK, ?HC, ?Hab.
  destruct h; [apply same_refl|]. repeat first [apply hbm_order; exact R0 | order_step s s' R0]. Qed.

Lemma dA_order s s' : reordered s s' -> forall X Fl h r w o Nt g,
  same_outcome (hbm_amp_phase_control_dA_res s X Fl h r w o Nt g) (hbm_amp_phase_control_dA_res s' X Fl h r w o Nt g).
Proof. intros R X Fl h r w o Nt g. pose proof R as R0. unfold hbm_amp_phase_control_dA_res. cbv zeta. destruct R as (HN & HM & HK & HC & Hab & HP). rewrite ?HN, ?HM, ?HK, ?HC, ?Hab.
  apply same_bind; [apply amp_phase_order; exact R0|]. intros v. apply same_refl. Qed.

Lemma single_order s s' : reordered s s' -> forall U w h rhi Nt g flt,
  same_outcome (vprnm_single_eqn s U w h rhi Nt g flt) (vprnm_single_eqn s' U w h rhi Nt g flt).
Proof. intros R U w h rhi Nt g flt. pose proof R as R0. unfold vprnm_single_eqn. cbv zeta. destruct R as (HN & HM & HK & HC & Hab & HP). rewrite ?HN, ?HM, ?HK, ?HC, ?Hab.
  apply same_bind; [apply same_refl|]. intros n. apply same_bind; [apply same_refl|]. intros ri.
  apply same_bind; [apply total_order; exact R0|]. intros v. apply same_refl. Qed.

Lemma vprnm_order s s' : reordered s s' -> forall X h rhi Fl Nt g flt c,
  same_outcome (vprnm_res s X h rhi Fl Nt g flt c) (vprnm_res s' X h rhi Fl Nt g flt c).
Proof. intros R X h rhi Fl Nt g flt c. pose proof R as R0. unfold vprnm_res. cbv zeta. destruct R as (HN & HM & HK & HC & Hab & HP). rewrite ?HN, ?HM, ?HK, ?HC, ?Hab. destruct h; [apply same_refl|].
  apply same_bind; [apply same_refl|]. intros nh. apply same_bind; [apply hbm_order; exact R0|]. intros v.
  destruct v as [Rh G]. apply same_bind; [apply single_order; exact R0|]. intros u. apply same_refl. Qed.

Lemma vprnm_amp_phase_order s s' : reordered s s' -> forall X Fl h rhi r o Nt g flt c,
  same_outcome (vprnm_amp_phase_res s X Fl h rhi r o Nt g flt c) (vprnm_amp_phase_res s' X Fl h rhi r o Nt g flt c).
Proof. intros R X Fl h rhi r o Nt g flt c. pose proof R as R0. unfold vprnm_amp_phase_res. cbv zeta. destruct R as (HN & HM & HK & HC & Hab & HP). rewrite ?HN, ?HM, ?HK, ?HC, ?Hab.
  apply same_bind; [apply amp_phase_order; exact R0|]. intros [Rh G].
  apply same_bind; [apply single_order; exact R0|]. intros u. apply same_refl. Qed.

(** ---- the last force in shooting ---- *)
Definition const_force (c : R) : nlforce :=
  mkForce O (fun _ => Ok ((fun _ => c), mzero)) (fun _ _ _ _ => Ok (vzero, mzero, vzero)) (fun _ _ _ _ => Ok vzero).
Definition two_consts (a b : R) : vibsys := vs_add_nl_force (vs_add_nl_force (vs_new 1 mid mid None None) (const_force a)) (const_force b).
Lemma two_reordered a b : reordered (two_consts a b) (two_consts b a).
Proof. repeat split. cbn. constructor. Qed.
Lemma shooting_order : exists inv s s' t y Fl w, reordered s s' /\
  ~ same_outcome (shooting_state_space inv t y s Fl w) (shooting_state_space inv t y s' Fl w).
Proof.
  exists (fun M => M), (two_consts 1 2), (two_consts 2 1), 0, vzero, vzero, 1. split; [apply two_reordered|].
  cbn. intros E. apply (f_equal (fun v : vec => v 1%nat)) in E. revert E. cbn. unfold matvec, vzero, mid, mzero. cbn.
  intros E. ring_simplify in E. lra.
Qed.

(** ---- systems with memory ---- *)
Definition elementwise (f : element -> result element) : list element -> list element * option exn :=
  fix go l := match l with
              | [] => ([], None)
              | e :: l' => match f e with Ok e' => let '(l1, x) := go l' in (e' :: l1, x) | Err x => (e :: l', Some x) end
              end.
Lemma elementwise_ok f l l' : elementwise f l = (l', None) <-> Forall2 (fun e e' => f e = Ok e') l l'.
Proof.
  revert l'. induction l as [|e l IH]; intros l'; cbn.
  - split; intros H; [injection H as <-; constructor | inversion H; auto].
  - destruct (f e) as [e'|x] eqn:E.
    + destruct (elementwise f l) as [l1 x] eqn:L. split; intros H.
      * injection H as <- ->. constructor; auto. apply IH. reflexivity.
      * inversion H; subst. replace e' with y by congruence. apply IH in H4. congruence.
    + split; intros H; [discriminate|]. inversion H; congruence.
Qed.
Lemma forall2_perm {A B} (P : A -> B -> Prop) l l2 l' : Permutation l l2 -> Forall2 P l l' -> exists l2', Permutation l' l2' /\ Forall2 P l2 l2'.
Proof.
  intros Q. revert l'. induction Q; intros l0 H.
  - inversion H; subst. exists []. split; constructor.
  - inversion H; subst. destruct (IHQ _ H4) as (l2' & Q2 & F2). exists (y :: l2'). split; constructor; auto.
  - inversion H; subst. inversion H4; subst. eexists (_ :: _ :: _). split; [apply perm_swap|]. repeat constructor; eauto.
  - destruct (IHQ1 _ H) as (a & Qa & Fa). destruct (IHQ2 _ Fa) as (b & Qb & Fb). exists b. split; auto. eapply perm_trans; eauto.
Qed.
Lemma elementwise_perm f l l2 l' : Permutation l l2 -> elementwise f l = (l', None) ->
  exists l2', Permutation l' l2' /\ elementwise f l2 = (l2', None).
Proof. intros P H. apply elementwise_ok in H. destruct (forall2_perm _ _ _ _ P H) as (l2' & Q & F). exists l2'. split; auto. apply elementwise_ok; auto. Qed.

Lemma init_elementwise l : init_force_history l = elementwise (fun e => if Nat.eqb (nl_force_type e) 1 then el_init e else Ok e) l.
Proof. induction l as [|e l IH]; cbn; auto. rewrite IH. destruct (Nat.eqb (nl_force_type e) 1); auto. Qed.
Lemma update_elementwise N l U : update_force_history N l U =
  elementwise (fun e => if Nat.eqb (nl_force_type e) 1 then do (e', _) <- element_force N e U true; Ok e' else Ok e) l.
Proof. induction l as [|e l IH]; cbn; auto. rewrite IH. destruct (Nat.eqb (nl_force_type e) 1); auto.
  destruct (element_force N e U true) as [[e' v]|]; auto. Qed.
Lemma prestress_elementwise l : prestress_all l = elementwise el_prestress l.
Proof. induction l as [|e l IH]; reflexivity. Qed.

Lemma oadd_swap a x y : oadd (oadd a x) y = oadd (oadd a y) x.
Proof. destruct a, x, y; cbn; auto. f_equal. apply vadd_swap. Qed.
Lemma omadd_swap a x y : omadd (omadd a x) y = omadd (omadd a y) x.
Proof. destruct a, x, y; cbn; auto. f_equal. apply madd_swap. Qed.
Lemma element_loop_fold N l U F J : element_loop N l U F J =
  fold_loop (fun e => element_force N e U false) (fun a (v : element * (option vec * option mat)) => (oadd (fst a) (fst (snd v)), omadd (snd a) (snd (snd v)))) l (F, J).
Proof. revert F J. induction l as [|e l IH]; intros F J; cbn; auto. destruct (element_force N e U false) as [[e' [Fe Je]]|]; cbn; auto. Qed.
Lemma sys_static_order N K l l2 U Fs : Permutation l l2 -> same_outcome (sys_static_res N K l U Fs) (sys_static_res N K l2 U Fs).
Proof.
  intros P. unfold sys_static_res. apply same_bind; [|intros v; apply same_refl].
  rewrite !element_loop_fold. apply fold_perm; auto. intros a x y. cbn. f_equal; [apply oadd_swap|apply omadd_swap].
Qed.

Lemma sys_aft_fold N l U w h Nt F : snd (sys_aft N l U w h Nt F) =
  fold_loop (fun e => element_aft N e U w h Nt) (fun a (v : element * option vec) => oadd a (snd v)) l F.
Proof. revert F. induction l as [|e l IH]; intros F; cbn; auto. destruct (element_aft N e U w h Nt) as [[e' Fe]|]; cbn; auto.
  rewrite <- IH. destruct (sys_aft N l U w h Nt (oadd F Fe)); auto. Qed.
Lemma sys_hbm_order N M C K l l2 Uw Fl h Nt : Permutation l l2 ->
  same_outcome (snd (sys_hbm_res N M C K l Uw Fl h Nt)) (snd (sys_hbm_res N M C K l2 Uw Fl h Nt)).
Proof.
  intros P. unfold sys_hbm_res. cbv zeta. destruct (harmonic_stiffness _ _ _ _ _ _ _ _) as [[E dE]|]; [|cbn; auto].
  pose proof (sys_aft_fold N l (take (aft_Nhc h * N) Uw) (Uw (aft_Nhc h * N)%nat) h Nt (Some vzero)) as A.
  pose proof (sys_aft_fold N l2 (take (aft_Nhc h * N) Uw) (Uw (aft_Nhc h * N)%nat) h Nt (Some vzero)) as B.
  destruct (sys_aft N l _ _ _ _ _) as [l1 r1], (sys_aft N l2 _ _ _ _ _) as [l3 r3]. cbn in A, B |- *. subst.
  apply same_bind; [|intros v; apply same_refl]. apply fold_perm; auto. intros; apply oadd_swap.
Qed.

Lemma exec_order N l l2 c l' : Permutation l l2 -> sys_exec N l c = (l', None) -> exists l2', Permutation l' l2' /\ sys_exec N l2 c = (l2', None).
Proof.
  intros P. destruct c; cbn.
  - rewrite !init_elementwise. apply elementwise_perm; auto.
  - rewrite !update_elementwise. apply elementwise_perm; auto.
  - rewrite !prestress_elementwise. apply elementwise_perm; auto.
  - intros H. injection H as <-. eexists. split; [apply Permutation_map; eauto|reflexivity].
  - intros H. injection H as <-. eexists. split; [apply Permutation_map; eauto|reflexivity].
  - intros H. injection H as <- H. exists l2. split; auto. pose proof (sys_static_order N mzero l l2 U Fstatic P) as S0.
    destruct (sys_static_res N mzero l U Fstatic); [|discriminate]. destruct (sys_static_res N mzero l2 U Fstatic); [reflexivity|contradiction].
Qed.

Lemma run_order N cs : forall l l2 l', Permutation l l2 -> sys_run N l cs = (l', []) -> exists l2', Permutation l' l2' /\ sys_run N l2 cs = (l2', []).
Proof.
  induction cs as [|c cs IH]; intros l l2 l' P H; cbn in *.
  - injection H as <-. eauto.
  - destruct (sys_exec N l c) as [l1 x] eqn:E. destruct (sys_run N l1 cs) as [l3 xs] eqn:Q. destruct x; [discriminate|]. injection H as <- ->.
    destruct (exec_order _ _ _ _ _ P E) as (l4 & P4 & E4). destruct (IH _ _ _ P4 Q) as (l5 & P5 & E5). exists l5. rewrite E4, E5. auto.
Qed.

Lemma history_order N M C K l l2 cs l' : Permutation l l2 -> sys_run N l cs = (l', []) -> exists l2',
  sys_run N l2 cs = (l2', []) /\ Permutation l' l2' /\
  (forall U Fs, same_outcome (sys_static_res N K l' U Fs) (sys_static_res N K l2' U Fs)) /\
  (forall Uw Fl h Nt, same_outcome (snd (sys_hbm_res N M C K l' Uw Fl h Nt)) (snd (sys_hbm_res N M C K l2' Uw Fl h Nt))).
Proof.
  intros P H. destruct (run_order _ _ _ _ _ P H) as (l2' & P2 & H2). exists l2'. repeat split; auto.
  - intros. apply sys_static_order; auto.
  - intros. apply sys_hbm_order; auto.
Qed.

(** an exception stops the loop over the elements, so what comes after it depends on the order *)
Lemma error_order : exists N l l2 cs U Fs, Permutation l l2 /\
  ~ same_outcome (sys_static_res N mzero (fst (sys_run N l cs)) U Fs) (sys_static_res N mzero (fst (sys_run N l2 cs)) U Fs).
Proof.
  exists 1%nat, [ElJenkins mid mid (j_new 1 1); ElJaxJenkins mid mid 1 None 1 1 0], [ElJaxJenkins mid mid 1 None 1 1 0; ElJenkins mid mid (j_new 1 1)],
    [SInit], vzero, vzero. split; [constructor|].
  cbn [sys_run sys_exec init_force_history nl_force_type Nat.eqb el_init fst]. unfold sys_static_res. cbn [element_loop].
  unfold element_force at 1. unfold j_force, j_init_history, j_set_hist. cbn [j_hist]. match goal with |- context [j_law ?a ?b ?c ?d ?e] => destruct (j_law a b c d e) as [[[f k] p] q] end. cbn. auto.
Qed.

Lemma hbm_orders : forall s s', reordered s s' -> forall h Nt calc_grad,
  (forall Uw Fl, same_outcome (hbm_res s Uw Fl h Nt calc_grad) (hbm_res s' Uw Fl h Nt calc_grad)) /\
  (forall UF w Fl, same_outcome (hbm_res_dFl s UF w Fl h Nt calc_grad) (hbm_res_dFl s' UF w Fl h Nt calc_grad)) /\
  (forall Uw Ub base_flag, same_outcome (hbm_base_res s Uw Ub base_flag h Nt) (hbm_base_res s' Uw Ub base_flag h Nt)) /\
  (forall X Fl recov amp order, same_outcome (hbm_amp_control_res s X Fl h recov amp order Nt calc_grad)
                                             (hbm_amp_control_res s' X Fl h recov amp order Nt calc_grad)) /\
  (forall X Fl recov amp order, same_outcome (hbm_amp_phase_control_res s X Fl h recov amp order Nt calc_grad)
                                             (hbm_amp_phase_control_res s' X Fl h recov amp order Nt calc_grad)) /\
  (forall X Fl recov w order, same_outcome (hbm_amp_phase_control_dA_res s X Fl h recov w order Nt calc_grad)
                                           (hbm_amp_phase_control_dA_res s' X Fl h recov w order Nt calc_grad)).
Proof.
  intros s s' R h Nt g. repeat split; intros.
  - apply hbm_order; auto. - apply dFl_order; auto. - apply base_order; auto. - apply amp_order; auto.
  - apply amp_phase_order; auto. - apply dA_order; auto.
Qed.
Lemma resonance_orders : forall s s', reordered s s' -> forall h Nt calc_grad,
  (forall U Fl, same_outcome (epmc_res s U Fl h Nt calc_grad) (epmc_res s' U Fl h Nt calc_grad)) /\
  (forall X rhi Fl flt c, same_outcome (vprnm_res s X h rhi Fl Nt calc_grad flt c) (vprnm_res s' X h rhi Fl Nt calc_grad flt c)) /\
  (forall X rhi Fl recov order flt c, same_outcome (vprnm_amp_phase_res s X Fl h rhi recov order Nt calc_grad flt c)
                                                   (vprnm_amp_phase_res s' X Fl h rhi recov order Nt calc_grad flt c)).
Proof.
  intros s s' R h Nt g. repeat split; intros.
  - apply epmc_order; auto. - apply vprnm_order; auto. - apply vprnm_amp_phase_order; auto.
Qed.

Lemma three_reversed : Permutation three_els (rev three_els) /\ three_els <> rev three_els /\
  exists els', sys_run 2 three_els [SInit; SUpdate pull] = (els', []).
Proof.
  split; [apply Permutation_rev|]. split; [discriminate|]. destruct three_value as (els' & R & J & A & _). eauto.
Qed.
Lemma springs_reordered : reordered (vs_add_nl_force (vs_add_nl_force (vs_new 2 mid mid None None) cubic_spring) (const_force 1))
                                (vs_add_nl_force (vs_add_nl_force (vs_new 2 mid mid None None) (const_force 1)) cubic_spring).
Proof. repeat split. cbn. constructor. Qed.
