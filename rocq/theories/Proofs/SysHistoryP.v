(** Static load histories of whole systems. *)
From Coq Require Import Reals Lra Lia Arith List Bool.
From Verif.Lib Require Import RSum Py.
From Verif.Spec Require Import System Slider Rough StaticHistory SystemCalls.
From Verif.Model Require Import Harmonic VibSys Jenkins Iwan JaxDual JaxFloat JaxFriction RoughContact SysHistory.
From Verif.Proofs Require Import JenkinsP HysteresisP IwanP IwanOpsP EldryStaticP JaxFloatP RoughNormalP RoughStaticP RoughCallsP RoughAftP.
Import ListNotations.
Open Scope R_scope.

Lemma in_force_range b x : 0 <= x -> 0 <= friction_in_force b x. Proof. destruct b; cbn; lra. Qed.

Inductive tracked (N : nat) (st : bool * list load) : element -> static_law -> Prop :=
| tr_elastic f F J : (forall X, nl_force f X = Ok (F X, J X)) -> tracked N st (ElInstant f) (elastic_static F)
| tr_jenkins Q T s kt Fs : 0 <= Fs -> j_kt s = kt -> j_real_Fs s = Fs -> j_prestress_Fs s = 0 -> j_Fs s = friction_in_force (fst st) Fs ->
    j_hist s = Some (slide_all kt (map (fun l => (friction_in_force (fst l) Fs, local_at N Q (snd l) O)) (snd st))) ->
    tracked N st (ElJenkins Q T s) (jenkins_static N Q T kt Fs)
| tr_iwan Q T s n w phi : iw_n s = n -> iw_w s = w -> iw_phi s = phi -> phi_ok s -> on_track s (map (fun l => local_at N Q (snd l) O) (snd st)) ->
    tracked N st (ElIwan Q T s) (iwan_static N Q T n w phi)
| tr_eldry p ne Q T s kt kn mu gap : (0 < p)%nat -> 0 <= kn -> 0 <= mu -> ed_pars s = mkEP kt kn (friction_in_force (fst st) mu) gap ->
    ed_real_mu s = mu -> ed_prestress_mu s = 0 -> (forall d, ed_up s d = local_at N Q (last (map snd (snd st)) (fun _ => 0)) d) ->
    tracked N st (ElEldry p ne Q T s) (eldry_static p ne N Q T kt kn mu gap)
| tr_rough Q T r s sol : physical sol -> r_mat r = mat_of sol ->
    (forall i, (i < r_n r)%nat -> 0 <= r_meso r + r_gaps r i) -> 0 <= r_mu r -> r_model r = TAN -> rs_mu s = friction_in_force (fst st) (r_mu r) ->
    (forall i, (i < r_n r)%nat -> holds sol r s i (memory_after sol (r_meso r + r_gaps r i) (map (fun l => (friction_in_force (fst l) (r_mu r), local_at N Q (snd l))) (snd st)))) ->
    tracked N st (ElRough Q T r s) (rough_static N Q T sol (r_mu r) (r_n r) (fun i => r_meso r + r_gaps r i) (r_weights r)).

Lemma slide_snoc kt l mv : slide_all kt (l ++ [mv]) = slide kt (slide_all kt l) mv.
Proof. unfold slide_all. rewrite fold_left_app. reflexivity. Qed.
Lemma last_map_snoc {A B} (f : A -> B) l x d : last (map f (l ++ [x])) d = f x.
Proof. rewrite map_app. cbn [map]. apply last_last. Qed.

Lemma init_tracked N b e law : has_law N b e law -> nl_force_type e = 1%nat -> exists e', el_init e = Ok e' /\ tracked N (b, []) e' law /\ is_iwan e' = is_iwan e.
Proof.
  intros H Ht. destruct H as [f F J HF|Q T s Fs H0 H1 H2 H3|Q T s H|p ne Q T s kt kn mu gap H0 H1 H2 H3 H4 H5|Q T r s sol H0 H1 H2 H3 H4 H5]; [discriminate Ht| | | |]; (eexists; split; [reflexivity|split; [|reflexivity]]).
  - constructor; cbn; auto.
  - apply tr_iwan; [reflexivity|reflexivity|reflexivity|exact H|]. split; [reflexivity|]. intros i Hi. reflexivity.
  - constructor; cbn; auto. intros d. unfold local_at. symmetry. apply rsum_zero. intros. ring.
  - constructor; cbn [init_history rs_mu fst snd map]; auto. intros i Hi. exact (holds_start sol r H2 ltac:(rewrite H4; exact I) s i Hi).
Qed.

Lemma tracked_law N st e law : tracked N st e law -> has_law N (fst st) e law.
Proof. intros H. destruct H; subst; first [econstructor; eassumption|constructor; auto]. Qed.

Lemma tracked_reset N b l e law : tracked N (b, l) e law -> tracked N (true, l) (el_reset e) law.
Proof.
  intros H. inversion H; subst; cbn [el_reset fst snd] in *; first [eapply tr_elastic; eassumption|constructor; cbn; auto].
  match goal with E : ed_pars s = _ |- _ => rewrite E end. reflexivity.
Qed.
Lemma tracked_prestress N b l e law : tracked N (b, l) e law -> is_iwan e = false -> exists e', el_prestress e = Ok e' /\ tracked N (false, l) e' law /\ is_iwan e' = false.
Proof.
  intros H Hi. inversion H; subst; cbn [el_prestress is_iwan fst snd] in *; try discriminate Hi; (eexists; split; [reflexivity|split; [first [eapply tr_elastic; eassumption|constructor; cbn; auto]|reflexivity]]).
  match goal with E : ed_pars s = _, E' : ed_prestress_mu s = _ |- _ => rewrite E, E' end. reflexivity.
Qed.
Lemma tracked_aft N M U st e law : tracked N st e law -> tracked N st (el_aft_init M U e) law.
Proof. intros H. inversion H; subst; cbn [el_aft_init]; first [eapply tr_elastic; eassumption|constructor; cbn; auto]. Qed.

(** value of force, whether or not it updates *)
Lemma tracked_force N b l e law X upd : tracked N (b, l) e law -> (upd = true -> nl_force_type e = 1%nat) ->
  exists e' F J, element_force N e X upd = Ok (e', (Some F, J)) /\ (forall i, F i = law l b X i) /\ (upd = false -> e' = e) /\
    (upd = true -> tracked N (b, l ++ [(b, X)]) e' law) /\ is_iwan e' = is_iwan e.
Proof.
  intros H Ht. inversion H as [f F J HF E1 E2|Q T s kt Fs H0 H1 H2 H3 H4 H5 E1 E2|Q T s n w phi H1 H2 H3 H4 H5 E1 E2|p ne Q T s kt kn mu gap H0 H1 H2 H3 H4 H5 H6 E1 E2|Q T r s sol H0 H1 H2 H3 H4 H5 H6 E1 E2]; subst e law; cbn [fst snd] in *.
  - destruct upd; [specialize (Ht eq_refl); discriminate Ht|]. cbn [element_force]. rewrite HF. cbn [bind]. do 3 eexists. split; [reflexivity|]. split; [reflexivity|]. split; [reflexivity|]. split; [discriminate|reflexivity].
  - subst kt. set (h := slide_all (j_kt s) (map (fun l0 : load => (friction_in_force (fst l0) Fs, local_at N Q (snd l0) 0)) l)) in *. destruct h as [up fp] eqn:Eh. assert (H5' : j_hist s = Some (up, fp)) by (rewrite H5; f_equal; exact Eh).
    assert (V : j_f (j_law (j_kt s) (j_Fs s) up fp (matvec N Q X O)) = snd (slide (j_kt s) (up, fp) (friction_in_force b Fs, local_at N Q X O))).
    { rewrite j_law_clamp by (rewrite H4; apply in_force_range; exact H0). rewrite H4. unfold slide. cbn [fst snd]. f_equal. unfold local_at, matvec. ring. }
    cbn [element_force]. unfold j_force. rewrite H5'. unfold j_f in V. destruct (j_law (j_kt s) (j_Fs s) up fp (matvec N Q X O)) as [[[f df] dup] dfp] eqn:El. cbn [fst bind] in *.
    do 3 eexists. split; [reflexivity|]. cbn [snd fst]. split; [|split; [|split]].
    + intros i. unfold jenkins_static. rewrite map_app. cbn [map]. rewrite slide_snoc. match goal with |- context [slide (j_kt s) ?x _] => change x with h end. rewrite Eh. cbn [fst snd]. rewrite <- V. reflexivity.
    + intros ->. reflexivity.
    + intros ->. apply tr_jenkins; cbn [j_update_history j_set_hist j_kt j_real_Fs j_prestress_Fs j_Fs j_hist fst snd]; auto. rewrite map_app. cbn [map fst snd]. rewrite slide_snoc. match goal with |- context [slide (j_kt s) ?x _] => change x with h end. rewrite Eh. unfold slide. cbn [fst snd]. do 2 f_equal. rewrite V. reflexivity.
    + destruct upd; reflexivity.
  - cbn [element_force]. unfold iw_force. pose proof (instant_track s (map (fun l => local_at N Q (snd l) O) l) (matvec N Q X O) upd H4 H5) as I. cbv zeta in I. destruct I as (I1 & I2 & I3).
    destruct (iw_instant_force s (matvec N Q X O) upd) as [s' [[f df] st']] eqn:Ei. cbn [fst snd] in *. do 3 eexists. split; [reflexivity|]. split; [|split; [|split]].
    + intros i. unfold iwan_static. rewrite I3, H1, H2, H3. reflexivity.
    + intros ->. unfold iw_instant_force in Ei. inversion Ei. reflexivity.
    + intros ->. destruct I2 as (A & B & C). constructor; cbn; try congruence; [intros i Hi; rewrite B; apply H4; lia|]. rewrite map_app. exact I1.
    + reflexivity.
  - cbn [element_force]. pose proof (fun i => ed_force_value p ne N Q T s X upd i H0 ltac:(rewrite H3; exact H1) ltac:(rewrite H3; apply in_force_range; exact H2)) as V. rewrite H3 in V. cbn [ep_kt ep_kn ep_mu ep_gap] in V.
    assert (ES : fst (ed_force p ne N Q T s X upd) = if upd then ed_update_history s (matvec N Q X) (fun c => dv (ed_static p (ed_pars s) (dseed (matvec N Q X)) (ed_up s) (ed_fp s) c)) else s) by reflexivity.
    destruct (ed_force p ne N Q T s X upd) as [s' [F J]] eqn:Ef. cbn [fst snd] in *. do 3 eexists. split; [reflexivity|]. split; [|split; [|split]].
    + intros i. rewrite V. unfold eldry_static. apply rsum_ext. intros d Hd. f_equal. unfold contact_history. destruct (Nat.eqb d (normal_dof p d)); [reflexivity|]. unfold friction_law. cbn [slider]. rewrite H6. reflexivity.
    + intros ->. rewrite ES. reflexivity.
    + intros ->. rewrite ES. constructor; cbn; auto. intros d. rewrite last_map_snoc. reflexivity.
    + reflexivity.
  - cbn [element_force]. set (M := fun i => memory_after sol (r_meso r + r_gaps r i) (map (fun l => (friction_in_force (fst l) (r_mu r), local_at N Q (snd l))) l)) in *.
    assert (Hm : 0 <= rs_mu s) by (rewrite H5; apply in_force_range; exact H3). assert (MO : model_ok (r_model r)) by (rewrite H4; exact I).
    destruct (static_values sol r H0 H1 MO s (seeded_local N Q X) (matvec N Q X) M Hm (fun d => eq_refl) H6) as (A & B & C). cbv zeta in *.
    cbn [rough_force]. set (res := static_force r s (seeded_local N Q X)) in *.
    assert (FV : force_values T res = Some (fun i => rsum 3 (fun d => T i d * getR (fval (st_f res d))))).
    { unfold force_values. rewrite all_values_true; [reflexivity|]. intros d Hd. destruct (Nat.eq_dec d 2) as [->|]; [eexists; exact B|]. destruct (C d ltac:(lia)) as (f & Hf & _). eexists. exact Hf. }
    rewrite FV. do 3 eexists. split; [reflexivity|]. split; [|split; [|split]].
    + intros i. unfold rough_static. apply rsum_ext. intros d Hd. f_equal. destruct (Nat.ltb_spec d 2).
      * destruct (C d H7) as (f & Hf & Ef & _). rewrite (fv_get _ _ Hf), (Ef H4). rewrite H5. reflexivity.
      * assert (d = 2)%nat by lia. subst d. rewrite (fv_get _ _ B). reflexivity.
    + intros ->. reflexivity.
    + intros ->. apply tr_rough; auto. intros i Hi. cbn [snd]. rewrite map_app. unfold memory_after. rewrite fold_left_app. cbn [map fold_left fst snd].
      pose proof (holds_update sol r N Q H0 H1 MO s X i M Hm H6 Hi) as K. rewrite H5 in K. exact K.
    + reflexivity.
Qed.

Lemma init_all N b els laws : Forall2 (has_law N b) els laws -> exists els', init_force_history els = (els', None) /\ Forall2 (tracked N (b, [])) els' laws /\ map is_iwan els' = map is_iwan els.
Proof.
  intros H. induction H as [|e law els laws He H (els' & IH & Tr & Im)]; [exists []; repeat split; constructor|]. cbn [init_force_history]. destruct (Nat.eqb_spec (nl_force_type e) 1) as [Et|Et].
  - destruct (init_tracked N b e law He Et) as (e' & -> & Te & Ie). rewrite IH. exists (e' :: els'). split; [reflexivity|]. split; [constructor; assumption|]. cbn [map]. rewrite Ie, Im. reflexivity.
  - rewrite IH. exists (e :: els'). split; [reflexivity|]. split; [|cbn [map]; rewrite Im; reflexivity]. constructor; [|exact Tr]. destruct He; try (exfalso; apply Et; reflexivity). eapply tr_elastic; eassumption.
Qed.
Lemma update_all N b l els laws U : Forall2 (tracked N (b, l)) els laws -> exists els', update_force_history N els U = (els', None) /\ Forall2 (tracked N (b, l ++ [(b, U)])) els' laws /\ map is_iwan els' = map is_iwan els.
Proof.
  intros H. induction H as [|e law els laws He H (els' & IH & Tr & Im)]; [exists []; repeat split; constructor|]. cbn [update_force_history]. destruct (Nat.eqb_spec (nl_force_type e) 1) as [Et|Et].
  - destruct (tracked_force N b l e law U true He (fun _ => Et)) as (e' & F & J & -> & _ & _ & Te & Ie). rewrite IH. exists (e' :: els'). split; [reflexivity|]. split; [constructor; auto|]. cbn [map]. rewrite Ie, Im. reflexivity.
  - rewrite IH. exists (e :: els'). split; [reflexivity|]. split; [|cbn [map]; rewrite Im; reflexivity]. constructor; [|exact Tr]. destruct He; try (exfalso; apply Et; reflexivity). eapply tr_elastic; eassumption.
Qed.
Lemma prestress_every N b l els laws : Forall2 (tracked N (b, l)) els laws -> (forall e, In e els -> is_iwan e = false) -> exists els', prestress_all els = (els', None) /\ Forall2 (tracked N (false, l)) els' laws /\ map is_iwan els' = map is_iwan els.
Proof.
  intros H. induction H as [|e law els laws He H IH]; intros Hi; [exists []; repeat split; constructor|]. cbn [prestress_all]. destruct (IH (fun x Hx => Hi x (or_intror Hx))) as (els' & -> & Tr & Im).
  destruct (tracked_prestress N b l e law He (Hi e (or_introl eq_refl))) as (e' & -> & Te & Ie). exists (e' :: els'). split; [reflexivity|]. split; [constructor; assumption|]. cbn [map]. rewrite Ie, Im, (Hi e (or_introl eq_refl)). reflexivity.
Qed.
Lemma map_tracked N st st' (f : element -> element) els laws : (forall e law, tracked N st e law -> tracked N st' (f e) law) -> Forall2 (tracked N st) els laws -> Forall2 (tracked N st') (map f els) laws.
Proof. intros Hf H. induction H; constructor; auto. Qed.

Lemma loop_value N b l X : forall els laws, Forall2 (tracked N (b, l)) els laws -> forall (F0 : vec) J0,
  exists F J, element_loop N els X (Some F0) J0 = Ok (Some F, J) /\ forall i, F i = F0 i + total_static laws l b X i.
Proof.
  intros els laws H. induction H as [|e law els laws He H IH]; intros F0 J0; cbn [element_loop total_static fold_right].
  - exists F0, J0. split; [reflexivity|]. intros i. ring.
  - destruct (tracked_force N b l e law X false He ltac:(discriminate)) as (e' & F & J & -> & Hv & _). cbn [bind fst snd oadd]. destruct (IH (vadd F0 F) (omadd J0 J)) as (F' & J' & -> & Hv').
    exists F', J'. split; [reflexivity|]. intros i. rewrite Hv'. unfold vadd. rewrite Hv. unfold total_static. ring.
Qed.

Lemma iwan_flags els els' : map is_iwan els' = map is_iwan els -> (forall e, In e els -> is_iwan e = false) -> forall e, In e els' -> is_iwan e = false.
Proof.
  intros E H e He. apply (in_map is_iwan) in He. rewrite E in He. apply in_map_iff in He. destruct He as (x & <- & Hx). exact (H x Hx).
Qed.

Lemma run_tracked N : forall cs els laws st, Forall2 (tracked N st) els laws -> switchable els cs ->
  exists els', sys_run N els cs = (els', []) /\ Forall2 (tracked N (fold_left after_call cs st)) els' laws /\ map is_iwan els' = map is_iwan els.
Proof.
  induction cs as [|c cs IH]; intros els laws [b l] H Hs; cbn [sys_run fold_left]; [exists els; auto|].
  assert (Step : exists els1, sys_exec N els c = (els1, None) /\ Forall2 (tracked N (after_call (b, l) c)) els1 laws /\ map is_iwan els1 = map is_iwan els).
  { destruct c as [|U| | |U|U F]; cbn [sys_exec after_call fst snd].
    - apply init_all. clear - H. induction H; constructor; auto. exact (tracked_law N (b, l) x y H).
    - apply update_all. exact H.
    - apply (prestress_every N b l); [exact H|]. apply Hs. left. reflexivity.
    - exists (map el_reset els). split; [reflexivity|]. split; [|rewrite map_map; apply map_ext; intros []; reflexivity]. apply (map_tracked N (b, l)); [apply tracked_reset|exact H].
    - exists (map (el_aft_init N U) els). split; [reflexivity|]. split; [|rewrite map_map; apply map_ext; intros []; reflexivity]. apply (map_tracked N (b, l)); [intros e law; apply tracked_aft|exact H].
    - exists els. split; [|split; [exact H|reflexivity]]. unfold sys_static_res. destruct (loop_value N b l U els laws H vzero (Some mzero)) as (F' & J & -> & _). reflexivity. }
  destruct Step as (els1 & -> & T1 & I1). destruct (IH els1 laws _ T1) as (els2 & -> & T2 & I2).
  - intros Hin. apply (iwan_flags els els1 I1). apply Hs. right. exact Hin.
  - exists els2. split; [reflexivity|]. split; [exact T2|congruence].
Qed.

Lemma static_after_history N K els laws real cs X Fstatic : Forall2 (has_law N real) els laws -> switchable els cs ->
  exists els' R J, sys_run N els (SInit :: cs) = (els', []) /\ sys_static_res N K els' X Fstatic = Ok (Some R, J) /\
    let st := after_calls real cs in
    forall i, R i = rsum N (fun j => K i j * X j) + total_static laws (snd st) (fst st) X i - Fstatic i.
Proof.
  intros H Hs. cbn [sys_run sys_exec]. destruct (init_all N real els laws H) as (els1 & -> & T1 & I1).
  destruct (run_tracked N cs els1 laws _ T1) as (els2 & -> & T2 & _).
  { intros Hin. apply (iwan_flags els els1 I1). apply Hs. exact Hin. }
  fold (after_calls real cs) in T2. destruct (after_calls real cs) as [b l]. unfold sys_static_res. destruct (loop_value N b l X els2 laws T2 vzero (Some mzero)) as (F & J & E & HF).
  exists els2. do 2 eexists. split; [reflexivity|]. rewrite E. cbn [bind]. split; [reflexivity|]. cbn [fst snd]. intros i. rewrite HF. unfold matvec, vzero. ring.
Qed.
