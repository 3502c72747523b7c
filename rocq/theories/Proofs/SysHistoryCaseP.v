(** Examples and counterexamples for system histories. *)
From Coq Require Import Reals Lra Lia Arith List Bool.
From Verif.Lib Require Import RSum Py.
From Verif.Spec Require Import System Slider Rough StaticHistory SystemCalls.
From Verif.Model Require Import Harmonic LocalForces VibSys SysElements Jenkins Iwan JaxDual JaxFloat JaxFriction RoughContact SysHistory.
From Verif.Proofs Require Import SliderP EldryCasesP RoughNormalP RoughStaticP RoughCallsP RoughSteadyP RoughHistoryP RoughHistoryP RoughCasesP SysHistoryP SysWorkflowP.
Import ListNotations.
Open Scope R_scope.

Definition pull : vec := fun j => match j with O => 1/2 | _ => 1 end.

(** friction 1/2 at the displacement, 0 when it is evaluated again after it was stored *)
Lemma update_loses : exists N K els laws X Fstatic els1 R1 J1 els2 R2 J2, Forall2 (has_law N true) els laws /\
  sys_run N els [SInit] = (els1, []) /\ sys_static_res N K els1 X Fstatic = Ok (Some R1, J1) /\
  sys_run N els [SInit; SUpdate X] = (els2, []) /\ sys_static_res N K els2 X Fstatic = Ok (Some R2, J2) /\ R1 O = 1/2 /\ R2 O = 0.
Proof.
  set (els := [ElEldry 2 1 mid mid (ed_new 1 1 1 0 None)]). set (laws := [eldry_static 2 1 2 mid mid 1 1 1 0]).
  assert (H : Forall2 (has_law 2 true) els laws) by (constructor; [|constructor]; constructor; try lia; try lra; reflexivity).
  destruct (static_after_history 2 mzero els laws true [] pull vzero H ltac:(intros [])) as (els1 & R1 & J1 & A1 & A2 & A3).
  destruct (static_after_history 2 mzero els laws true [SUpdate pull] pull vzero H ltac:(intros [Z|[]]; discriminate Z)) as (els2 & R2 & J2 & B1 & B2 & B3).
  exists 2%nat, mzero, els, laws, pull, vzero, els1, R1, J1, els2, R2, J2. repeat (split; [assumption|]). rewrite A3, B3. cbn [after_calls fold_left after_call fst snd app total_static fold_right laws].
  destruct static_case as [C0 C1].
  assert (E1 : eldry_static 2 1 2 mid mid 1 1 1 0 [] true pull 0%nat = 1/2).
  { unfold eldry_static. cbn [map last Nat.mul Nat.add rsum friction_in_force]. change (mid 0%nat 0%nat) with 1. change (mid 0%nat 1%nat) with 0.
    assert (L : forall d, (d < 2)%nat -> contact_history 2 1 1 1 0 (fun d _ => local_at 2 mid pull d) (local_at 2 mid (fun _ => 0)) d 0 = contact_history 2 1 1 1 0 (fun d _ => rsum 2 (fun j => mid d j * (fun j : nat => match j with O => 1/2 | _ => 1 end) j)) (fun _ => 0) d 0).
    { intros d Hd. unfold contact_history. destruct (Nat.eqb d (normal_dof 2 d)); [reflexivity|]. unfold friction_law. cbn [slider]. f_equal. f_equal. f_equal. unfold local_at. apply rsum_zero. intros; ring. }
    rewrite (L O) by lia. rewrite C0. ring. }
  assert (E2 : eldry_static 2 1 2 mid mid 1 1 1 0 [(true, pull)] true pull 0%nat = 0).
  { unfold eldry_static. cbn [map last snd Nat.mul Nat.add rsum friction_in_force]. change (mid 0%nat 0%nat) with 1. change (mid 0%nat 1%nat) with 0.
    assert (L : contact_history 2 1 1 1 0 (fun d _ => local_at 2 mid pull d) (local_at 2 mid pull) 0 0 = 0).
    { unfold contact_history. change (normal_dof 2 0) with 1%nat. cbn [Nat.eqb]. unfold friction_law. cbn [slider]. rewrite Rminus_eq_0, Rmult_0_r. apply clamp_stays. rewrite Rmult_1_l. unfold contact_force. destruct (Rlt_dec _ _); lra. }
    rewrite L. ring. }
  rewrite E1, E2. unfold mzero, vzero. cbn [rsum]. split; lra.
Qed.

(** a JAX Jenkins element before another element: init_force_history raises and the stored load of the second element stays *)
Lemma init_stops : exists N K els X Fstatic els1 R1 J1 els2 xs2, 
  sys_run N els [SInit] = (els1, [AttributeError]) /\ sys_static_res N K els1 X Fstatic = Ok (Some R1, J1) /\ X O = 0 /\ Fstatic O = 0 /\ R1 O = 1 /\
  sys_run N els [SUpdate X] = (els2, xs2) /\ xs2 = [TypeError].
Proof.
  set (els := [ElJaxJenkins mid mid 1 (Some 0) 1 1 0; ElJenkins mid mid (j_set_hist (j_new 1 1) 0 1)]).
  exists 1%nat, mzero, els, vzero, vzero, els. do 2 eexists. exists els, [TypeError]. split; [reflexivity|]. split; [|split; [reflexivity|split; [reflexivity|split; [|split; reflexivity]]]].
  - unfold sys_static_res, els. cbn [element_loop element_force bind fst snd]. unfold j_force. cbn [j_set_hist j_hist j_kt j_Fs j_new]. unfold j_law.
    match goal with |- context [Rltb ?a ?b] => assert (E : Rltb a b = false) end.
    { apply Rltb_false. unfold matvec, mid, vzero. cbn. replace (1 * (0 + 1 * 0 - 0) + 1) with 1 by ring. rewrite Rabs_R1. lra. }
    rewrite E. cbn [bind fst snd oadd omadd]. reflexivity.
  - unfold matvec, mid, vzero, vadd, mzero. cbn. ring.
Qed.

(** set_aft_initialize only warns about a Jenkins element *)
Lemma aft_start_kept N els U : (forall e, In e els -> match e with ElJenkins _ _ _ | ElIwan _ _ _ | ElJaxJenkins _ _ _ _ _ _ _ => True | _ => False end) ->
  set_aft_initialize N els U = (els, length els).
Proof.
  intros H. unfold set_aft_initialize. induction els as [|e els IH]; [reflexivity|]. assert (IH' := IH (fun x Hx => H x (or_intror Hx))). injection IH' as E1 E2. cbn [map filter]. rewrite E1.
  specialize (H e (or_introl eq_refl)). destruct e; try contradiction; cbn [el_aft_init aft_warns nl_force_type Nat.eqb negb length]; rewrite E2; reflexivity.
Qed.

(** set_aft_initialize on any elements *)
Lemma aft_start N K els U : exists els',
  set_aft_initialize N els U = (els', length (filter no_aft_start els)) /\ Forall2 (aft_started N U) els els' /\
  forall X Fstatic, sys_static_res N K els' X Fstatic = sys_static_res N K els X Fstatic.
Proof.
  exists (map (el_aft_init N U) els). split; [|split].
  - unfold set_aft_initialize. f_equal. f_equal. induction els as [|e els IH]; [reflexivity|]. cbn [filter]. rewrite IH.
    assert (E : aft_warns e = no_aft_start e) by (destruct e; reflexivity). rewrite E. reflexivity.
  - induction els as [|e els IH]; constructor; [|exact IH]. destruct e; cbn [el_aft_init aft_started]; try reflexivity.
    + eexists _, _. split; [reflexivity|]. split; [reflexivity|]. repeat split; reflexivity.
    + eexists. split; [reflexivity|]. repeat split; reflexivity.
  - intros X Fstatic. unfold sys_static_res. f_equal. generalize (Some vzero : option vec), (Some mzero : option mat). induction els as [|e els IH]; intros F J; [reflexivity|]. cbn [map element_loop].
    assert (E : match element_force N (el_aft_init N U e) X false with Ok p => Ok (snd p) | Err x => Err x end = match element_force N e X false with Ok p => Ok (snd p) | Err x => Err x end) by (destruct e; reflexivity).
    destruct (element_force N (el_aft_init N U e) X false) as [[e1 [F1 J1]]|x1], (element_force N e X false) as [[e2 [F2 J2]]|x2]; cbn [snd] in E; try discriminate; injection E as E; subst; cbn [bind]; [apply IH|reflexivity].
Qed.

(** a cubic spring, a Jenkins element and a contact point *)
Definition cubic_spring : nlforce := cubic_nl 2 1 mid mid (fun _ => 2).
Definition three_els : list element := [ElInstant cubic_spring; ElJenkins mid mid (j_new 3 1); ElEldry 2 1 mid mid (ed_new 5 7 (1/4) 0 None)].
Definition three_laws : list static_law := [elastic_static (fun X => fst (cubic_force 2 1 mid mid (fun _ => 2) X)); jenkins_static 2 mid mid 3 1; eldry_static 2 1 2 mid mid 5 7 (1/4) 0].
Lemma three_ok : Forall2 (has_law 2 true) three_els three_laws /\ (forall e, In e three_els -> is_iwan e = false) /\ (forall l X e, In e three_els -> settled 2 l X e) /\
  (forall e, In e three_els -> can_stick 2 pull e) /\ switchable three_els [SUpdate pull; SPrestress; SUpdate pull; SReset].
Proof.
  split; [|split; [|split; [|split]]].
  - unfold three_els, three_laws. constructor; [apply (law_elastic 2 true cubic_spring _ (fun X => snd (cubic_force 2 1 mid mid (fun _ => 2) X))); intros X; cbn; reflexivity|]. constructor; [apply (law_jenkins 2 true mid mid (j_new 3 1) 1); cbn; try reflexivity; lra|]. constructor; [|constructor]. apply law_eldry; cbn; try reflexivity; try lra; lia.
  - intros e [<-|[<-|[<-|[]]]]; reflexivity.
  - intros l X e [<-|[<-|[<-|[]]]]; exact I.
  - intros e [<-|[<-|[<-|[]]]]; cbn [can_stick]; [exact I|cbn; lra|]. cbn [ed_new ed_pars ep_kn ep_gap ed_real_mu]. repeat split; try lra. intros d Hd. assert (normal_dof 2 d = 1%nat) as -> by (destruct d as [|[|]]; [reflexivity|reflexivity|cbn in Hd; lia]).
    unfold local_at, mid, pull. cbn. lra.
  - intros _ e [<-|[<-|[<-|[]]]]; reflexivity.
Qed.
(** after a pull of 1/2 that makes the Jenkins element slip: force at 1/4 *)
Lemma three_value : exists els' R J, sys_run 2 three_els [SInit; SUpdate pull] = (els', []) /\ sys_static_res 2 mzero els' (fun j => pull j / 2) vzero = Ok (Some R, J) /\ R O = 1/32 + 1/4 - 7/8 /\ R 1%nat = 7/2.
Proof.
  destruct three_ok as (H & _ & _ & _ & _). destruct (static_after_history 2 mzero three_els three_laws true [SUpdate pull] (fun j => pull j / 2) vzero H ltac:(intros [Z|[]]; discriminate Z)) as (els' & R & J & A & B & C).
  exists els', R, J. split; [exact A|]. split; [exact B|]. rewrite !C. cbn [after_calls fold_left after_call fst snd app total_static fold_right three_laws].
  set (Y := fun j => pull j / 2).
  assert (P0 : local_at 2 mid pull 0 = 1/2) by (unfold local_at, mid, pull; cbn; lra). assert (P1 : local_at 2 mid pull 1 = 1) by (unfold local_at, mid, pull; cbn; lra).
  assert (Y0 : local_at 2 mid Y 0 = 1/4) by (unfold local_at, mid, Y, pull; cbn; lra). assert (Y1 : local_at 2 mid Y 1 = 1/2) by (unfold local_at, mid, Y, pull; cbn; lra).
  assert (J1 : forall i, jenkins_static 2 mid mid 3 1 [(true, pull)] true Y i = mid i O * (1/4)).
  { intros i. unfold jenkins_static. f_equal. unfold slide_all, slide. cbn [map app fold_left fst snd friction_in_force]. rewrite P0, Y0.
    assert (E : clamp (Ropp 1) 1 (0 + 3 * (1 / 2 - 0)) = 1) by (unfold clamp; rewrite Rmin_left by lra; rewrite Rmax_right by lra; reflexivity). rewrite E. rewrite clamp_id by lra. lra. }
  assert (D1 : forall i, eldry_static 2 1 2 mid mid 5 7 (1/4) 0 [(true, pull)] true Y i = mid i O * (- (7/8)) + mid i 1%nat * (7/2)).
  { intros i. unfold eldry_static. cbn [map last snd Nat.mul Nat.add rsum friction_in_force]. unfold contact_history. change (normal_dof 2 0) with 1%nat. change (normal_dof 2 1) with 1%nat. cbn [Nat.eqb]. unfold friction_law. cbn [slider]. rewrite Y0, Y1, P0.
    assert (E : contact_force 7 0 (1/2) = 7/2) by (unfold contact_force; destruct (Rlt_dec 0 (1/2)); lra). rewrite E. unfold clamp. rewrite Rmin_right by lra. rewrite Rmax_left by lra. lra. }
  rewrite !J1, !D1. unfold elastic_static, cubic_force, vzero, mzero, local_at, matvec in *. cbn [fst Nat.eqb rsum] in *. rewrite ?Y0. unfold mid. cbn [Nat.eqb]. split; lra.
Qed.

(** an asperity loaded into the elastic range, next to an Iwan element *)
Definition rough_el : element := ElRough (fun d j => if Nat.eqb d j then 1 else 0) (fun d j => if Nat.eqb d j then 1 else 0)
  (mkRough (new_material 2000 0 1 0 1) 1 (fun _ => 0) (fun _ => 1) 0 TAN (1/2)) (mkRS (1/2) 0 (fun _ => Some 0) vzero (fun _ _ _ => Some 0) (fun _ _ => Some 0) vzero).
Definition press : vec := fun j => match j with 2%nat => yield_limit steel / 2 | _ => 0 end.
Lemma rough_ok : exists law, has_law 3 true rough_el law /\ settled 3 [] press rough_el /\ 0 < local_at 3 (fun d j => if Nat.eqb d j then 1 else 0) press 2 /\ ~ (forall X, law [] true X 2%nat = 0).
Proof.
  assert (L : local_at 3 (fun d j => if Nat.eqb d j then 1 else 0) press 2 = yield_limit steel / 2) by (unfold local_at, press; cbn; lra).
  pose proof (limit_pos steel steel_physical) as Hp.
  eexists. split; [|split; [|split]].
  - apply (law_rough 3 true _ _ _ _ steel steel_physical); [reflexivity|intros; cbn; lra|cbn; lra|reflexivity|reflexivity].
  - cbn [settled rough_el r_mat r_n r_meso r_gaps r_mu map]. intros sol _ E a Ha. injection E as E1 E2 E3 E4 E5. right. left.
    assert (Es : sol = steel) by (destruct sol; cbn in *; subst; reflexivity). rewrite Es, L. lra.
  - rewrite L. lra.
  - intros Z. specialize (Z press). unfold rough_static in Z. cbn [map memory_after fold_left r_n r_meso r_gaps r_weights r_mu rough_el rsum Nat.ltb Nat.leb Nat.eqb mem_d mem_F] in Z. rewrite L in Z.
    assert (A : asperity_force steel (0 - (0 + 0)) 0 (yield_limit steel / 2 - (0 + 0)) = solid_hertz steel (yield_limit steel / 2)).
    { unfold asperity_force. destruct (Rlt_dec _ _) as [|N]; [f_equal; lra|]. exfalso. apply N. apply Rmax_lub_lt; lra. }
    rewrite A in Z. assert (0 < solid_hertz steel (yield_limit steel / 2)); [|lra].
    unfold solid_hertz, hertz. destruct (Rlt_dec 0 (yield_limit steel / 2)) as [H|]; [|lra]. pose proof (effective_pos steel steel_physical). pose proof (sqrt_lt_R0 _ H). assert (0 < sqrt (s_R steel)) by (apply sqrt_lt_R0; cbn; lra).
    apply Rmult_lt_0_compat; [apply Rmult_lt_0_compat; [lra|assumption]|apply Rmult_lt_0_compat; assumption].
Qed.
