(** Harmonic residual of a whole system around a static state. *)
From Coq Require Import Reals Lra Lia Arith List Bool FunctionalExtensionality.
From Verif.Lib Require Import RSum Calc Py.
From Verif.Spec Require Import Calculus Harmonic Elements System Slider Rough StaticHistory SystemCalls SysVibration.
From Verif.Model Require Import Harmonic LocalForces Aft VibSys SysElements Jenkins Iwan JaxDual JaxFloat JaxFriction RoughContact SysHistory SysHarmonic.
From Verif.Proofs Require Import HarmonicP FourierP HarmonicOpsP AftP ElementsP VibSysP SliderP JenkinsP SysHistoryP SysWorkflowP RoughStaticP SysHarmonicP.
Import ListNotations.
Open Scope R_scope.

Lemma component_cases h c : admissible h -> (c < length (components h))%nat -> zi h <> O -> c <> O ->
  exists p, (p < length h - zi h)%nat /\ (c = 2 * p + zi h \/ c = 2 * p + 1 + zi h)%nat.
Proof.
  intros (_ & _ & Hz) Hc Hi Hn. rewrite nhc_zi in Hc by exact Hz. pose proof (zi_le h). exists ((c - zi h) / 2)%nat.
  pose proof (Nat.div_mod (c - zi h) 2 ltac:(lia)) as D. pose proof (Nat.mod_upper_bound (c - zi h) 2 ltac:(lia)). rewrite hs_length in Hc. split; lia.
Qed.
Lemma zi_one h : admissible h -> In O h -> zi h = 1%nat.
Proof. intros Ha H0. destruct (starts_zero h (2 * list_max h + 2) Ha H0 ltac:(lia)) as [h' ->]. reflexivity. Qed.

Section Rows.
  Variables (N : nat) (M C K S : mat) (w : R) (h : list nat).
  Hypothesis Ha : admissible h.
  Hypothesis H0 : In O h.
  Let n := (length (components h) * N)%nat.
  Let m := (length h - zi h)%nat.

  Lemma row_static (U X : vec) i : (forall j, (j < N)%nat -> U j = X j) -> (i < N)%nat -> matvec n (hsE N M C K w h false m) U i = rsum N (fun j => K i j * X j).
  Proof.
    intros HU Hi. pose proof Ha as (_ & _ & Hz). change i with (0 * N + i)%nat at 1. unfold n, m. rewrite row_zero by (first [exact Hz|exact (zi_one h Ha H0)|exact Hi]).
    apply rsum_ext. intros j Hj. f_equal. apply HU. exact Hj.
  Qed.
  Lemma row_added (U V : vec) c i : (forall k, (N <= k < n)%nat -> U k = V k) -> (c < length (components h))%nat -> c <> O -> (i < N)%nat ->
    matvec n (hsE N M C (madd K S) w h false m) V (c * N + i)%nat = matvec n (hsE N M C K w h false m) U (c * N + i)%nat + rsum N (fun j => S i j * V (c * N + j)%nat).
  Proof.
    intros HU Hc Hn Hi. pose proof Ha as (_ & _ & Hz). pose proof (zi_one h Ha H0) as Z1. destruct (component_cases h c Ha Hc ltac:(lia) Hn) as (p & Hp & D).
    assert (Q : forall a, (a = 2 * p + zi h \/ a = 2 * p + 1 + zi h)%nat -> forall j, (j < N)%nat -> U (a * N + j)%nat = V (a * N + j)%nat).
    { intros a Hda j Hj. apply HU. unfold n. rewrite nhc_zi, hs_length by exact Hz. nia. }
    unfold n, m. destruct (row_pair N M C (madd K S) w h Hz V p i Hp Hi) as [A1 A2]. destruct (row_pair N M C K w h Hz U p i Hp Hi) as [B1 B2].
    destruct D as [->| ->]; [rewrite A1, B1|rewrite A2, B2]; rewrite <- rsum_plus; apply rsum_ext; intros j Hj; unfold Dblk, madd; rewrite !(Q (2 * p + zi h)%nat ltac:(lia) j Hj), !(Q (2 * p + 1 + zi h)%nat ltac:(lia) j Hj); ring.
  Qed.
  Lemma row_rest (U : vec) c i : (forall k, (N <= k < n)%nat -> U k = 0) -> (c < length (components h))%nat -> c <> O -> (i < N)%nat ->
    matvec n (hsE N M C K w h false m) U (c * N + i)%nat = 0.
  Proof.
    intros HU Hc Hn Hi. pose proof Ha as (_ & _ & Hz). pose proof (zi_one h Ha H0) as Z1. destruct (component_cases h c Ha Hc ltac:(lia) Hn) as (p & Hp & D).
    assert (Q : forall a, (a = 2 * p + zi h \/ a = 2 * p + 1 + zi h)%nat -> forall j, (j < N)%nat -> U (a * N + j)%nat = 0).
    { intros a Hda j Hj. apply HU. unfold n. rewrite nhc_zi, hs_length by exact Hz. nia. }
    unfold n, m. destruct (row_pair N M C K w h Hz U p i Hp Hi) as [B1 B2].
    destruct D as [->| ->]; [rewrite B1|rewrite B2]; apply rsum_zero; intros j Hj; rewrite !(Q (2 * p + zi h)%nat ltac:(lia) j Hj), !(Q (2 * p + 1 + zi h)%nat ltac:(lia) j Hj); ring.
  Qed.
End Rows.

(** sums over the elements *)
Lemma sys_aft_sum (P : element -> Prop) N h Nt U w st (D : element -> nat -> nat -> R) X :
  (forall e law, tracked N st e law -> P e -> exists e' F, element_aft N e U w h Nt = Ok (e', Some F) /\
     forall c i, (c < length (components h))%nat -> (i < N)%nat -> F (c * N + i)%nat = if Nat.eqb c 0 then law (snd st) (fst st) X i else D e c i) ->
  forall els laws, Forall2 (tracked N st) els laws -> (forall e, In e els -> P e) -> forall F0 : vec,
  exists els' F, sys_aft N els U w h Nt (Some F0) = (els', Ok (Some F)) /\
    forall c i, (c < length (components h))%nat -> (i < N)%nat -> F (c * N + i)%nat = F0 (c * N + i)%nat + if Nat.eqb c 0 then total_static laws (snd st) (fst st) X i else fold_right (fun e acc => D e c i + acc) 0 els.
Proof.
  intros HD els laws H. induction H as [|e law els laws He H IH]; intros HP F0; cbn [sys_aft total_static fold_right].
  - exists [], F0. split; [reflexivity|]. intros c i Hc Hi. destruct (Nat.eqb c 0); ring.
  - destruct (HD e law He (HP e (or_introl eq_refl))) as (e' & F & -> & EF). cbn [oadd]. destruct (IH (fun x Hx => HP x (or_intror Hx)) (vadd F0 F)) as (els' & F' & -> & EF').
    exists (e' :: els'), F'. split; [reflexivity|]. intros c i Hc Hi. rewrite EF' by assumption. unfold vadd. rewrite EF by assumption. destruct (Nat.eqb c 0); unfold total_static; ring.
Qed.

(** ---- the state after the workflow ---- *)
Lemma sys_run_app N cs1 cs2 els : sys_run N els (cs1 ++ cs2) = let '(l1, x1) := sys_run N els cs1 in let '(l2, x2) := sys_run N l1 cs2 in (l2, x1 ++ x2).
Proof.
  revert els. induction cs1 as [|c cs1 IH]; intros els; cbn [app sys_run]; [destruct (sys_run N els cs2); reflexivity|].
  destruct (sys_exec N els c) as [l1 x]. rewrite IH. destruct (sys_run N l1 cs1) as [l2 x2]. destruct (sys_run N l2 cs2) as [l3 x3]. destruct x; reflexivity.
Qed.


Lemma keeps_same N h Nt l a b : same_pars a b -> keeps_static_state N h Nt l a -> keeps_static_state N h Nt l b.
Proof.
  destruct a, b; cbn; try contradiction; auto.
  - intros <-. auto.
  - intros (_ & <- & _ & _ & _ & <- & _). auto.
Qed.
Lemma sticks_same N h Nt X U a b : same_pars a b -> sticks N h Nt X U a -> sticks N h Nt X U b.
Proof.
  destruct a, b; cbn; try contradiction.
  - intros (<- & _ & <- & <-). auto.
  - intros (<- & <- & <- & _ & <- & <- & <- & <-). auto.
Qed.

Lemma workflow_state N els laws real cs X : Forall2 (has_law N real) els laws -> (forall e, In e els -> is_iwan e = false) ->
  let l := snd (after_calls real cs) in
  exists els', sys_run N els (SInit :: cs ++ [SPrestress; SUpdate X; SAftInit X; SReset]) = (els', []) /\
    Forall2 (tracked N (true, l ++ [(false, X)])) els' laws /\ Forall2 same_pars els els' /\ forall e, In e els' -> ready N X e.
Proof.
  intros H Hi l. destruct (init_all N real els laws H) as (els1 & E1 & T1 & I1).
  destruct (run_tracked N (cs ++ [SPrestress; SUpdate X; SAftInit X; SReset]) els1 laws _ T1) as (els3 & E3 & T3 & _); [intros _; apply (iwan_flags els els1 I1 Hi)|].
  assert (E : sys_run N els (SInit :: cs ++ [SPrestress; SUpdate X; SAftInit X; SReset]) = (els3, [])) by (cbn [sys_run sys_exec]; rewrite E1, E3; reflexivity).
  exists els3. split; [exact E|]. split; [|split; [exact (run_same N _ _ _ _ E)|]].
  - fold (after_calls real (cs ++ [SPrestress; SUpdate X; SAftInit X; SReset])) in T3. rewrite run_snocs in T3. unfold l. destruct (after_calls real cs) as [b l0]. exact T3.
  - replace (SInit :: cs ++ [SPrestress; SUpdate X; SAftInit X; SReset]) with ((SInit :: cs ++ [SPrestress; SUpdate X]) ++ [SAftInit X; SReset]) in E by (cbn [app]; rewrite <- app_assoc; reflexivity).
    rewrite sys_run_app in E. destruct (sys_run N els (SInit :: cs ++ [SPrestress; SUpdate X])) as [l1 x1]. cbn [sys_run sys_exec] in E. unfold set_aft_initialize in E. cbn [fst] in E. injection E as <- _.
    intros e He. apply in_map_iff in He. destruct He as (e1 & <- & He). apply in_map_iff in He. destruct He as (e2 & <- & _). destruct e2; cbn; auto.
Qed.

Lemma forall2_in {A B} (R : A -> B -> Prop) la lb : Forall2 R la lb -> forall b, In b lb -> exists a, In a la /\ R a b.
Proof. intros H. induction H as [|a b la lb Hab H IH]; intros x []; [subst; exists a; split; [left; reflexivity|exact Hab]|]. destruct (IH x H0) as (a' & Ha & Hr). exists a'. split; [right; exact Ha|exact Hr]. Qed.

Section Residual.
  Variables (N : nat) (h : list nat) (Nt : nat) (M C K : mat).
  Hypothesis Ha : admissible h.
  Hypothesis H0 : In O h.
  Hypothesis HN : (2 * list_max h + 1 < Nt)%nat.
  Hypothesis Hev : Nat.even Nt = true.
  Hypothesis Hnh : (1 < length (components h))%nat.
  Let n := (length (components h) * N)%nat.

  Lemma take_about X V U : vibration_about N h X V U -> vibration_about N h X V (take n U).
  Proof.
    intros [A B]. split; [intros j Hj|intros k Hk]; rewrite take_lt by (unfold n; nia); auto.
  Qed.

  Lemma sys_res_value (P : element -> Prop) (D : element -> nat -> nat -> R) els laws st X Uw Fl :
    (forall e law, tracked N st e law -> P e -> exists e' F, element_aft N e (take n Uw) (Uw n) h Nt = Ok (e', Some F) /\
       forall c i, (c < length (components h))%nat -> (i < N)%nat -> F (c * N + i)%nat = if Nat.eqb c 0 then law (snd st) (fst st) X i else D e c i) ->
    Forall2 (tracked N st) els laws -> (forall e, In e els -> P e) ->
    exists els' R, sys_hbm_res N M C K els Uw Fl h Nt = (els', Ok (Some R)) /\ forall c i, (c < length (components h))%nat -> (i < N)%nat ->
      R (c * N + i)%nat = matvec n (hsE N M C K (Uw n) h false (length h - zi h)) Uw (c * N + i)%nat +
        (if Nat.eqb c 0 then total_static laws (snd st) (fst st) X i else fold_right (fun e acc => D e c i + acc) 0 els) - Fl (c * N + i)%nat.
  Proof.
    intros HD HT HP. destruct (sys_aft_sum P N h Nt (take n Uw) (Uw n) st D X HD els laws HT HP vzero) as (els' & F & E & EF).
    unfold sys_hbm_res. rewrite nhc_aft. fold n. rewrite harmonic_stiffness_ok by exact Ha. rewrite E. cbn [bind]. do 2 eexists. split; [reflexivity|].
    intros c i Hc Hi. cbv beta. rewrite EF by assumption. unfold vzero. ring.
  Qed.

  Lemma not_iwan_keeps l els : (forall e, In e els -> keeps_static_state N h Nt l e) -> forall e, In e els -> is_iwan e = false.
  Proof. intros H e He. specialize (H e He). destruct e; cbn in *; try reflexivity; contradiction. Qed.
  Lemma not_iwan_sticks X U els : (forall e, In e els -> sticks N h Nt X U e) -> forall e, In e els -> is_iwan e = false.
  Proof. intros H e He. specialize (H e He). destruct e; cbn in *; try reflexivity; contradiction. Qed.

  Lemma keeps_settled real e law l X : has_law N real e law -> keeps_static_state N h Nt l e -> settled N l X e.
  Proof.
    intros H Hk. destruct H as [f F J HF|Q T s Fs A1 A2 A3 A4|Q T s A|p ne Q T s kt kn mu gap A1 A2 A3 A4 A5 A6|Q T r s sol A1 A2 A3 A4 A5 A6]; cbn [settled]; try exact I.
    cbn in Hk. subst l. intros sol' Hp' Hsol' a Hla. cbn [map memory_after fold_left mem_d mem_F]. right. right. apply RoughStaticP.force_nonneg; [exact Hp'|]. apply (RoughStaticP.mem_ok_start sol'). exact (A3 a Hla).
  Qed.
  Lemma sticks_settled l X U e : sticks N h Nt X U e -> settled N l X e.
  Proof. destruct e; intros H; try exact I. destruct H. Qed.

  Lemma prestressed_rest els laws real cs X Uw Fl : Forall2 (has_law N real) els laws ->
    (forall e, In e els -> keeps_static_state N h Nt (snd (after_calls real cs)) e) -> vibration_about N h X (fun _ => 0) Uw ->
    exists els1 Rs Js els2 els3 R, sys_run N els (SInit :: cs ++ [SPrestress]) = (els1, []) /\ sys_static_res N K els1 X Fl = Ok (Some Rs, Js) /\
      sys_run N els (SInit :: cs ++ [SPrestress; SUpdate X; SAftInit X; SReset]) = (els2, []) /\ sys_hbm_res N M C K els2 Uw Fl h Nt = (els3, Ok (Some R)) /\
      (forall i, (i < N)%nat -> R i = Rs i) /\ forall k, (N <= k < n)%nat -> R k = - Fl k.
  Proof.
    intros H Hk HU. pose proof (not_iwan_keeps _ _ Hk) as Hi.
    assert (Hset : forall e, In e els -> settled N (snd (after_calls real cs)) X e).
    { intros e He. clear - H Hk He. induction H as [|a law la ll Hal H IH]; [destruct He|]. destruct He as [<-|He]; [apply (keeps_settled real a law _ X Hal); apply Hk; left; reflexivity|apply IH; [intros x Hx; apply Hk; right; exact Hx|exact He]]. }
    destruct (workflow_keeps N K els laws real cs X Fl H Hi Hset) as (els1 & Rs & Js & els2 & R2 & J2 & A1 & A2 & A3 & A4 & A5).
    destruct (workflow_state N els laws real cs X H Hi) as (els2' & B1 & B2 & B3 & B4). rewrite A3 in B1. injection B1 as <-.
    set (l := snd (after_calls real cs)) in *. cbv zeta in B2. 
    destruct (sys_res_value (fun e => keeps_static_state N h Nt l e /\ ready N X e) (fun _ _ _ => 0) els2 laws (true, l ++ [(false, X)]) X Uw Fl) as (els3 & R & E & ER).
    { intros e law He [P1 P2]. exact (resting_element N h Nt Ha H0 HN Hev l e law X (take n Uw) (Uw n) He P2 Hnh (take_about _ _ _ HU) P1). }
    { exact B2. }
    { intros e He. split; [|exact (B4 e He)]. destruct (forall2_in _ _ _ B3 e He) as (a & Hin & Hs). apply (keeps_same N h Nt l a e Hs). exact (Hk a Hin). }
    exists els1, Rs, Js, els2, els3, R. repeat (split; [assumption|]). split.
    - intros i Hi'. pose proof (ER 0%nat i (nhc_some h Nt Ha H0 HN) Hi') as Z. cbn [Nat.mul Nat.add Nat.eqb fst snd] in Z. rewrite Z. unfold n. rewrite (row_static N M C K (Uw (length (components h) * N)%nat) h Ha H0 Uw X i (proj1 HU) Hi').
      rewrite <- A5. unfold sys_static_res in A4. destruct (loop_value N true (l ++ [(false, X)]) X els2 laws B2 vzero (Some mzero)) as (F & J & EL & HF). rewrite EL in A4. cbn [bind] in A4. injection A4 as <- _. rewrite HF. unfold matvec, vzero. ring.
    - intros k Hk'. destruct (block_form _ _ k (proj2 Hk')) as (c & i & Hc & Hi' & ->). assert (c <> O) by (intros ->; lia). rewrite ER by assumption. destruct (Nat.eqb_spec c 0); [contradiction|].
      unfold n. rewrite (row_rest N M C K _ h Ha H0 Uw c i (proj2 HU) Hc ltac:(assumption) Hi').
      assert (Zr : forall la : list element, fold_right (fun _ acc => 0 + acc) 0 la = 0) by (induction la as [|x la IH]; cbn [fold_right]; [reflexivity|rewrite IH; ring]). rewrite Zr. ring.
  Qed.

  Lemma prestressed_stuck els laws real cs X V Uw Fl : Forall2 (has_law N real) els laws ->
    vibration_about N h X V Uw -> V n = Uw n -> (forall e, In e els -> sticks N h Nt X Uw e) ->
    let Ks := fun i j => K i j + fold_right (fun e acc => stuck_stiffness N X e i j + acc) 0 els in
    exists els1 Rs Js els2 els3 R Rl G, sys_run N els (SInit :: cs ++ [SPrestress]) = (els1, []) /\ sys_static_res N K els1 X Fl = Ok (Some Rs, Js) /\
      sys_run N els (SInit :: cs ++ [SPrestress; SUpdate X; SAftInit X; SReset]) = (els2, []) /\ sys_hbm_res N M C K els2 Uw Fl h Nt = (els3, Ok (Some R)) /\
      hbm_res (mkSys N M Ks C None []) V Fl h Nt true = Ok (Rl, G) /\
      (forall i, (i < N)%nat -> R i = Rs i) /\ forall k, (N <= k < n)%nat -> R k = Rl k.
  Proof.
    intros H HU Hf Hk Ks. pose proof (not_iwan_sticks X Uw els Hk) as Hi.
    destruct (workflow_keeps N K els laws real cs X Fl H Hi (fun e He => sticks_settled _ X Uw e (Hk e He))) as (els1 & Rs & Js & els2 & R2 & J2 & A1 & A2 & A3 & A4 & A5).
    destruct (workflow_state N els laws real cs X H Hi) as (els2' & B1 & B2 & B3 & B4). rewrite A3 in B1. injection B1 as <-.
    set (l := snd (after_calls real cs)) in *. cbv zeta in B2.
    assert (Ht : forall e, sticks N h Nt X Uw e -> sticks N h Nt X (take n Uw) e).
    { intros e. assert (L : forall Q d tau, local_motion N Q h (take n Uw) d tau = local_motion N Q h Uw d tau).
      { intros Q d tau. unfold local_motion. apply rsum_ext. intros j Hj. f_equal. unfold series. apply rsum_ext. intros c Hc. f_equal. unfold dof_coefs. apply take_lt. unfold n. nia. }
      destruct e; cbn [sticks]; auto.
      - intros Z t Htt. rewrite L. auto.
      - intros (Z1 & Z2 & Z3). repeat split; auto; specialize (Z3 d t H1 H2); cbv zeta in *; rewrite !L; apply Z3; assumption. }
    destruct (sys_res_value (fun e => sticks N h Nt X (take n Uw) e /\ ready N X e) (fun e c i => rsum N (fun j => stuck_stiffness N X e i j * V (c * N + j)%nat)) els2 laws (true, l ++ [(false, X)]) X Uw Fl) as (els3 & R & E & ER).
    { intros e law He [P1 P2]. exact (stuck_element N h Nt Ha H0 HN Hev l e law X V (take n Uw) (Uw n) He P2 Hnh (take_about _ _ _ HU) P1). }
    { exact B2. }
    { intros e He. split; [|exact (B4 e He)]. destruct (forall2_in _ _ _ B3 e He) as (a & Hin & Hs). apply (sticks_same N h Nt X _ a e Hs). apply Ht. exact (Hk a Hin). }
    assert (El : exists G, hbm_res (mkSys N M Ks C None []) V Fl h Nt true = Ok (fun i => matvec n (hsE N M C Ks (V n) h false (length h - zi h)) V i + 0 - Fl i, G)).
    { unfold hbm_res, total_aft. cbn [vs_N vs_M vs_K vs_C vs_forces]. rewrite nhc_aft. fold n. rewrite harmonic_stiffness_ok by exact Ha. cbn [bind].
      pose proof Ha as (_ & Hd & _). rewrite (proj1 (Nhc_spec h) Hd). cbn [bind aft_loop fst snd]. eexists. reflexivity. }
    destruct El as [G El]. eexists els1, Rs, Js, els2, els3, R, _, G. do 4 (split; [eassumption|]). split; [exact El|]. split.
    - intros i Hi'. pose proof (ER 0%nat i (nhc_some h Nt Ha H0 HN) Hi') as Z. cbn [Nat.mul Nat.add Nat.eqb fst snd] in Z. rewrite Z. unfold n. rewrite (row_static N M C K (Uw (length (components h) * N)%nat) h Ha H0 Uw X i (proj1 HU) Hi').
      rewrite <- A5. unfold sys_static_res in A4. destruct (loop_value N true (l ++ [(false, X)]) X els2 laws B2 vzero (Some mzero)) as (F & J & EL & HF). rewrite EL in A4. cbn [bind] in A4. injection A4 as <- _. rewrite HF. unfold matvec, vzero. ring.
    - intros k Hk'. destruct (block_form _ _ k (proj2 Hk')) as (c & i & Hc & Hi' & ->). assert (Hc0 : c <> O) by (intros ->; lia). rewrite ER by assumption. destruct (Nat.eqb_spec c 0); [contradiction|].
      change Ks with (madd K (fun i j => fold_right (fun e acc => stuck_stiffness N X e i j + acc) 0 els)).
      unfold n. rewrite (row_added N M C K _ _ h Ha H0 Uw V c i (proj2 HU) Hc Hc0 Hi'). fold n. rewrite Hf.
      assert (Sm : forall la lb, Forall2 same_pars la lb -> fold_right (fun e acc => rsum N (fun j => stuck_stiffness N X e i j * V (c * N + j)%nat) + acc) 0 lb = rsum N (fun j => fold_right (fun e acc => stuck_stiffness N X e i j + acc) 0 la * V (c * N + j)%nat)).
      { clear. intros la lb Hs. induction Hs as [|a b la lb Hab Hs IH]; cbn [fold_right]; [symmetry; apply rsum_zero; intros; ring|]. rewrite IH, <- rsum_plus. apply rsum_ext. intros j Hj. rewrite (proj2 (same_stuck N X a b Hab)). ring. }
      rewrite (Sm els els2 B3). ring.
  Qed.
End Residual.
