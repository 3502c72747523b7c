(** Whole systems in other units. *)
From Coq Require Import Reals List Arith Bool Lra Lia FunctionalExtensionality.
From Verif.Lib Require Import RSum Py.
From Verif.Spec Require Import Harmonic Elements Slider Coordinates Units.
From Verif.Model Require Import Harmonic LocalForces Aft VibSys SysElements Jenkins Iwan JaxDual JaxFloat JaxFriction RoughContact SysHistory SysHarmonic.
From Verif.Proofs Require Import HarmonicP AftP JenkinsP IwanP PostHarmonicP CoordinatesP UnitsFloatP UnitsRoughP UnitsP UnitsElementP UnitsStateP UnitsJaxP.
Import ListNotations.
Open Scope R_scope.

Lemma times_fun a x y : times a x y -> y = fun i => a * x i.
Proof. intros H. extensionality i. apply H. Qed.
Lemma times_plus a x y x' y' : times a x y -> times a x' y' -> times a (fun i => x i + x' i) (fun i => y i + y' i).
Proof. intros H K i. rewrite H, K. ring. Qed.
Lemma mtimes_plus a x y x' y' : mtimes a x y -> mtimes a x' y' -> mtimes a (madd x x') (madd y y').
Proof. intros H K i j. unfold madd. rewrite H, K. ring. Qed.
Lemma matvec_units n a b A B x y : mtimes a A B -> (forall j, (j < n)%nat -> y j = b * x j) -> times (a * b) (matvec n A x) (matvec n B y).
Proof. intros H K i. unfold matvec. rewrite <- rsum_scal_l. apply rsum_ext. intros j Hj. rewrite H, K by exact Hj. ring. Qed.

Lemma set_block_times a nd E E' r c B B' : mtimes a E E' -> mtimes a B B' -> mtimes a (set_block nd E r c B) (set_block nd E' r c B').
Proof. intros H K i j. unfold set_block. destruct (_ && _)%bool; [apply K|apply H]. Qed.

Section System.
  Variable u : units.
  Hypothesis Hu : positive_units u.
  Let L := u_length u.
  Let F := u_force u.
  Let W := u_freq u.
  Let HL : 0 < L. Proof. exact (proj1 Hu). Qed.
  Let HF : 0 < F. Proof. exact (proj1 (proj2 Hu)). Qed.
  Let HW : 0 < W. Proof. exact (proj2 (proj2 Hu)). Qed.
  Let kE : u_stiffness u = F / L. Proof. reflexivity. Qed.
  Let kL : u_stiffness u * L = F. Proof. rewrite kE. field. lra. Qed.

  (** ** forces without memory *)
  Lemma force_aft N f g U V w h Nt : force_in u N f g -> times L U V -> same_result (scaled3 u) (nl_aft f U w h Nt) (nl_aft g V (W * w) h Nt).
  Proof.
    intros [f' g' S|nnl Q T c] HV; [destruct S|]; cbn [nl_aft cubic_nl quintic_nl unilateral_nl iwan_nl poly_nl damping_nl instantaneous_nl].
    - apply (instantaneous_in u Hu); [apply (cubic_law u Hu)|exact HV].
    - apply (instantaneous_in u Hu); [apply (quintic_law u Hu)|exact HV].
    - apply (instantaneous_in u Hu); [apply (unilateral_law u Hu)|exact HV].
    - apply (instantaneous_in u Hu); [apply (iwan_law u Hu); assumption|exact HV].
    - apply (coupled_in u); [assumption| |exact HV]. intros x. split; [intros d; apply (poly_row u Hu)|intros d e He; apply (poly_slope u Hu), He].
    - apply (instantaneous_in u Hu); [apply (damping_law u Hu)|exact HV].
  Qed.
  Lemma force_aft_F N f g U V w h Nt : force_in u N f g -> times L U V -> same_result (times F) (nl_aft_F f U w h Nt) (nl_aft_F g V (W * w) h Nt).
  Proof.
    intros H HV. pose proof (force_aft N f g U V w h Nt H HV) as A.
    assert (E : forall f, (exists g, force_in u N f g \/ force_in u N g f) -> forall U w, nl_aft_F f U w h Nt = do (FdU, _) <- nl_aft f U w h Nt; Ok (fst FdU)).
    { intros f0 [g0 [K|K]] U0 w0; destruct K as [? ? S|]; try reflexivity; destruct S; reflexivity. }
    rewrite (E f), (E g) by eauto. apply (bind_map _ _ _ _ _ _ A). intros [[F1 J1] d1] [[F2 J2] d2] (B & _ & _). exact B.
  Qed.

  (** ** states *)
  Lemma rough_static_in r N Q s U V upd : r_model r = TAN -> times L U V ->
    fst (rough_force (rough_units u r) N Q (rough_state_units u s) V upd) = rough_state_units u (fst (rough_force r N Q s U upd)) /\
    static_sc u (fun _ => / L) (snd (rough_force r N Q s U upd)) (snd (rough_force (rough_units u r) N Q (rough_state_units u s) V upd)).
  Proof.
    intros HT HV. unfold rough_force. cbv zeta. cbn [fst snd].
    assert (S : static_sc u (fun _ => / L) (static_force r s (seeded_local N Q U)) (static_force (rough_units u r) (rough_state_units u s) (seeded_local N Q V))).
    { apply static_force_sc; [exact Hu|exact HT|]. intros d. unfold seeded_local. apply of_sc. apply dseed_sc; [rewrite (local_in u N Q U V HV); reflexivity|fold L; field; lra]. }
    split; [|exact S]. destruct upd; [|reflexivity]. destruct S as (_ & S1 & S2 & S3). unfold update_history, rough_state_units. cbn [rs_mu rs_unmax rs_Fm rs_u0 rs_fxy rs_radii rs_aft_u0]. fold L F.
    assert (O : forall c x y, fsc (fun _ => / L) c x y -> fval y = option_map (Rmult c) (fval x)).
    { intros c x y [K _]. unfold osc in K. destruct (fval x), (fval y); try contradiction; [|reflexivity]. cbn. rewrite K. reflexivity. }
    f_equal.
    - rewrite (local_in u N Q U V HV). fold L. apply Rmax_scale, HL.
    - extensionality i. apply O, S1.
    - rewrite (local_in u N Q U V HV). reflexivity.
    - extensionality i. extensionality j. extensionality d. apply O, S2.
    - extensionality i. extensionality j. apply O, S3.
  Qed.

  Lemma rough_values T x y : static_sc u (fun _ => / L) x y -> both (times F) (force_values T x) (force_values T y).
  Proof.
    intros [S _]. unfold force_values. rewrite (values_sc (fun _ => / L) F 3 (st_f x) (st_f y)) by exact S. destruct (all_values 3 (st_f x)); [|exact I]. cbn [both]. apply (matvec_out 3 T). intros d. exact (proj1 (get_sc _ _ _ _ (S d))).
  Qed.
  Lemma rough_slopes T Q x y : static_sc u (fun _ => / L) x y -> both (mtimes (u_stiffness u)) (force_jacobian T Q x) (force_jacobian T Q y).
  Proof.
    intros [S _]. unfold force_jacobian. rewrite (tangents_sc (fun _ => / L) F 3 (st_f x) (st_f y)) by exact S. destruct (all_tangents 3 (st_f x)); [|exact I]. cbn [both]. apply tdq_times. intros d e.
    destruct (get_sc _ _ _ _ (S d)) as [_ G]. cbn in G. rewrite G, kE. fold F. field. lra.
  Qed.

  Lemma eldry_static_in p ne N Q T s U V upd : times L U V ->
    fst (ed_force p ne N Q T (eldry_units u s) V upd) = eldry_units u (fst (ed_force p ne N Q T s U upd)) /\ scaled2 u (snd (ed_force p ne N Q T s U upd)) (snd (ed_force p ne N Q T (eldry_units u s) V upd)).
  Proof.
    intros HV. unfold ed_force. cbv zeta. cbn [fst snd ed_pars ed_up ed_fp eldry_units].
    assert (S : forall c, dsc (fun _ => / L) F (ed_static p (ed_pars s) (dseed (matvec N Q U)) (ed_up s) (ed_fp s) c)
      (ed_static p (pars_units u (ed_pars s)) (dseed (matvec N Q V)) (fun d => L * ed_up s d) (fun d => F * ed_fp s d) c)).
    { intros c. apply (ed_static_sc u Hu). intros d. apply dseed_sc; [rewrite (local_in u N Q U V HV); reflexivity|fold L; field; lra]. }
    unfold pars_units in S. fold L in S |- *. fold F in S |- *. split.
    - destruct upd; [|reflexivity]. unfold ed_update_history, eldry_units. cbn [ed_pars ed_real_mu ed_prestress_mu ed_u0 ed_up ed_fp]. f_equal; [apply (local_in u N Q U V HV)|]. extensionality c. apply (proj1 (S c)).
    - split; cbn [fst snd]; [apply matvec_out; intros c; apply (proj1 (S c))|]. apply tdq_times. intros c c'. rewrite (proj2 (S c)), kE. field. lra.
  Qed.

  Lemma one_times (T : mat) f g : g = F * f -> times F (fun i => T i O * f) (fun i => T i O * g).
  Proof. intros -> i. ring. Qed.
  Lemma one_mtimes (T Q : mat) k : mtimes (u_stiffness u) (fun i j => T i O * k * Q O j) (fun i j => T i O * (u_stiffness u * k) * Q O j).
  Proof. intros i j. ring. Qed.

  Lemma jenkins_force_in s x upd : j_force (jenkins_units u s) (L * x) upd = rmap (fun p => (jenkins_units u (fst (fst p)), F * snd (fst p), u_stiffness u * snd p)) (j_force s x upd).
  Proof.
    unfold j_force. cbn [j_hist j_kt j_Fs jenkins_units]. destruct (j_hist s) as [[up fp]|]; [|reflexivity]. cbn [option_map fst snd]. fold L F. unfold L, F. rewrite (jenkins_law_in u Hu).
    destruct (j_law (j_kt s) (j_Fs s) up fp x) as [[[f d1] d2] d3]. cbn [rmap fst snd]. destruct upd; reflexivity.
  Qed.
  Lemma iwan_force_in s x upd : iw_force (iwan_units u s) (L * x) upd = let '(s', (f, k)) := iw_force s x upd in (iwan_units u s', (F * f, u_stiffness u * k)).
  Proof. unfold iw_force. unfold L. rewrite (iwan_instant_in u Hu). destruct (iw_instant_force s x upd) as [s1 [[f d] b]]. reflexivity. Qed.

  Lemma element_force_in N (C : nlforce -> nlforce -> Prop) e r U V upd : (forall f g, C f g -> same_result (scaled2 u) (nl_force f U) (nl_force g V)) -> element_in C u e r -> times L U V ->
    same_result (fun a b => element_in C u (fst a) (fst b) /\ both (times F) (fst (snd a)) (fst (snd b)) /\ both (mtimes (u_stiffness u)) (snd (snd a)) (snd (snd b)))
      (element_force N e U upd) (element_force N r V upd).
  Proof.
    intros HC H E. destruct H; cbn [element_force].
    - destruct upd; [reflexivity|]. apply (bind_map _ _ _ _ _ _ (HC f g H)). intros [F1 J1] [F2 J2] [A B]. cbn. split; [constructor; assumption|split; assumption].
    - rewrite (local_in u N Q U V E). fold L. rewrite jenkins_force_in. destruct (j_force s (matvec N Q U O) upd) as [[[s1 f] k]|e]; [|reflexivity]. cbn [rmap bind same_result fst snd both].
      split; [constructor|]. split; [apply one_times; reflexivity|apply one_mtimes].
    - rewrite (local_in u N Q U V E). fold L. rewrite iwan_force_in. destruct (iw_force s (matvec N Q U O) upd) as [s1 [f k]]. cbn [same_result fst snd both].
      split; [constructor|]. split; [apply one_times; reflexivity|apply one_mtimes].
    - destruct (eldry_static_in p ne N Q T s U V upd E) as [A B]. destruct (ed_force p ne N Q T s U upd) as [s1 [F1 J1]], (ed_force p ne N Q T (eldry_units u s) V upd) as [s2 [F2 J2]]. cbn [fst snd] in A, B. subst s2.
      destruct B as [B1 B2]. cbn [fst snd] in B1, B2. cbn [same_result fst snd both]. split; [constructor|split; assumption].
    - destruct (rough_static_in r N Q s U V upd H E) as [A B]. destruct (rough_force r N Q s U upd) as [s1 x1], (rough_force (rough_units u r) N Q (rough_state_units u s) V upd) as [s2 x2]. cbn [fst snd] in A, B. subst s2.
      cbn [same_result fst snd]. split; [constructor; exact H|]. split; [apply rough_values, B|apply rough_slopes, B].
    - destruct upd; [reflexivity|]. cbn. split; [constructor|]. split; intros i; intros; cbn; unfold vzero, mzero; ring.
  Qed.

  (** ** static residual and calls *)
  Lemma loop_in N (C : nlforce -> nlforce -> Prop) l r U V : (forall f g, C f g -> same_result (scaled2 u) (nl_force f U) (nl_force g V)) -> Forall2 (element_in C u) l r -> times L U V ->
    forall F1 F2 J1 J2, both (times F) F1 F2 -> both (mtimes (u_stiffness u)) J1 J2 ->
    same_result (fun a b => both (times F) (fst a) (fst b) /\ both (mtimes (u_stiffness u)) (snd a) (snd b)) (element_loop N l U F1 J1) (element_loop N r V F2 J2).
  Proof.
    intros HC H E. induction H as [|e e' l l' He Hl IH]; intros F1 F2 J1 J2 A B; cbn [element_loop]; [split; assumption|].
    apply (bind_map _ _ _ _ _ _ (element_force_in N C e e' U V false HC He E)). intros [e1 [G1 K1]] [e2 [G2 K2]] [_ [A1 B1]]. cbn [fst snd] in *. apply IH.
    - destruct F1, F2, G1, G2; cbn in *; try contradiction; try exact I. apply times_plus; assumption.
    - destruct J1, J2, K1, K2; cbn in *; try contradiction; try exact I. apply mtimes_plus; assumption.
  Qed.

  Lemma static_in N (C : nlforce -> nlforce -> Prop) K K' l r U V Fs Gs : (forall f g, C f g -> same_result (scaled2 u) (nl_force f U) (nl_force g V)) -> Forall2 (element_in C u) l r -> times L U V -> mtimes (u_stiffness u) K K' -> times F Fs Gs ->
    same_result (fun a b => both (times F) (fst a) (fst b) /\ both (mtimes (u_stiffness u)) (snd a) (snd b)) (sys_static_res N K l U Fs) (sys_static_res N K' r V Gs).
  Proof.
    intros HC H E HK HG. unfold sys_static_res.
    apply (bind_map _ _ _ _ _ _ (loop_in N C l r U V HC H E (Some vzero) (Some vzero) (Some mzero) (Some mzero) (times_zero F) (mtimes_zero (u_stiffness u)))).
    intros [F1 J1] [F2 J2] [A B]. cbn [fst snd] in A, B. cbn [same_result fst snd]. split.
    - destruct F1, F2; cbn in A; try contradiction; [|exact I]. cbn. intros i. rewrite (matvec_units N (u_stiffness u) L K K' U V HK (fun j _ => E j) i), kL, A, HG. ring.
    - destruct J1, J2; cbn in B; try contradiction; [|exact I]. cbn. apply mtimes_plus; assumption.
  Qed.

  Section Calls.
    Variable N : nat.
    Variable C : nlforce -> nlforce -> Prop.
    Hypothesis HC : forall f g U V, C f g -> times L U V -> same_result (scaled2 u) (nl_force f U) (nl_force g V).
    Notation rel := (Forall2 (element_in C u)).

    Lemma zeroL : L * 0 = 0. Proof. ring. Qed.
    Lemma zeroF : F * 0 = 0. Proof. ring. Qed.

    Lemma jenkins_init_in s : j_init_history (jenkins_units u s) = jenkins_units u (j_init_history s).
    Proof. unfold j_init_history, j_set_hist, jenkins_units. cbn [j_kt j_Fs j_prestress_Fs j_real_Fs j_hist j_dhist option_map fst snd]. fold L F. rewrite zeroL, zeroF. reflexivity. Qed.
    Lemma iwan_init_in s : iw_init_history (iwan_units u s) = iwan_units u (iw_init_history s).
    Proof.
      unfold iw_init_history, iw_set_hist, iwan_units. cbn [iw_n iw_phi iw_w iw_up iw_fp iw_fs iw_dhist]. fold L F. rewrite zeroL, zeroF. f_equal. extensionality i. unfold vzero. rewrite zeroL. reflexivity.
    Qed.
    Lemma eldry_init_in s : ed_init_history (eldry_units u s) = eldry_units u (ed_init_history s).
    Proof. unfold ed_init_history, eldry_units. cbn [ed_pars ed_real_mu ed_prestress_mu ed_u0 ed_up ed_fp]. fold L F. rewrite zeroL, zeroF. reflexivity. Qed.
    Lemma rough_init_in s : init_history (rough_state_units u s) = rough_state_units u (init_history s).
    Proof. unfold init_history, rough_state_units. cbn [rs_mu rs_unmax rs_Fm rs_u0 rs_fxy rs_radii rs_aft_u0 option_map]. fold L F. rewrite zeroL, zeroF. reflexivity. Qed.

    Lemma init_in l r : rel l r -> rel (fst (init_force_history l)) (fst (init_force_history r)) /\ snd (init_force_history l) = snd (init_force_history r).
    Proof.
      intros H. induction H as [|e e' l l' He Hl IH]; [split; [constructor|reflexivity]|]. cbn [init_force_history]. destruct (init_force_history l) as [l1 x1], (init_force_history l') as [l2 x2]. cbn [fst snd] in IH. destruct IH as [IH ->].
      destruct He; cbn [nl_force_type Nat.eqb el_init fst snd]; rewrite ?jenkins_init_in, ?iwan_init_in, ?eldry_init_in, ?rough_init_in; (split; [|reflexivity]); constructor; first [assumption | constructor; assumption | constructor].
    Qed.

    Lemma update_in l r U V : rel l r -> times L U V ->
      rel (fst (update_force_history N l U)) (fst (update_force_history N r V)) /\ snd (update_force_history N l U) = snd (update_force_history N r V).
    Proof.
      intros H E. induction H as [|e e' l l' He Hl IH]; [split; [constructor|reflexivity]|]. cbn [update_force_history].
      assert (T : nl_force_type e = nl_force_type e') by (destruct He; reflexivity). rewrite T. pose proof (element_force_in N C e e' U V true (fun f g K => HC f g U V K E) He E) as G.
      destruct (update_force_history N l U) as [l1 x1], (update_force_history N l' V) as [l2 x2]. cbn [fst snd] in IH. destruct IH as [IH ->].
      destruct (Nat.eqb (nl_force_type e') 1).
      - destruct (element_force N e U true) as [[e1 o1]|y1], (element_force N e' V true) as [[e2 o2]|y2]; cbn in G; try contradiction.
        + split; [constructor; [exact (proj1 G)|exact IH]|reflexivity].
        + subst y2. split; [constructor; assumption|reflexivity].
      - split; [constructor; assumption|reflexivity].
    Qed.

    Lemma prestress_in l r : rel l r -> rel (fst (prestress_all l)) (fst (prestress_all r)) /\ snd (prestress_all l) = snd (prestress_all r).
    Proof.
      intros H. induction H as [|e e' l l' He Hl IH]; [split; [constructor|reflexivity]|]. cbn [prestress_all]. destruct (prestress_all l) as [l1 x1], (prestress_all l') as [l2 x2]. cbn [fst snd] in IH. destruct IH as [IH ->].
      destruct He; cbn [el_prestress rough_step fst snd]; (split; [|reflexivity]).
      - repeat (constructor; try assumption).
      - constructor; [|exact IH]. exact (el_jenkins_in C u Q T (j_set_prestress_mu s)).
      - repeat (constructor; try assumption).
      - constructor; [|exact IH]. exact (el_eldry_in C u p ne Q T (ed_set_prestress_mu s)).
      - constructor; [|exact IH]. exact (el_rough_in C u Q T r (mkRS 0 (rs_unmax s) (rs_Fm s) (rs_u0 s) (rs_fxy s) (rs_radii s) (rs_aft_u0 s)) H).
      - constructor; [constructor|exact IH].
    Qed.

    Lemma reset_in l r : rel l r -> rel (map el_reset l) (map el_reset r).
    Proof.
      intros H. induction H as [|e e' l l' He Hl IH]; [constructor|]. cbn [map]. constructor; [|exact IH]. destruct He; cbn [el_reset rough_step].
      - constructor; assumption.
      - exact (el_jenkins_in C u Q T (j_reset_real_mu s)).
      - constructor.
      - exact (el_eldry_in C u p ne Q T (ed_reset_real_mu s)).
      - exact (el_rough_in C u Q T r (mkRS (r_mu r) (rs_unmax s) (rs_Fm s) (rs_u0 s) (rs_fxy s) (rs_radii s) (rs_aft_u0 s)) H).
      - constructor.
    Qed.

    Lemma aft_init_in l r U V : rel l r -> times L U V -> rel (map (el_aft_init N U) l) (map (el_aft_init N V) r).
    Proof.
      intros H E. induction H as [|e e' l l' He Hl IH]; [constructor|]. cbn [map]. constructor; [|exact IH]. destruct He; cbn [el_aft_init rough_step]; try (constructor; assumption).
      - unfold ed_set_aft_initialize. rewrite (local_in u N Q U V E). exact (el_eldry_in C u p ne Q T (mkED (ed_pars s) (ed_real_mu s) (ed_prestress_mu s) (Some (matvec N Q U)) (ed_up s) (ed_fp s))).
      - rewrite (local_in u N Q U V E). exact (el_rough_in C u Q T r (mkRS (rs_mu s) (rs_unmax s) (rs_Fm s) (rs_u0 s) (rs_fxy s) (rs_radii s) (matvec N Q U)) H).
    Qed.

    Lemma exec_in l r c : rel l r -> rel (fst (sys_exec N l c)) (fst (sys_exec N r (call_units u c))) /\ snd (sys_exec N l c) = snd (sys_exec N r (call_units u c)).
    Proof.
      intros H. destruct c; cbn [sys_exec call_units fst snd set_aft_initialize].
      - apply init_in, H.
      - apply update_in; [exact H|intros i; reflexivity].
      - apply prestress_in, H.
      - split; [apply reset_in, H|reflexivity].
      - split; [apply aft_init_in; [exact H|intros i; reflexivity]|reflexivity].
      - split; [exact H|]. assert (E := static_in N C mzero mzero l r U (fun i => u_length u * U i) Fstatic (fun i => u_force u * Fstatic i) (fun f g K => HC f g U _ K (fun i => eq_refl)) H (fun i => eq_refl) (mtimes_zero (u_stiffness u)) (fun i => eq_refl)).
        destruct (sys_static_res N mzero l U Fstatic), (sys_static_res N mzero r _ _); cbn in E; try contradiction; [reflexivity|subst; reflexivity].
    Qed.

    Lemma run_in cs : forall l r, rel l r -> rel (fst (sys_run N l cs)) (fst (sys_run N r (map (call_units u) cs))) /\ snd (sys_run N l cs) = snd (sys_run N r (map (call_units u) cs)).
    Proof.
      induction cs as [|c cs IH]; intros l r H; cbn [sys_run map]; [split; [exact H|reflexivity]|].
      destruct (exec_in l r c H) as [A B]. destruct (sys_exec N l c) as [l1 x1], (sys_exec N r (call_units u c)) as [r1 y1]. cbn [fst snd] in A, B. subst y1.
      destruct (IH l1 r1 A) as [A1 B1]. destruct (sys_run N l1 cs) as [l2 x2], (sys_run N r1 _) as [r2 y2]. cbn [fst snd] in *. subst y2. split; [exact A1|reflexivity].
    Qed.
  End Calls.

  (** ** harmonic residual *)
  Section Harmonic.
    Variable h : list nat.
    Variable Nt : nat.
    Hypothesis Ha : admissible h.
    Hypothesis HN : (2 * list_max h + 1 < Nt)%nat.
    Hypothesis Hev : Nat.even Nt = true.

    Lemma samples_are N Q U n x : ts_cols Nt h (fun d c => aft_Unl N Q U c d) 0 = Ok (n, x) ->
      n = Nt /\ repeat_samples n (x O) = repeat_samples Nt (fun n => local_motion N Q h U O (sample_phase Nt n)).
    Proof.
      intros E. destruct (ts_cols0 h Nt Ha HN Hev (fun d c => aft_Unl N Q U c d)) as [x0 [E0 S0]]. rewrite E in E0. injection E0 as -> ->. split; [reflexivity|]. symmetry. apply (sampled_motion N U h Nt); [|exact S0]. lia.
    Qed.

    Lemma jenkins_aft_in N Q T s U V : times L U V -> same_passes u N h Nt U (ElJenkins Q T s) ->
      same_result (fun a b => fst b = jenkins_units u (fst a) /\ scaled3 u (snd a) (snd b)) (jenkins_aft s N Q T U h Nt) (jenkins_aft (jenkins_units u s) N Q T V h Nt).
    Proof.
      intros HV [H0 HP]. unfold jenkins_aft. apply (hysteretic_in u); [exact HV|]. intros n x m y m2 cst E _ _. destruct (samples_are N Q U n x E) as [-> R].
      apply (jenkins_lfh_in u Hu); [lia|exact H0|]. rewrite R. exact HP.
    Qed.
    Lemma iwan_aft_in N Q T s U V : times L U V -> same_passes u N h Nt U (ElIwan Q T s) ->
      same_result (fun a b => fst b = iwan_units u (fst a) /\ scaled3 u (snd a) (snd b)) (iwan_aft s N Q T U h Nt) (iwan_aft (iwan_units u s) N Q T V h Nt).
    Proof.
      intros HV [H0 HP]. unfold iwan_aft. apply (hysteretic_in u); [exact HV|]. intros n x m y m2 cst E _ _. destruct (samples_are N Q U n x E) as [-> R].
      apply (iwan_lfh_in u Hu); [lia|exact H0|]. rewrite R. exact HP.
    Qed.

    Lemma element_aft_in N e r U V w : element_in (force_in u N) u e r -> times L U V -> same_passes u N h Nt U e ->
      same_result (fun a b => element_in (force_in u N) u (fst a) (fst b) /\ both (times F) (snd a) (snd b)) (element_aft N e U w h Nt) (element_aft N r V (W * w) h Nt).
    Proof.
      intros H HV HP. destruct H; cbn [element_aft].
      - apply (bind_map _ _ _ _ _ _ (force_aft N f g U V w h Nt H HV)). intros [[F1 J1] d1] [[F2 J2] d2] [A _]. cbn. split; [constructor; exact H|exact A].
      - apply (bind_map _ _ _ _ _ _ (jenkins_aft_in N Q T s U V HV HP)). intros [s1 [[F1 J1] d1]] [s2 [[F2 J2] d2]] [A [B _]]. cbn [fst snd] in A, B. subst s2. cbn. split; [constructor|exact B].
      - apply (bind_map _ _ _ _ _ _ (iwan_aft_in N Q T s U V HV HP)). intros [s1 [[F1 J1] d1]] [s2 [[F2 J2] d2]] [A [B _]]. cbn [fst snd] in A, B. subst s2. cbn. split; [constructor|exact B].
      - unfold eldry_aft. apply (bind_map _ _ _ _ _ _ (jax_in u Hu N (p * ne) Q T _ _ U V w h HV (ed_local_in u Hu p ne (ed_pars s) (ed_u0 s) h Nt))).
        intros [[F1 J1] d1] [[F2 J2] d2] [A _]. cbn. split; [constructor|exact A].
      - apply (bind_map _ _ _ _ _ _ (rough_in u Hu N Q T r s U V w h Nt 2 H HV)). intros [F1 G1] [F2 G2] [A _]. cbn. split; [constructor; exact H|exact A].
      - unfold jax_jenkins_aft. apply (bind_map _ _ _ _ _ _ (jax_in u Hu N 1 Q T _ _ U V w h HV (jj_local_in u Hu kt Fs u0 h Nt))).
        intros [[F1 J1] d1] [[F2 J2] d2] [A _]. cbn. split; [constructor|exact A].
    Qed.

    Lemma sys_aft_in N l r U V w : Forall2 (element_in (force_in u N) u) l r -> times L U V -> Forall (same_passes u N h Nt U) l -> forall F1 F2, both (times F) F1 F2 ->
      Forall2 (element_in (force_in u N) u) (fst (sys_aft N l U w h Nt F1)) (fst (sys_aft N r V (W * w) h Nt F2)) /\
      same_result (both (times F)) (snd (sys_aft N l U w h Nt F1)) (snd (sys_aft N r V (W * w) h Nt F2)).
    Proof.
      intros H HV. induction H as [|e e' l l' He Hl IH]; intros HP F1 F2 HF12; cbn [sys_aft]; [split; [constructor|exact HF12]|].
      assert (P1 : same_passes u N h Nt U e) by (inversion HP; assumption). assert (P2 : Forall (same_passes u N h Nt U) l) by (inversion HP; assumption).
      pose proof (element_aft_in N e e' U V w He HV P1) as G. destruct (element_aft N e U w h Nt) as [[e1 G1]|x1], (element_aft N e' V (W * w) h Nt) as [[e2 G2]|x2]; cbn in G; try contradiction.
      - destruct G as [A B]. assert (B' : both (times F) (oadd F1 G1) (oadd F2 G2)) by (destruct F1, F2, G1, G2; cbn in *; try contradiction; try exact I; apply times_plus; assumption).
        destruct (IH P2 _ _ B') as [C D]. destruct (sys_aft N l U w h Nt (oadd F1 G1)) as [l1 r1], (sys_aft N l' V (W * w) h Nt (oadd F2 G2)) as [l2 r2]. cbn [fst snd] in *. split; [constructor; assumption|exact D].
      - subst x2. cbn. split; [constructor; assumption|reflexivity].
    Qed.
  End Harmonic.

  (** ** linear part *)
  Lemma stiffness_in N M C K M' C' K' w h cg oc : mtimes (u_mass u) M M' -> mtimes (u_damping u) C C' -> mtimes (u_stiffness u) K K' ->
    same_result (fun a b => mtimes (u_stiffness u) (fst a) (fst b) /\ match snd a, snd b with Some x, Some y => mtimes (u_damping u) x y | None, None => True | _, _ => False end)
      (harmonic_stiffness N M C K w h cg oc) (harmonic_stiffness N M' C' K' (W * w) h cg oc).
  Proof.
    intros HM HC HK. unfold harmonic_stiffness. destruct (Nhc h) as [m|e]; [|reflexivity]. cbn [bind]. destruct h as [|k0 h']; [reflexivity|]. set (g := k0 :: h'). cbv zeta.
    assert (E : mtimes (u_stiffness u) (fold_left (hs_step N M C K w g oc) (hs_range g) (if (Nat.eqb (zi g) 1 && negb oc)%bool then set_block N mzero 0 0 K else mzero))
      (fold_left (hs_step N M' C' K' (W * w) g oc) (hs_range g) (if (Nat.eqb (zi g) 1 && negb oc)%bool then set_block N mzero 0 0 K' else mzero))).
    { assert (S : forall l A B, mtimes (u_stiffness u) A B -> mtimes (u_stiffness u) (fold_left (hs_step N M C K w g oc) l A) (fold_left (hs_step N M' C' K' (W * w) g oc) l B)).
      { induction l as [|i l IH]; intros A B HA; cbn [fold_left]; [exact HA|]. apply IH. unfold hs_step. cbv zeta.
        assert (P1 : forall s, mtimes (u_stiffness u) (mscal (s * INR (nth i g O) * w) C) (mscal (s * INR (nth i g O) * (W * w)) C')).
        { intros s a b. unfold mscal. rewrite HC, kE. unfold u_damping. fold L F W. field. lra. }
        assert (P2 : mtimes (u_stiffness u) (fun a b => K a b + (-1 * (INR (nth i g O) * w) ^ 2) * M a b) (fun a b => K' a b + (-1 * (INR (nth i g O) * (W * w)) ^ 2) * M' a b)).
        { intros a b. rewrite HK, HM, kE. unfold u_mass. fold L F W. field. lra. }
        destruct oc; repeat (apply set_block_times; try apply P1; try exact P2); exact HA. }
      apply S. destruct (_ && _)%bool; [apply set_block_times; [apply mtimes_zero|exact HK]|apply mtimes_zero]. }
    destruct cg; cbn [same_result fst snd]; (split; [exact E|]); [|exact I].
    assert (S : forall l A B, mtimes (u_damping u) A B -> mtimes (u_damping u) (fold_left (hs_dstep N M C w g oc) l A) (fold_left (hs_dstep N M' C' (W * w) g oc) l B)).
    { induction l as [|i l IH]; intros A B HA; cbn [fold_left]; [exact HA|]. apply IH. unfold hs_dstep. cbv zeta.
      assert (P1 : forall s, mtimes (u_damping u) (mscal s C) (mscal s C')) by (intros s a b; unfold mscal; rewrite HC; ring).
      assert (P2 : mtimes (u_damping u) (mscal (-2 * w * INR (nth i g O) ^ 2) M) (mscal (-2 * (W * w) * INR (nth i g O) ^ 2) M')).
      { intros a b. unfold mscal. rewrite HM. unfold u_mass, u_damping. fold L F W. field. lra. }
      destruct oc; repeat (apply set_block_times; try apply P1; try exact P2); exact HA. }
    apply S, mtimes_zero.
  Qed.

  Lemma unknowns_take n Uw : times L (take n Uw) (take n (unknowns_units u n Uw)).
  Proof. intros i. unfold take, clear_from, unknowns_units. destruct (Nat.ltb i n); [reflexivity|ring]. Qed.
  Lemma unknowns_last n Uw : unknowns_units u n Uw n = W * Uw n.
  Proof. unfold unknowns_units. rewrite Nat.ltb_irrefl. reflexivity. Qed.
  Lemma unknowns_first n Uw j : (j < n)%nat -> unknowns_units u n Uw j = L * Uw j.
  Proof. intros H. unfold unknowns_units. apply Nat.ltb_lt in H. rewrite H. reflexivity. Qed.

  Lemma harmonic_in N M C K M' C' K' l r Uw Fl Gl h Nt : admissible h -> (2 * list_max h + 1 < Nt)%nat -> Nat.even Nt = true ->
    let n := (aft_Nhc h * N)%nat in
    mtimes (u_mass u) M M' -> mtimes (u_damping u) C C' -> mtimes (u_stiffness u) K K' -> times F Fl Gl ->
    Forall2 (element_in (force_in u N) u) l r -> Forall (same_passes u N h Nt (take n Uw)) l ->
    let a := sys_hbm_res N M C K l Uw Fl h Nt in let b := sys_hbm_res N M' C' K' r (unknowns_units u n Uw) Gl h Nt in
    Forall2 (element_in (force_in u N) u) (fst a) (fst b) /\ same_result (both (times F)) (snd a) (snd b).
  Proof.
    intros Ha HN Hev n HM HC HK HG Hl HP. cbv zeta. unfold sys_hbm_res. cbv zeta. fold n. rewrite unknowns_last.
    pose proof (stiffness_in N M C K M' C' K' (Uw n) h true false HM HC HK) as S.
    destruct (harmonic_stiffness N M C K (Uw n) h true false) as [[E dE]|x], (harmonic_stiffness N M' C' K' (W * Uw n) h true false) as [[E' dE']|x']; cbn in S; try contradiction.
    2:{ subst x'. cbn. split; [exact Hl|reflexivity]. }
    destruct S as [S _]. destruct (sys_aft_in h Nt Ha HN Hev N l r (take n Uw) (take n (unknowns_units u n Uw)) (Uw n) Hl (unknowns_take n Uw) HP (Some vzero) (Some vzero) (times_zero F)) as [A B].
    destruct (sys_aft N l (take n Uw) (Uw n) h Nt (Some vzero)) as [l1 r1], (sys_aft N r (take n (unknowns_units u n Uw)) (W * Uw n) h Nt (Some vzero)) as [l2 r2]. cbn [fst snd] in *. split; [exact A|].
    apply (bind_map _ _ _ _ _ _ B). intros [F1|] [F2|] HF12; cbn in HF12; try contradiction; [|exact I]. cbn [same_result both]. intros i. cbv beta.
    rewrite (matvec_units n (u_stiffness u) L E E' Uw (unknowns_units u n Uw) S (unknowns_first n Uw) i), kL, HF12, HG. ring.
  Qed.

  (** ** Jacobians, without memory *)
  Lemma aft_loop_in N fs gs U V w h Nt : Forall2 (force_in u N) fs gs -> times L U V -> forall a b, scaled3 u a b -> same_result (scaled3 u) (aft_loop fs U w h Nt a) (aft_loop gs V (W * w) h Nt b).
  Proof.
    intros H HV. induction H as [|f g fs gs Hf Hfs IH]; intros a b Hab; cbn [aft_loop]; [exact Hab|].
    apply (bind_map _ _ _ _ _ _ (force_aft N f g U V w h Nt Hf HV)). intros [[F1 J1] d1] [[F2 J2] d2] (A & B & C). apply IH. destruct Hab as (A0 & B0 & C0). cbn [fst snd] in *.
    split; [apply times_plus; assumption|]. split; [apply mtimes_plus; assumption|apply times_plus; assumption].
  Qed.
  Lemma aft_loop_F_in N fs gs U V w h Nt : Forall2 (force_in u N) fs gs -> times L U V -> forall a b, times F a b -> same_result (times F) (aft_loop_F fs U w h Nt a) (aft_loop_F gs V (W * w) h Nt b).
  Proof.
    intros H HV. induction H as [|f g fs gs Hf Hfs IH]; intros a b Hab; cbn [aft_loop_F]; [exact Hab|].
    apply (bind_map _ _ _ _ _ _ (force_aft_F N f g U V w h Nt Hf HV)). intros F1 F2 A. apply IH. apply times_plus; assumption.
  Qed.

  Definition grad_in (a b : mat * vec) : Prop := mtimes (u_stiffness u) (fst a) (fst b) /\ times (F / W) (snd a) (snd b).
  Lemma hbm_in s r Uw Fl Gl h Nt cg : system_in u s r -> times F Fl Gl ->
    same_result (fun a b => times F (fst a) (fst b) /\ both grad_in (snd a) (snd b)) (hbm_res s Uw Fl h Nt cg) (hbm_res r (unknowns_units u (aft_Nhc h * vs_N s) Uw) Gl h Nt cg).
  Proof.
    intros (EN & HM & HC & HK & Hf) HG. unfold hbm_res. cbv zeta. rewrite EN. set (n := (aft_Nhc h * vs_N s)%nat). rewrite unknowns_last.
    apply (bind_map _ _ _ _ _ _ (stiffness_in (vs_N s) _ _ _ _ _ _ (Uw n) h cg false HM HC HK)). intros [E dE] [E' dE'] [S1 S2]. cbn [fst snd] in S1, S2.
    assert (T : same_result (fun a b => times F (fst a) (fst b) /\ both grad_in (snd a) (snd b)) (total_aft s (take n Uw) (Uw n) h Nt cg) (total_aft r (take n (unknowns_units u n Uw)) (W * Uw n) h Nt cg)).
    { unfold total_aft. destruct (Nhc h) as [m|e]; [|reflexivity]. cbn [bind]. destruct cg.
      - apply (bind_map _ _ _ _ _ _ (aft_loop_in (vs_N s) _ _ _ _ (Uw n) h Nt Hf (unknowns_take n Uw) (vzero, mzero, vzero) (vzero, mzero, vzero) (conj (times_zero F) (conj (mtimes_zero _) (times_zero _))))).
        intros [[F1 J1] d1] [[F2 J2] d2] (A & B & C). cbn. split; [exact A|split; [exact B|exact C]].
      - apply (bind_map _ _ _ _ _ _ (aft_loop_F_in (vs_N s) _ _ _ _ (Uw n) h Nt Hf (unknowns_take n Uw) vzero vzero (times_zero F))). intros F1 F2 A. cbn. split; [exact A|exact I]. }
    apply (bind_map _ _ _ _ _ _ T). intros [F1 G1] [F2 G2] [A B]. cbn [fst snd] in A, B.
    assert (R : times F (fun i => matvec n E Uw i + F1 i - Fl i) (fun i => matvec n E' (unknowns_units u n Uw) i + F2 i - Gl i)).
    { intros i. rewrite (matvec_units n (u_stiffness u) L E E' Uw (unknowns_units u n Uw) S1 (unknowns_first n Uw) i), kL, A, HG. ring. }
    destruct dE as [dE|], dE' as [dE'|]; try contradiction; [|cbn; split; [exact R|exact I]].
    destruct G1 as [[J1 d1]|], G2 as [[J2 d2]|]; cbn in B; try contradiction; cbn [same_result both fst snd]; (split; [exact R|]); [|exact I]. destruct B as [B1 B2]. cbn [fst snd] in B1, B2. split; cbn [fst snd]; [apply mtimes_plus; assumption|].
    intros i. cbv beta. rewrite (matvec_units n (u_damping u) L dE dE' Uw (unknowns_units u n Uw) S2 (unknowns_first n Uw) i), B2. unfold u_damping. fold L F W. field. lra.
  Qed.
End System.
