(** The JAX vectorised Jenkins element: the kept points contain all reversals, the steady state and its Jacobian. *)
From Coq Require Import Reals Lra Lia Arith List Bool FunctionalExtensionality Permutation Sorted.
From Verif.Lib Require Import RSum Calc Py.
From Verif.Spec Require Import Harmonic Calculus Slider Elements.
From Verif.Model Require Import Harmonic LocalForces Aft Jenkins VectorJenkins JaxDual JaxFriction JaxVectorJenkins.
From Verif.Proofs Require Import HarmonicP FourierP HarmonicOpsP AftP SliderP JenkinsP VectorJenkinsP HysteresisP JaxDualP JaxFrictionP TrigZerosP.
Import ListNotations.
Open Scope R_scope.

(** ---- sorting ---- *)
Lemma insert_perm x l : Permutation (insert x l) (x :: l).
Proof.
  induction l as [|y l IH]; cbn; [reflexivity|]. destruct (Nat.leb x y); [reflexivity|]. rewrite IH. apply perm_swap.
Qed.
Lemma sort_perm l : Permutation (sort l) l.
Proof. induction l as [|x l IH]; cbn; [reflexivity|]. rewrite insert_perm. constructor. exact IH. Qed.
Lemma insert_sorted x l : StronglySorted le l -> StronglySorted le (insert x l).
Proof.
  induction l as [|y l IH]; intros H; cbn; [repeat constructor|]. inversion H as [|? ? Hl Hy]; subst. destruct (Nat.leb_spec x y).
  - constructor; [exact H|]. constructor; [assumption|]. eapply Forall_impl; [|exact Hy]. cbn. intros; lia.
  - constructor; [apply IH; exact Hl|]. rewrite Forall_forall in *. intros z Hz. apply (Permutation_in _ (insert_perm x l)) in Hz. destruct Hz as [<-|Hz]; [lia|apply Hy; exact Hz].
Qed.
Lemma sort_sorted l : StronglySorted le (sort l).
Proof. induction l as [|x l IH]; cbn; [constructor|apply insert_sorted; exact IH]. Qed.
Lemma sorted_strict l : NoDup l -> StronglySorted le l -> StronglySorted lt l.
Proof.
  induction l as [|x l IH]; intros N H; [constructor|]. inversion N; inversion H; subst. constructor; [apply IH; assumption|].
  rewrite Forall_forall in *. intros y Hy. specialize (H7 y Hy). destruct (Nat.eq_dec x y) as [->|]; [contradiction|lia].
Qed.

(** ---- the kept points ---- *)
Section Selection.
  Variables (Nt k : nat) (b : nat -> bool).
  Hypothesis Hk : (0 < k <= Nt)%nat.
  Hypothesis H0 : b O = true.
  Let T := filter b (seq 0 Nt).
  Let All := T ++ filter (fun i => negb (b i)) (seq 0 Nt).
  Definition kept : list nat := sort (firstn k All).

  Lemma top_k_ok : top_k Nt k b = Ok (firstn k All).
  Proof. unfold top_k. destruct (Nat.ltb_spec Nt k); [lia|reflexivity]. Qed.

  Lemma all_perm : Permutation All (seq 0 Nt).
  Proof.
    unfold All, T. generalize (seq 0 Nt). induction l as [|x l IH]; cbn; [reflexivity|]. destruct (b x); cbn; [constructor; exact IH|].
    rewrite <- Permutation_middle. constructor. exact IH.
  Qed.
  Lemma all_nodup : NoDup All.
  Proof. apply (Permutation_NoDup (Permutation_sym all_perm)). apply seq_NoDup. Qed.
  Lemma firstn_sub {A} n (l : list A) x : In x (firstn n l) -> In x l.
  Proof. intros H. rewrite <- (firstn_skipn n l). apply in_or_app. left. exact H. Qed.
  Lemma firstn_nodup {A} n (l : list A) : NoDup l -> NoDup (firstn n l).
  Proof.
    revert l. induction n as [|n IH]; intros [|x l] H; cbn; try constructor; inversion H; subst.
    - intros C. apply firstn_sub in C. contradiction.
    - apply IH. assumption.
  Qed.

  Lemma kept_nodup : NoDup kept.
  Proof. apply (Permutation_NoDup (Permutation_sym (sort_perm _))). apply firstn_nodup. apply all_nodup. Qed.
  Lemma kept_length : length kept = k.
  Proof. unfold kept. rewrite (Permutation_length (sort_perm _)), firstn_length, (Permutation_length all_perm), seq_length. lia. Qed.
  Lemma kept_range i : In i kept -> (i < Nt)%nat.
  Proof. intros H. apply (Permutation_in _ (sort_perm _)) in H. apply firstn_sub in H. apply (Permutation_in _ all_perm) in H. apply in_seq in H. lia. Qed.
  Lemma T_head : exists T', T = O :: T'.
  Proof. unfold T. destruct Nt; [lia|]. cbn. rewrite H0. eexists. reflexivity. Qed.
  Lemma kept_0 : In O kept.
  Proof.
    apply (Permutation_in _ (Permutation_sym (sort_perm _))). unfold All. destruct T_head as (T' & ->). destruct k as [|k']; [lia|]. cbn. left. reflexivity.
  Qed.
  Lemma kept_all : (length T <= k)%nat -> forall i, (i < Nt)%nat -> b i = true -> In i kept.
  Proof.
    intros HT i Hi Hb. apply (Permutation_in _ (Permutation_sym (sort_perm _))). unfold All. rewrite firstn_app. apply in_or_app. left. rewrite firstn_all2 by exact HT.
    apply filter_In. split; [apply in_seq; lia|exact Hb].
  Qed.
  Lemma kept_cons : exists cs, kept = O :: cs /\ StronglySorted lt (O :: cs).
  Proof.
    pose proof (sorted_strict kept kept_nodup (sort_sorted _)) as S. pose proof kept_0 as I. destruct kept as [|x l]; [destruct I|]. exists l.
    assert (x = O). { destruct I as [|I]; [assumption|]. inversion S; subst. rewrite Forall_forall in *. specialize (H3 O I). lia. } subst x. split; [reflexivity|exact S].
  Qed.
End Selection.

Lemma jv_set_vj Nt u j : j <> O -> vj_vector_set Nt u j = negb (jv_vector_set Nt u j).
Proof. intros H. unfold vj_vector_set, jv_vector_set. destruct (Nat.eqb_spec j 0); [contradiction|]. rewrite negb_involutive. reflexivity. Qed.

Lemma chain_sorted Nt u cs : forall c, StronglySorted lt (c :: cs) -> (forall i, In i (c :: cs) -> (i < Nt)%nat) ->
  (forall j, (c < j < Nt)%nat -> ~ In j cs -> vj_vector_set Nt u j = true) -> chain Nt u c cs.
Proof.
  induction cs as [|d cs IH]; intros c S Hr Hg.
  - cbn. split; [apply Hr; left; reflexivity|]. intros j Hj. apply Hg; [exact Hj|intros []].
  - inversion S as [|? ? S' F]; subst. inversion F; subst. inversion S' as [|? ? S'' F']; subst. rewrite Forall_forall in F'. cbn. split; [|split].
    + split; [assumption|apply Hr; right; left; reflexivity].
    + intros j Hj. apply Hg; [specialize (Hr d (or_intror (or_introl eq_refl))); lia|]. intros [C|C]; [lia|]. specialize (F' j C). lia.
    + apply IH; [exact S'|intros i Hi; apply Hr; right; exact Hi|]. intros j Hj Hni. apply Hg; [lia|]. intros [C|C]; [lia|contradiction].
Qed.

(** ---- the loop ---- *)
Lemma jj_history_dsl Nt (unl : vec -> nat -> nat -> dual) kt Fs (start : vec -> dual) V k : (0 < Nt)%nat -> (k < Nt)%nat ->
  jj_history Nt (unl V) kt Fs (start V) k O = dsl Nt kt (fun V k => unl V k O) (fun _ _ => dconst Fs) start V (Nt + k).
Proof.
  intros HNt Hk. unfold jj_history.
  set (g := fun (i c : nat) (x : dual) => dmax (dmin (dadd (dscal kt (dsub (unl V i c) (unl V (prev_row Nt i) c))) x) (dconst Fs)) (dconst (- Fs))).
  rewrite (two_passes Nt g HNt (jj_body Nt (unl V) kt Fs) (fun _ => True)); [| |exact I|exact Hk].
  - assert (Cm : dconst (- Fs) = dscal (-1) (dconst Fs)) by (apply dual_eq; cbn; intros; ring).
    assert (Gd : forall i x, g i O x = dsl_step Nt kt (fun V k => unl V k O) (fun _ _ => dconst Fs) V i x) by (intros i x; unfold g, dsl_step; rewrite Cm; reflexivity).
    generalize (Nt + k)%nat. intros j. induction j as [|j IH]; cbn [rowsteps dsl].
    + rewrite Gd. unfold aset. rewrite Nat.eqb_refl. reflexivity.
    + rewrite Gd. f_equal. exact IH.
  - intros i ft Hi _. split; [exact I|]. unfold jj_body, aset. split; [intros c; rewrite Nat.eqb_refl; reflexivity|]. intros t c Ht. destruct (Nat.eqb_spec t i); [contradiction|reflexivity].
Qed.

Section Run.
  Variables (Nt : nat) (inds : list nat) (kt Fs : R).
  Let m := length inds.
  Hypothesis Hm : (0 < m)%nat.
  Hypothesis Hnd : NoDup inds.
  Hypothesis Hhd : nth 0 inds O = O.
  Let ind (j : nat) : nat := nth j inds O.

  Lemma ind_inj i j : (i < m)%nat -> (j < m)%nat -> ind i = ind j -> i = j.
  Proof. intros Hi Hj E. apply (NoDup_nth inds O) in E; [exact E|exact Hnd|exact Hi|exact Hj]. Qed.

  Section Sim.
    Variable unlt : nat -> nat -> dual.
    Let sub : nat -> nat -> dual := fun j d => unlt (ind j) d.
    Definition simul (ft ft' : nat -> nat -> dual) : Prop := forall j c, (j < m)%nat -> ft (ind j) c = ft' j c.

    Lemma body_sim c ft ft' : (c < m)%nat -> simul ft ft' -> simul (jv_body inds unlt kt Fs c ft) (jj_body m sub kt Fs c ft').
    Proof.
      intros Hc S j q Hj. unfold jv_body, jj_body. cbv zeta. fold m. fold (ind c) (ind (prev_row m c)). unfold aset.
      assert (P : (prev_row m c < m)%nat) by (apply Nat.mod_upper_bound; lia).
      destruct (Nat.eqb_spec j c) as [->|Hne].
      - rewrite Nat.eqb_refl. rewrite (S _ q P). reflexivity.
      - destruct (Nat.eqb_spec (ind j) (ind c)) as [E|_]; [exfalso; apply Hne; apply ind_inj; assumption|]. apply S. exact Hj.
    Qed.

    Lemma pass_sim ft ft' : simul ft ft' -> simul (fori_loop 0 m (jv_body inds unlt kt Fs) ft) (fori_loop 0 m (jj_body m sub kt Fs) ft').
    Proof.
      unfold fori_loop. rewrite Nat.sub_0_r. intros S.
      assert (G : forall l ft ft', (forall c, In c l -> (c < m)%nat) -> simul ft ft' ->
        simul (fold_left (fun x i => jv_body inds unlt kt Fs i x) l ft) (fold_left (fun x i => jj_body m sub kt Fs i x) l ft')).
      { induction l as [|c l IH]; intros f f' Hl Sf; [exact Sf|]. cbn [fold_left]. apply IH; [intros; apply Hl; right; assumption|]. apply body_sim; [apply Hl; left; reflexivity|exact Sf]. }
      apply G; [intros c Hc; apply in_seq in Hc; lia|exact S].
    Qed.

    Definition crit_run (u0 : dual) : nat -> nat -> dual :=
      fold_left (fun ft _ => fori_loop 0 m (jv_body inds unlt kt Fs) ft) (seq 0 2)
        (aset (fun _ _ => dconst 0) (ind (m - 1)) (fun d => dscal kt (dsub (unlt (ind (m - 1)) d) u0))).

    Lemma crit_run_0 u0 c : crit_run u0 O c = jj_history m sub kt Fs u0 O c.
    Proof.
      assert (S : simul (crit_run u0) (jj_history m sub kt Fs u0)).
      { unfold crit_run, jj_history. cbn [seq fold_left]. apply pass_sim. apply pass_sim. intros j q Hj. unfold aset.
        destruct (Nat.eqb_spec j (m - 1)) as [->|Hne]; [rewrite Nat.eqb_refl; reflexivity|].
        destruct (Nat.eqb_spec (ind j) (ind (m - 1))) as [E|_]; [exfalso; apply Hne; apply ind_inj; [assumption|lia|exact E]|reflexivity]. }
      rewrite <- (S O c Hm). unfold ind. rewrite Hhd. reflexivity.
    Qed.
  End Sim.

  Section Tail.
    Variables (unl : vec -> nat -> nat -> dual) (start : vec -> dual).
    Hypothesis HNt : (0 < Nt)%nat.
    Let u := fun (V : vec) k => unl V k O.
    Let hi := fun (_ : vec) (_ : nat) => dconst Fs.
    Let us := fun (V : vec) j => unl V (ind j) O.

    Fixpoint jtail (V : vec) (k : nat) : dual :=
      match k with O => dsl m kt us hi start V m | S j => dsl_step Nt kt u hi V (S j) (jtail V j) end.

    Lemma jv_run_tail V k : (k < Nt)%nat -> jv_run Nt inds (unl V) kt Fs (start V) k O = jtail V k.
    Proof.
      intros Hk. unfold jv_run. cbv zeta. fold m. fold (ind (m - 1)). fold (crit_run (unl V) (start V)). unfold fori_loop.
      assert (Cm : dconst (- Fs) = dscal (-1) (dconst Fs)) by (apply dual_eq; cbn; intros; ring).
      assert (Z : forall n, (S n <= Nt)%nat -> let ft := fold_left (fun x i => jj_body Nt (unl V) kt Fs i x) (seq 1 n) (crit_run (unl V) (start V)) in
                   forall k, (k <= n)%nat -> ft k O = jtail V k).
      { induction n as [|n IH]; intros Hn ft j Hj.
        - replace j with O by lia. unfold ft. cbn [seq fold_left]. rewrite crit_run_0.
          etransitivity; [apply (jj_history_dsl m (fun V j d => unl V (ind j) d) kt Fs start V 0 Hm Hm)|]. rewrite Nat.add_0_r. reflexivity.
        - unfold ft. rewrite seq_S, fold_left_app. cbn [fold_left Nat.add]. specialize (IH ltac:(lia)). cbv zeta in IH. set (f := fold_left _ (seq 1 n) _) in *. unfold jj_body, aset. cbv beta zeta.
          destruct (Nat.eqb_spec j (S n)) as [->|Hne]; [|apply IH; lia]. cbn [jtail]. unfold dsl_step. unfold u, hi. rewrite prev_row_S by (try exact HNt; lia). rewrite IH by lia. rewrite Cm. reflexivity. }
      apply (Z (Nt - 1)%nat); lia.
    Qed.

    (** the values alone *)
    Fixpoint vtail (uu : nat -> R) (s : R) (k : nat) : R :=
      match k with
      | O => jenkins_law kt Fs (repeat_samples m (fun j => uu (ind j))) s m
      | S j => clamp (- Fs) Fs (vtail uu s j + kt * (uu (S j) - uu j))
      end.
    Lemma jtail_vtail V k : (k < Nt)%nat -> dv (jtail V k) = vtail (fun t => dv (unl V t O)) (dv (start V)) k.
    Proof.
      induction k as [|k IH]; intros Hk.
      - cbn [jtail]. rewrite (proj1 (dsl_value m kt Hm _ _ _ _ _)). reflexivity.
      - cbn [jtail vtail]. unfold dsl_step, u, hi. rewrite dv_max, dv_min. cbn [dadd dscal dsub dv dconst]. rewrite prev_row_S by (try exact HNt; lia). rewrite IH by lia.
        unfold clamp. rewrite Rmax_comm. f_equal; [ring|]. rewrite Rmin_comm. f_equal. ring.
    Qed.

    Lemma jtail_local q : (forall k, (k < Nt)%nat -> dlocal q (fun V => unl V k O)) -> dlocal q start -> (forall j, (j < m)%nat -> (ind j < Nt)%nat) ->
      forall k, (k < Nt)%nat -> dlocal q (fun V => jtail V k).
    Proof.
      intros Lu Ls Hr. induction k as [|k IH]; intros Hk V W E.
      - cbn [jtail]. rewrite !(proj1 (dsl_value m kt Hm _ _ _ _ _)). unfold sval. rewrite (Ls V W E).
        assert (EU : uval m us V = uval m us W). { unfold uval, repeat_samples, us. extensionality j. apply Lu; [|exact E]. apply Hr. apply Nat.mod_upper_bound. lia. }
        rewrite EU. reflexivity.
      - cbn [jtail]. unfold dsl_step. rewrite !dv_max, !dv_min. cbn [dadd dscal dsub dv]. unfold u, hi. rewrite prev_row_S by (try exact HNt; lia).
        rewrite (Lu (S k) ltac:(lia) V W E), (Lu k ltac:(lia) V W E), (IH ltac:(lia) V W E). reflexivity.
    Qed.

    Lemma jtail_no_tangent V q : (forall k, (k < Nt)%nat -> dt (unl V k O) q = 0) -> dt (start V) q = 0 -> (forall j, (j < m)%nat -> (ind j < Nt)%nat) ->
      forall k, (k < Nt)%nat -> dt (jtail V k) q = 0.
    Proof.
      intros Hu Hs Hr. induction k as [|k IH]; intros Hk.
      - cbn [jtail]. apply (dsl_no_tangent m kt Hm); [|reflexivity|exact Hs]. intros j Hj. unfold us. apply Hu. apply Hr. exact Hj.
      - cbn [jtail]. unfold dsl_step, u, hi. rewrite prev_row_S by (try exact HNt; lia). set (x := dadd _ _).
        assert (X : dt x q = 0) by (unfold x; cbn; rewrite IH, !Hu by lia; ring). clearbody x.
        assert (M : dt (dmin x (dconst Fs)) q = 0). { unfold dmin. destruct (Rltb _ _); [exact X|]. destruct (Rltb _ _); [reflexivity|]. cbn. rewrite X. field. }
        unfold dmax. destruct (Rltb _ _); [exact M|]. destruct (Rltb _ _); [cbn; ring|]. cbn. rewrite M. field.
    Qed.

    (** values: the second pass of the law, when the kept points contain all reversals *)
    Variable cs : list nat.
    Hypothesis Hinds : inds = O :: cs.
    Hypothesis HF : 0 <= Fs.
    Section Value.
      Variable V : vec.
      Let uu := fun t => dv (unl V t O).
      Hypothesis Hch : chain Nt uu O cs.
      Let law := jenkins_law kt Fs (repeat_samples Nt uu) (dv (start V)).

      Lemma sub_law n j : (j < m)%nat ->
        pass_law kt Fs m (fun j => uu (ind j)) (dv (start V)) n j = pass_law kt Fs Nt uu (dv (start V)) n (ind j).
      Proof.
        intros Hj. subst m ind. rewrite Hinds in *. apply (crit_law kt Fs Nt uu (fun _ _ => 0) (dv (start V)) HNt HF cs Hch n j Hj).
      Qed.

      Lemma jtail_value k : (k < Nt)%nat -> dv (jtail V k) = law (Nt + k)%nat.
      Proof.
        induction k as [|k IH]; intros Hk.
        - cbn [jtail]. rewrite (proj1 (dsl_value m kt Hm _ _ _ _ _)). unfold sval.
          pose proof (sub_law 1 0 Hm) as E. unfold pass_law in E. rewrite !Nat.mul_1_l in E. unfold ind in E. rewrite Hhd, Nat.add_0_r in E. unfold law. rewrite Nat.add_0_r. etransitivity; [|etransitivity; [exact E|rewrite Nat.add_0_r; reflexivity]]. reflexivity.
        - cbn [jtail]. unfold dsl_step, u, hi. rewrite dv_max, dv_min. cbn [dadd dscal dsub dv dconst]. rewrite prev_row_S by (try exact HNt; lia). rewrite IH by lia.
          replace (Nt + S k)%nat with (S (Nt + k)) by lia. unfold law, jenkins_law. cbn [slider]. unfold clamp.
          rewrite Rmax_comm. f_equal; [ring|]. rewrite Rmin_comm. f_equal.
          assert (R1 : repeat_samples Nt uu (S (Nt + k)) = uu (S k)) by (unfold repeat_samples; replace (S (Nt + k)) with (S k + 1 * Nt)%nat by lia; rewrite Nat.mod_add, Nat.mod_small by lia; reflexivity).
          assert (R0 : repeat_samples Nt uu (Nt + k) = uu k) by (unfold repeat_samples; replace (Nt + k)%nat with (k + 1 * Nt)%nat by lia; rewrite Nat.mod_add, Nat.mod_small by lia; reflexivity).
          rewrite R1, R0. unfold uu. ring.
      Qed.

      Lemma gap_no_tie t p : same_dir (repeat_samples Nt uu) t (S p) ->
        (forall j, (t < j <= t + S p)%nat -> Rabs (trial kt Fs (repeat_samples Nt uu) (dv (start V)) j) <> Fs) ->
        Rabs (law t + kt * (repeat_samples Nt uu (t + S p)%nat - repeat_samples Nt uu t)) <> Fs.
      Proof.
        induction p as [|p IH]; intros Hd Ht.
        - specialize (Ht (S t) ltac:(lia)). cbn [trial] in Ht. rewrite Nat.add_1_r. exact Ht.
        - assert (Hd' : same_dir (repeat_samples Nt uu) t (S p)) by (apply (same_dir_le _ t (S p) (S (S p))); [lia|exact Hd]).
          specialize (IH Hd' ltac:(intros; apply Ht; lia)).
          destruct (gap_formula kt Fs (repeat_samples Nt uu) (fun _ _ => 0) (dv (start V)) t HF p Hd') as [G _]. fold law in G.
          pose proof (total_dir (repeat_samples Nt uu) t (S p) Hd) as TD. cbv zeta in TD.
          specialize (Ht (t + S (S p))%nat ltac:(lia)). replace (t + S (S p))%nat with (S (t + S p)) in Ht by lia. cbn [trial] in Ht. fold law in Ht.
          replace (S (t + S p)) with (t + S (S p))%nat in Ht by lia. rewrite G in Ht.
          pose proof (law_range kt Fs (repeat_samples Nt uu) (dv (start V)) HF t) as Rg. fold law in Rg.
          set (A := repeat_samples Nt uu (t + S p)%nat - repeat_samples Nt uu t) in *. set (d := repeat_samples Nt uu (t + S (S p))%nat - repeat_samples Nt uu (t + S p)%nat) in *.
          replace (repeat_samples Nt uu (t + S (S p))%nat - repeat_samples Nt uu t) with (A + d) by (unfold A, d; ring).
          set (x := law t) in *. unfold clamp in Ht.
          assert (SD : 0 <= (kt * A) * (kt * d)). { replace (kt * A * (kt * d)) with ((kt * kt) * (A * d)) by ring. apply Rmult_le_pos; [nra|]. destruct TD as [[? ?]|[[? ?]|[? ?]]]; nra. }
          destruct (Rlt_or_le Fs (x + kt * A)) as [L1|L1].
          { assert (0 < kt * A) by lra. assert (0 <= kt * d) by nra. rewrite Rmult_plus_distr_l. rewrite Rabs_right by lra. lra. }
          destruct (Rlt_or_le (x + kt * A) (- Fs)) as [L2|L2].
          { assert (kt * A < 0) by lra. assert (kt * d <= 0) by nra. rewrite Rmult_plus_distr_l. rewrite Rabs_left1 by lra. lra. }
          rewrite Rmin_right, Rmax_right in Ht by lra. replace (x + kt * (A + d)) with (x + kt * A + kt * d) by ring. exact Ht.
      Qed.

      Lemma sub_no_tie : (forall j, (j < 2 * Nt)%nat -> Rabs (trial kt Fs (repeat_samples Nt uu) (dv (start V)) j) <> Fs) ->
        forall j, (j <= m)%nat -> Rabs (trial kt Fs (repeat_samples m (fun j => uu (ind j))) (dv (start V)) j) <> Fs.
      Proof.
        intros Ht j Hj. destruct (chain_nth Nt uu HNt cs O Hch) as (A & B & C). rewrite <- Hinds in A, B, C.
        assert (Hmc : m = S (length cs)) by (unfold m; rewrite Hinds; reflexivity). fold ind in A, B, C.
        assert (RS : forall i, (i < Nt)%nat -> repeat_samples Nt uu i = uu i) by (intros i Hi; unfold repeat_samples; rewrite Nat.mod_small by exact Hi; reflexivity).
        destruct j as [|j].
        - specialize (Ht O ltac:(lia)). cbn [trial] in *. unfold repeat_samples in *. rewrite Nat.mod_0_l in * by lia. unfold ind. rewrite Hhd. exact Ht.
        - cbn [trial]. pose proof (sub_law 0 j ltac:(lia)) as L. unfold pass_law in L. rewrite !Nat.mul_0_l, !Nat.add_0_l in L. rewrite L. fold law.
          assert (Lj : (ind j < Nt)%nat) by (apply A; lia).
          unfold repeat_samples at 1 2. rewrite (Nat.mod_small j m) by lia.
          destruct (Nat.eq_dec (S j) m) as [E|E].
          + rewrite E, Nat.mod_same by lia. unfold ind at 2. rewrite Hhd.
            pose proof (gap_dir Nt uu HNt 0 (ind j) (Nt - ind j)) as GD. rewrite Nat.mul_0_l, Nat.add_0_l in GD.
            specialize (GD ltac:(lia)). replace (Nt - ind j)%nat with (S (Nt - ind j - 1)) in GD by lia.
            pose proof (gap_no_tie (ind j) (Nt - ind j - 1)) as G. replace (ind j + S (Nt - ind j - 1))%nat with Nt in * by lia.
            assert (RN : repeat_samples Nt uu Nt = uu O) by (unfold repeat_samples; rewrite Nat.mod_same by lia; reflexivity).
            rewrite (RS (ind j) Lj), RN in G. apply G.
            * apply GD. intros i Hi. apply C. replace (length cs) with j by lia. exact Hi.
            * intros i Hi. apply Ht. lia.
          + rewrite (Nat.mod_small (S j) m) by lia. destruct (B j ltac:(lia)) as [B1 B2]. change (ind j < ind (S j))%nat in B1. assert (LS : (ind (S j) < Nt)%nat) by (apply A; lia).
            pose proof (gap_dir Nt uu HNt 0 (ind j) (ind (S j) - ind j)) as GD. rewrite Nat.mul_0_l, Nat.add_0_l in GD.
            specialize (GD ltac:(lia)). replace (ind (S j) - ind j)%nat with (S (ind (S j) - ind j - 1)) in GD by lia.
            pose proof (gap_no_tie (ind j) (ind (S j) - ind j - 1)) as G. replace (ind j + S (ind (S j) - ind j - 1))%nat with (ind (S j)) in * by lia.
            rewrite (RS (ind j) Lj), (RS _ LS) in G. apply G.
            * apply GD. exact B2.
            * intros i Hi. apply Ht. lia.
      Qed.
    End Value.

    Lemma jtail_grad q X :
      chain Nt (fun t => dv (unl X t O)) O cs ->
      (forall k, (k < Nt)%nat -> dlocal q (fun V => unl V k O) /\ dgrad q (fun V => unl V k O) X) ->
      dlocal q start -> dgrad q start X -> (forall j, (j < m)%nat -> (ind j < Nt)%nat) ->
      (forall j, (j < 2 * Nt)%nat -> Rabs (trial kt Fs (repeat_samples Nt (fun t => dv (unl X t O))) (dv (start X)) j) <> Fs) ->
      forall k, (k < Nt)%nat -> dgrad q (fun V => jtail V k) X.
    Proof.
      intros Hch Hu Ls Gs Hr Ht.
      assert (NA : forall x, Rabs x <> Fs -> x <> Fs /\ x <> - Fs).
      { intros x Hx. split; intros ->; apply Hx; [apply Rabs_right; lra|rewrite Rabs_Ropp; apply Rabs_right; lra]. }
      induction k as [|k IH]; intros Hk.
      - cbn [jtail]. apply (dsl_grad m q kt Hm us hi start) with (K := S m); [intros; exact HF| | |exact Ls|exact Gs| |lia].
        + intros j Hj. apply (Hu (ind j)). apply Hr. exact Hj.
        + intros j Hj. split; [intros A B _; reflexivity|apply dgrad_const].
        + intros j Hj. pose proof (sub_no_tie X Hch Ht j ltac:(lia)) as T. apply NA in T.
          assert (ES : strial m kt us hi start X j = trial kt Fs (repeat_samples m (fun j => dv (unl X (ind j) O))) (dv (start X)) j) by (destruct j; reflexivity).
          rewrite ES. exact T.
      - assert (E : (fun V => jtail V (S k)) = (fun V => dmax (dmin (dadd (dscal kt (dsub (unl V (S k) O) (unl V k O))) (jtail V k)) (dconst Fs)) (dscal (-1) (dconst Fs)))).
        { extensionality V. cbn [jtail]. unfold dsl_step, u, hi. rewrite prev_row_S by (try exact HNt; lia). reflexivity. }
        rewrite E.
        assert (Lk : dlocal q (fun V => jtail V k)) by (apply jtail_local; [intros j Hj; apply Hu; exact Hj|exact Ls|exact Hr|lia]).
        assert (R1 : repeat_samples Nt (fun t => dv (unl X t O)) (S (Nt + k)) = dv (unl X (S k) O)) by (unfold repeat_samples; replace (S (Nt + k)) with (S k + 1 * Nt)%nat by lia; rewrite Nat.mod_add, Nat.mod_small by lia; reflexivity).
        assert (R0 : repeat_samples Nt (fun t => dv (unl X t O)) (Nt + k) = dv (unl X k O)) by (unfold repeat_samples; replace (Nt + k)%nat with (k + 1 * Nt)%nat by lia; rewrite Nat.mod_add, Nat.mod_small by lia; reflexivity).
        destruct (Hu (S k) Hk) as [L1 G1]. destruct (Hu k ltac:(lia)) as [L0 G0].
        apply (dgrad_clamp q X (fun V => dadd (dscal kt (dsub (unl V (S k) O) (unl V k O))) (jtail V k)) (fun _ => dconst Fs)).
        + intros V W EV. cbn. rewrite (L1 V W EV), (L0 V W EV), (Lk V W EV). reflexivity.
        + intros A B _. reflexivity.
        + apply (dgrad_add q X (fun V => dscal kt (dsub (unl V (S k) O) (unl V k O))) (fun V => jtail V k)); [|apply IH; lia].
          apply (dgrad_scal q X kt (fun V => dsub (unl V (S k) O) (unl V k O))). apply (dgrad_sub q X (fun V => unl V (S k) O) (fun V => unl V k O)); assumption.
        + apply dgrad_const.
        + intros V. exact HF.
        + reflexivity.
        + apply (NA _). specialize (Ht (Nt + S k)%nat ltac:(lia)). replace (Nt + S k)%nat with (S (Nt + k)) in Ht by lia. cbn [trial] in Ht.
          cbn [dadd dscal dsub dv]. rewrite (jtail_value X Hch k) by lia. rewrite R1, R0 in Ht. rewrite Rplus_comm. exact Ht.
        + apply (NA _). specialize (Ht (Nt + S k)%nat ltac:(lia)). replace (Nt + S k)%nat with (S (Nt + k)) in Ht by lia. cbn [trial] in Ht.
          cbn [dadd dscal dsub dv]. rewrite (jtail_value X Hch k) by lia. rewrite R1, R0 in Ht. rewrite Rplus_comm. exact Ht.
    Qed.
  End Tail.
End Run.
