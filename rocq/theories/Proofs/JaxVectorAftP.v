(** The JAX vectorised Jenkins element: aft. *)
From Coq Require Import Reals Lra Lia Arith List Bool FunctionalExtensionality.
From Verif.Lib Require Import RSum Calc Py.
From Verif.Spec Require Import Harmonic Calculus Slider Elements.
From Verif.Model Require Import Harmonic LocalForces Aft Jenkins VectorJenkins JaxDual JaxFriction JaxVectorJenkins.
From Verif.Proofs Require Import HarmonicP FourierP HarmonicOpsP AftP SliderP JenkinsP VectorJenkinsP HysteresisP HystAftP JaxDualP JaxFrictionP TrigZerosP JaxVectorP.
Import ListNotations.
Open Scope R_scope.

(** ---- reversals ---- *)
Lemma sign_same a b : Rsign a = Rsign b <-> same_direction a b.
Proof.
  unfold Rsign, same_direction. destruct (Rlt_dec 0 a), (Rlt_dec 0 b), (Rlt_dec a 0), (Rlt_dec b 0); split; intros; try lra; try (right; right; lra); try (right; left; lra); try (left; lra).
Qed.

Lemma jv_set_reverses Nt u i : (0 < i)%nat -> jv_vector_set Nt u i = true <-> reverses Nt u i.
Proof.
  intros Hi. unfold jv_vector_set, reverses. destruct (Nat.eqb_spec i 0); [lia|]. rewrite negb_true_iff, Reqb_false, sign_same. reflexivity.
Qed.

Lemma count_kept Nt u b : (0 < Nt)%nat -> reversals_at_most Nt u b -> (length (filter (jv_vector_set Nt u) (seq 0 Nt)) <= S b)%nat.
Proof.
  intros HN H. destruct Nt as [|n]; [lia|]. cbn [seq filter]. change (jv_vector_set (S n) u 0) with true. cbn [length]. apply le_n_S. apply H.
  - apply NoDup_filter. apply seq_NoDup.
  - intros k Hk. apply filter_In in Hk. destruct Hk as [A B]. apply in_seq in A. split; [lia|]. apply jv_set_reverses; [lia|exact B].
Qed.

Lemma series_period h X t : series h X (t + 2 * PI) = series h X t.
Proof.
  unfold series. apply rsum_ext. intros c _. f_equal. unfold basis. destruct (nth c (components h) (Cos 0)) as [k|k]; cbn [comp_fun];
  replace (INR k * (t + 2 * PI)) with (INR k * t + 2 * INR k * PI) by ring; [apply cos_period|apply sin_period].
Qed.

Lemma next_sample h X Nt k : (k < Nt)%nat ->
  series h X (sample_phase Nt ((k + 1) mod Nt)) = series h X (sample_phase Nt (S k)).
Proof.
  intros Hk. destruct (Nat.eq_dec (S k) Nt) as [E|E].
  - rewrite Nat.add_1_r, E, Nat.mod_same by lia. rewrite <- (series_period h X (sample_phase Nt 0)). f_equal. unfold sample_phase. cbn [INR]. field. apply not_0_INR. lia.
  - rewrite Nat.add_1_r, Nat.mod_small by lia. reflexivity.
Qed.

(** samples of a trigonometric polynomial of degree H without equal neighbours have at most 2H reversals *)
Lemma series_reversals h X Nt : (1 < Nt)%nat ->
  (forall k, (k < Nt)%nat -> series h X (sample_phase Nt (S k)) <> series h X (sample_phase Nt k)) ->
  reversals_at_most Nt (fun k => series h X (sample_phase Nt k)) (2 * list_max h).
Proof.
  intros HN Hne ks Hnd Hk.
  set (d := fun k => series h X (sample_phase Nt k + 2 * PI / INR Nt) - series h X (sample_phase Nt k)).
  assert (Ed : forall k, d k = series h X (sample_phase Nt (S k)) - series h X (sample_phase Nt k)).
  { intros k. unfold d. rewrite (phase_S Nt HN). reflexivity. }
  apply (reversal_count (list_max h) Nt (series h X) (istrig_series h X) HN) with (ks := ks).
  - intros k Hk'. specialize (Hne k Hk'). fold (d k). rewrite Ed. lra.
  - exact Hnd.
  - intros k I. destruct (Hk k I) as [R Rv]. split; [exact R|]. fold (d (k - 1)%nat) (d k). rewrite !Ed. unfold reverses in Rv.
    replace ((k + Nt - 1) mod Nt)%nat with (k - 1)%nat in Rv by (replace (k + Nt - 1)%nat with (k - 1 + 1 * Nt)%nat by lia; rewrite Nat.mod_add, Nat.mod_small by lia; reflexivity).
    cbv beta in Rv. rewrite (next_sample h X Nt k) in Rv by lia. replace (S (k - 1)) with k by lia.
    pose proof (Hne (k - 1)%nat ltac:(lia)) as N1. pose proof (Hne k ltac:(lia)) as N2. replace (S (k - 1)) with k in N1 by lia.
    set (a := series h X (sample_phase Nt k) - series h X (sample_phase Nt (k - 1))) in *. set (b := series h X (sample_phase Nt (S k)) - series h X (sample_phase Nt k)) in *.
    assert (a <> 0) by (unfold a; lra). assert (b <> 0) by (unfold b; lra).
    destruct (Rtotal_order a 0) as [A|[A|A]]; [|lra|]; destruct (Rtotal_order b 0) as [B|[B|B]]; try lra; try nra; exfalso; apply Rv; unfold same_direction; [right; left|left]; split; lra.
Qed.

(** ---- the kept points do not change locally ---- *)
Lemma sign_loc f t0 l : derivable_pt_lim f t0 l -> f t0 <> 0 -> exists d, 0 < d /\ forall t, Rabs (t - t0) < d -> Rsign (f t) = Rsign (f t0).
Proof.
  intros Hf Hn. assert (C : continuity_pt f t0) by (apply derivable_continuous_pt; exists l; exact Hf).
  destruct (C (Rabs (f t0)) (Rabs_pos_lt _ Hn)) as (d & Hd & H). exists d. split; [exact Hd|]. intros t Ht.
  destruct (Req_dec t t0) as [->|Hne]; [reflexivity|]. specialize (H t). cbn in H. unfold R_dist, D_x, no_cond in H.
  assert (B : Rabs (f t - f t0) < Rabs (f t0)) by (apply H; repeat split; auto).
  unfold Rsign. destruct (Rtotal_order (f t0) 0) as [A|[A|A]]; [|contradiction|].
  - rewrite (Rabs_left (f t0)) in B by exact A. apply Rabs_def2 in B. destruct (Rlt_dec 0 (f t)), (Rlt_dec 0 (f t0)), (Rlt_dec (f t) 0), (Rlt_dec (f t0) 0); lra.
  - rewrite (Rabs_right (f t0)) in B by lra. apply Rabs_def2 in B. destruct (Rlt_dec 0 (f t)), (Rlt_dec 0 (f t0)), (Rlt_dec (f t) 0), (Rlt_dec (f t0) 0); lra.
Qed.

Lemma signs_loc n (f : nat -> R -> R) t0 : (forall k, (k < n)%nat -> exists l, derivable_pt_lim (f k) t0 l) -> (forall k, (k < n)%nat -> f k t0 <> 0) ->
  exists d, 0 < d /\ forall t, Rabs (t - t0) < d -> forall k, (k < n)%nat -> Rsign (f k t) = Rsign (f k t0).
Proof.
  induction n as [|n IH]; intros Hd Hn.
  - exists 1. split; [lra|]. intros; lia.
  - destruct IH as (d1 & P1 & H1); [intros; apply Hd; lia|intros; apply Hn; lia|]. destruct (Hd n ltac:(lia)) as [l Hl]. destruct (sign_loc (f n) t0 l Hl (Hn n ltac:(lia))) as (d2 & P2 & H2).
    exists (Rmin d1 d2). split; [apply Rmin_pos; assumption|]. intros t Ht k Hk. pose proof (Rmin_l d1 d2). pose proof (Rmin_r d1 d2).
    destruct (Nat.eq_dec k n) as [->|]; [apply H2; lra|apply H1; [lra|lia]].
Qed.

Lemma kept_ext Nt k b b' : (forall i, (i < Nt)%nat -> b i = b' i) -> kept Nt k b = kept Nt k b'.
Proof.
  intros H. unfold kept. assert (A : forall i, In i (seq 0 Nt) -> b i = b' i) by (intros i Hi; apply in_seq in Hi; apply H; lia).
  rewrite (filter_ext_in b b' _ A). rewrite (filter_ext_in (fun i => negb (b i)) (fun i => negb (b' i))); [reflexivity|]. intros i Hi. rewrite (A i Hi). reflexivity.
Qed.

Lemma set_ext Nt u u' : (0 < Nt)%nat -> (forall i, (i < Nt)%nat -> Rsign (u ((i + 1) mod Nt)%nat - u i) = Rsign (u' ((i + 1) mod Nt)%nat - u' i)) ->
  forall i, (i < Nt)%nat -> jv_vector_set Nt u i = jv_vector_set Nt u' i.
Proof.
  intros HN H i Hi. unfold jv_vector_set. destruct (Nat.eqb_spec i 0); [reflexivity|]. unfold jv_dun. rewrite (H i Hi). f_equal. f_equal. unfold jv_dup.
  assert (P : prev_row Nt i = (i - 1)%nat) by (destruct i; [lia|]; rewrite prev_row_S by lia; lia). rewrite P. specialize (H (i - 1)%nat ltac:(lia)).
  replace ((i - 1 + 1) mod Nt)%nat with i in H by (rewrite Nat.sub_add, Nat.mod_small by lia; reflexivity). exact H.
Qed.

(** ---- aft ---- *)
Section JaxVector.
  Variables (N : nat) (Q T : mat) (kt Fs : R) (u0 : option R) (h : list nat) (Nt : nat).
  Hypothesis Ha : admissible h.
  Hypothesis HN : (2 * list_max h + 1 < Nt)%nat.
  Hypothesis Hev : Nat.even Nt = true.
  Hypothesis Hlast : last h O = list_max h.
  Let nhc := length (components h).
  Hypothesis Htwo : (1 < nhc)%nat.
  Hypothesis HFs : 0 <= Fs.
  Let m := (nhc * 1 + 1)%nat.
  Let H := list_max h.

  Let usamp (V : vec) (t : nat) : R := lser 1 h V 0 (sample_phase Nt t).

  Lemma jax_vector_local : exists F : vec -> nat -> nat -> dual,
    (forall V, jv_local kt Fs u0 h Nt (seeded 1 V) = Ok (F V)) /\
    (forall V c, (c < nhc)%nat -> dv (F V c O) = coefc h Nt (vtail (kept Nt (jv_Ncrit h) (jv_vector_set Nt (usamp V))) kt Fs (usamp V) (jstart u0 V)) c) /\
    (forall V W c d, (c < nhc)%nat -> (d < 1)%nat -> (forall j, (j < nhc * 1)%nat -> V j = W j) -> dv (F V c d) = dv (F W c d)) /\
    (forall V c d, (c < nhc)%nat -> (d < 1)%nat -> reversals_at_most Nt (usamp V) (2 * H) -> dv (F V c d) = jlocF kt Fs u0 h Nt V d c) /\
    (forall V c d, (c < nhc)%nat -> (d < 1)%nat -> dt (F V c d) (nhc * 1)%nat = 0) /\
    (forall X, (forall k, (k < Nt)%nat -> lser 1 h X 0 (sample_phase Nt (S k)) <> lser 1 h X 0 (sample_phase Nt k)) ->
       (forall j, (j < 2 * Nt)%nat -> Rabs (trial kt Fs (repeat_samples Nt (usamp X)) (jstart u0 X) j) <> Fs) ->
       forall c d, (c < nhc)%nat -> (d < 1)%nat -> dgrad m (fun V => F V c d) X).
  Proof.
    destruct (seeded_samples 1 h Nt Ha HN Hev ltac:(lia)) as (unl & E & S).
    set (start := fun V : vec => match u0 with None => seeded 1 V O O | Some x => dconst x end).
    set (K := jv_Ncrit h). assert (EK : K = (2 * H + 1)%nat) by (unfold K, jv_Ncrit, H; rewrite Hlast; lia).
    set (uv := fun (V : vec) t => dv (unl V t O)).
    set (ind := fun V : vec => kept Nt K (jv_vector_set Nt (uv V))).
    assert (HK : (0 < K <= Nt)%nat) by (unfold H in EK; lia). assert (HNt : (0 < Nt)%nat) by lia.
    assert (Euv : forall V t, (t < Nt)%nat -> uv V t = usamp V t) by (intros V t Ht; apply (S t O Ht ltac:(lia))).
    assert (B0 : forall V, jv_vector_set Nt (uv V) O = true) by reflexivity.
    assert (IndOk : forall V, jv_inds h Nt (fun t => dv (unl V t O)) = Ok (ind V)).
    { intros V. unfold jv_inds. fold K. rewrite (top_k_ok Nt K _ HK). reflexivity. }
    assert (Len : forall V, length (ind V) = K) by (intros V; apply kept_length; exact HK).
    assert (Hd0 : forall V, nth 0 (ind V) O = O) by (intros V; destruct (kept_cons Nt K _ HK (B0 V)) as (cs & Ec & _); unfold ind; rewrite Ec; reflexivity).
    assert (Ndp : forall V, NoDup (ind V)) by (intros V; apply kept_nodup).
    assert (Rng : forall V j, (j < length (ind V))%nat -> (nth j (ind V) O < Nt)%nat) by (intros V j Hj; apply (kept_range Nt K (jv_vector_set Nt (uv V)) HK); apply nth_In; exact Hj).
    assert (Tail : forall V k, (k < Nt)%nat -> jv_run Nt (ind V) (unl V) kt Fs (start V) k O = jtail Nt (ind V) kt Fs unl start V k).
    { intros V k Hk. apply (jv_run_tail Nt (ind V) kt Fs); [rewrite Len; lia|apply Ndp|apply Hd0|exact HNt|exact Hk]. }
    assert (Chain : forall V, reversals_at_most Nt (usamp V) (2 * H) -> exists cs, ind V = O :: cs /\ chain Nt (uv V) O cs).
    { intros V Few. destruct (kept_cons Nt K _ HK (B0 V)) as (cs & Ec & Ss). exists cs. split; [exact Ec|]. apply chain_sorted; [exact Ss| |].
      - intros i Hi. apply (kept_range Nt K (jv_vector_set Nt (uv V)) HK). rewrite Ec. exact Hi.
      - intros j Hj Hni. rewrite jv_set_vj by lia. destruct (jv_vector_set Nt (uv V) j) eqn:Ej; [exfalso|reflexivity]. apply Hni.
        assert (Hin : In j (kept Nt K (jv_vector_set Nt (uv V)))).
        { apply kept_all; [exact HK| |lia|exact Ej]. eapply Nat.le_trans; [apply (count_kept Nt (uv V) (2 * H) HNt)|lia]. intros ks K1 K2. apply Few; [exact K1|]. intros k Hk. destruct (K2 k Hk) as [Rk Vk]. split; [exact Rk|].
          unfold reverses in *. rewrite <- !Euv; [exact Vk|try lia; apply Nat.mod_upper_bound; lia..]. }
        rewrite Ec in Hin. destruct Hin as [Z|Hin]; [lia|exact Hin]. }
    assert (Uv : forall V, repeat_samples Nt (fun t => dv (unl V t O)) = repeat_samples Nt (usamp V)).
    { intros V. unfold repeat_samples. extensionality k. apply Euv. apply Nat.mod_upper_bound; lia. }
    assert (Sv : forall V, dv (start V) = jstart u0 V) by (intros V; unfold start, jstart; destruct u0; reflexivity).
    assert (Luv : forall V W, (forall j, (j < nhc * 1)%nat -> V j = W j) -> forall t, (t < Nt)%nat -> uv V t = uv W t).
    { intros V W EV t Ht. destruct (S t O Ht ltac:(lia)) as (_ & L & _). apply L. exact EV. }
    assert (Ls : dlocal (nhc * 1) start) by (intros V W EV; rewrite !Sv; unfold jstart; destruct u0; [reflexivity|apply EV; lia]).
    assert (Lind : forall V W, (forall j, (j < nhc * 1)%nat -> V j = W j) -> ind V = ind W).
    { intros V W EV. unfold ind. apply kept_ext. apply set_ext; [exact HNt|]. intros i Hi. rewrite !(Luv V W EV); [reflexivity|exact Hi|apply Nat.mod_upper_bound; lia]. }
    destruct (gfc_dual_grad h Nt Ha HN m (fun V => jv_run Nt (ind V) (unl V) kt Fs (start V))) as (F & EF & VF & GF).
    exists F. split; [|split; [|split; [|split; [|split]]]].
    - intros V. unfold jv_local. rewrite E. cbn [bind]. rewrite IndOk. cbn [bind]. exact (EF V).
    - intros V c Hc. rewrite (proj1 (VF V c O Hc)). apply coefc_ext. intros k Hk. rewrite Tail by exact Hk. rewrite (jtail_vtail Nt (ind V) kt Fs); try assumption; [|rewrite Len; lia|apply Hd0]. rewrite Sv. fold (uv V). fold K.
      assert (EI : kept Nt K (jv_vector_set Nt (usamp V)) = ind V).
      { unfold ind. apply kept_ext. apply set_ext; [exact HNt|]. intros i Hi. rewrite !Euv; [reflexivity|exact Hi|apply Nat.mod_upper_bound; lia]. }
      rewrite EI. clear - Hk Euv Rng Len HK HNt. induction k as [|k IH]; cbn [vtail].
      + rewrite Len. f_equal. unfold repeat_samples. extensionality j. apply Euv. apply Rng. rewrite Len. apply Nat.mod_upper_bound. lia.
      + rewrite IH by lia. rewrite !Euv by lia. reflexivity.
    - intros V W c d Hc Hd EV. replace d with O by lia. rewrite (proj1 (VF V c O Hc)), (proj1 (VF W c O Hc)). apply coefc_ext. intros k Hk. rewrite !Tail by exact Hk. rewrite (Lind V W EV).
      apply (jtail_local Nt (ind W) kt Fs) with (q := (nhc * 1)%nat); [rewrite Len; lia|apply Hd0|exact HNt| |exact Ls|apply Rng|exact Hk|exact EV].
      intros t Ht. apply (S t O Ht ltac:(lia)).
    - intros V c d Hc Hd Few. replace d with O by lia. rewrite (proj1 (VF V c O Hc)). unfold jlocF. apply coefc_ext. intros k Hk. rewrite Tail by exact Hk.
      destruct (Chain V Few) as (cs & Ec & Hch). rewrite (jtail_value Nt (ind V) kt Fs) with (cs := cs); try assumption; [|rewrite Len; lia|apply Ndp|apply Hd0].
      rewrite Uv, Sv. reflexivity.
    - intros V c d Hc Hd. replace d with O by lia. rewrite (proj2 (VF V c O Hc)). rewrite (coefc_ext h Nt _ (fun _ => 0 * 0)); [rewrite coefc_scal; ring|].
      intros k Hk. rewrite Tail by exact Hk. rewrite Rmult_0_l. apply (jtail_no_tangent Nt (ind V) kt Fs); [rewrite Len; lia|apply Hd0|exact HNt| | |apply Rng|exact Hk].
      + intros t Ht. apply (S t O Ht ltac:(lia)).
      + unfold start. destruct u0; [reflexivity|]. cbn. destruct (Nat.eqb_spec (nhc * 1) 0); [lia|reflexivity].
    - intros X Hne HX c d Hc Hd. replace d with O by lia. apply GF; [exact Hc|]. intros k Hk.
      assert (Few : reversals_at_most Nt (usamp X) (2 * H)) by (apply (series_reversals h (fun c => X (c * 1 + 0)%nat) Nt); [lia|exact Hne]).
      destruct (Chain X Few) as (cs & Ec & Hch).
      assert (Gu : forall t, (t < Nt)%nat -> dlocal m (fun V => unl V t O) /\ dgrad m (fun V => unl V t O) X).
      { intros t Ht. destruct (S t O Ht ltac:(lia)) as (_ & L & G & _). split; [apply (dlocal_more (nhc * 1)); [unfold m; lia|exact L]|apply G]. }
      assert (Gfix : dgrad m (fun V => jtail Nt (ind X) kt Fs unl start V k) X).
      { apply (jtail_grad Nt (ind X) kt Fs) with (cs := cs); try assumption.
        - rewrite Len; lia.
        - apply Ndp.
        - apply Hd0.
        - apply (dlocal_more (nhc * 1)); [unfold m; lia|exact Ls].
        - unfold start. destruct u0 as [x|]; [apply (dgrad_const m X x)|]. apply (dgrad_seed m X O). unfold m. lia.
        - apply Rng.
        - intros j Hj. rewrite Uv, Sv. apply HX. exact Hj. }
      intros g v t0 Hg Hv.
      assert (Eg : forall t, (t < Nt)%nat -> uv (g t0) t = uv X t) by (intros t Ht; apply Luv; [intros j Hj; apply Hg; unfold m; lia|exact Ht]).
      destruct (signs_loc Nt (fun i t => uv (g t) ((i + 1) mod Nt)%nat - uv (g t) i) t0) as (dl & Pd & Hsg).
      { intros i Hi. assert (Hi' : ((i + 1) mod Nt < Nt)%nat) by (apply Nat.mod_upper_bound; lia). eexists. apply (dlim_minus (fun t => uv (g t) ((i + 1) mod Nt)%nat) (fun t => uv (g t) i)).
        - apply (proj2 (Gu _ Hi') g v t0 Hg Hv).
        - apply (proj2 (Gu _ Hi) g v t0 Hg Hv). }
      { intros i Hi. cbv beta. assert (Hi' : ((i + 1) mod Nt < Nt)%nat) by (apply Nat.mod_upper_bound; lia). rewrite !Eg by assumption. rewrite !Euv by assumption. unfold usamp.
        specialize (Hne i Hi). unfold lser in *. rewrite next_sample by exact Hi. lra. }
      assert (IndLoc : forall t, Rabs (t - t0) < dl -> ind (g t) = ind X).
      { intros t Ht. unfold ind. apply kept_ext. apply set_ext; [exact HNt|]. intros i Hi. rewrite (Hsg t Ht i Hi). rewrite !Eg; [reflexivity|exact Hi|apply Nat.mod_upper_bound; lia]. }
      specialize (Gfix g v t0 Hg Hv). cbv beta in Gfix.
      rewrite (Tail X k Hk). apply (dlim_ext_loc (fun t => dv (jtail Nt (ind X) kt Fs unl start (g t) k))); [|exact Gfix].
      exists dl. split; [exact Pd|]. intros t Ht. cbv beta. rewrite (Tail (g t) k Hk), (IndLoc t Ht). reflexivity.
  Qed.

  Lemma jax_vector_exact :
    exists (F : vec -> R -> vec) (dU : vec -> R -> mat) (dw : vec -> R -> vec),
      (forall U w, jax_vector_jenkins_aft N Q T kt Fs u0 U w h Nt = Ok (F U w, dU U w, dw U w)) /\
      (forall U w,
         let start := match u0 with None => local_first_coef N Q U | Some x => x end in
         let u := fun n => local_motion N Q h U 0 (sample_phase Nt n) in
         let law := jenkins_law kt Fs (repeat_samples Nt u) start in
         reversals_at_most Nt u (2 * list_max h) ->
         steady_state Nt law (fun n => law (Nt + n)%nat) /\
         forall c i, (c < nhc)%nat -> (i < N)%nat -> F U w (c * N + i)%nat = T i 0%nat * fourier_coef Nt (fun n => law (Nt + n)%nat) (nth c (components h) (Cos O))) /\
      (forall U w r, (r < nhc * N)%nat -> dw U w r = 0) /\
      (forall U w,
         let start := match u0 with None => local_first_coef N Q U | Some x => x end in
         let u := fun n => local_motion N Q h U 0 (sample_phase Nt n) in
         (forall n, (n < Nt)%nat -> u (S n) <> u n) ->
         (forall j, (j < 2 * Nt)%nat -> Rabs (trial kt Fs (repeat_samples Nt u) start j) <> Fs) ->
         is_joint_jacobian (nhc * N) (nhc * N) F U w (dU U w) (dw U w)).
  Proof.
    destruct jax_vector_local as (F & EF & _ & Fext & VF & DF & GF).
    destruct (jax_aft_exact N 1 Q T h Ha ltac:(lia) Htwo (jv_local kt Fs u0 h Nt) F EF (fun V d c => dv (F V c d)) (fun V c d _ _ => eq_refl)
               (fun V W d c Hc Hd E => Fext V W c d Hc Hd E) DF) as (FF & dU & dw & A & B & C & D). exists FF, dU, dw.
    assert (EM : forall U n, lser 1 h (loc N 1 Q h U) 0 (sample_phase Nt n) = local_motion N Q h U 0 (sample_phase Nt n)) by (intros U n; unfold lser, local_motion; apply (lser_loc N 1 Q h U O); lia).
    assert (EMf : forall U, (fun n => lser 1 h (loc N 1 Q h U) 0 (sample_phase Nt n)) = (fun n => local_motion N Q h U 0 (sample_phase Nt n))) by (intros U; extensionality n; apply EM).
    assert (EL : forall U, jstart u0 (loc N 1 Q h U) = match u0 with None => local_first_coef N Q U | Some x => x end).
    { intros U. unfold jstart. destruct u0; [reflexivity|]. change (local_first_coef N Q U) with (aft_Unl N Q U 0 0). exact (loc_Unl N 1 Q h U O O ltac:(lia) ltac:(lia)). }
    split; [exact A|]. split; [|split; [exact C|]].
    - intros U w start u law Few. split.
      + unfold law, jenkins_law. apply jenkins_second_pass_steady; [lia|exact HFs].
      + intros c i Hc Hi. rewrite B by assumption. cbn [rsum]. rewrite Rplus_0_l. rewrite VF; [|exact Hc|lia|unfold usamp; rewrite EMf; exact Few]. unfold jlocF. rewrite EMf, EL. reflexivity.
    - intros U w start u Hne HT. apply D. intros c d Hc Hd.
      assert (ES : jstart u0 (join 1 h (loc N 1 Q h U) w) = start). { unfold start. rewrite <- EL. unfold jstart. destruct u0; [reflexivity|]. unfold join. fold nhc. destruct (Nat.ltb_spec 0 (nhc * 1)); [reflexivity|lia]. }
      assert (EU : forall n, lser 1 h (join 1 h (loc N 1 Q h U) w) 0 (sample_phase Nt n) = u n).
      { intros t. unfold u. rewrite <- EM. unfold lser. apply (series_ext h). intros c' Hc'. unfold join. fold nhc in Hc'. fold nhc. destruct (Nat.ltb_spec (c' * 1 + 0) (nhc * 1)); [reflexivity|lia]. }
      apply GF; try assumption.
      + intros k Hk. rewrite !EU. apply Hne. exact Hk.
      + intros j Hj. assert (EUf : usamp (join 1 h (loc N 1 Q h U) w) = u) by (extensionality n; apply EU). rewrite EUf, ES. apply HT. exact Hj.
  Qed.
End JaxVector.

(** ---- a motion with equal neighbouring samples ---- *)
Definition plateau (p : nat) : R := match p with 2 => 2 / sqrt 3 | _ => 0 end.
Definition six (n : nat) : R := match n with 1 => 1 | 2 => 1 | 4 => -1 | 5 => -1 | _ => 0 end.

Lemma sqrt3_pos : 0 < sqrt 3.
Proof. apply sqrt_lt_R0. lra. Qed.

Lemma plateau_samples n : (n < 6)%nat -> local_motion 1 (fun _ _ => 1) [O; 1%nat] plateau 0 (sample_phase 6 n) = six n.
Proof.
  intros Hn. pose proof sqrt3_pos as P. unfold local_motion, series. change (length (components [0%nat; 1%nat])) with 3%nat. cbn [rsum]. unfold dof_coefs, plateau, basis.
  cbn [Nat.mul Nat.add nth components flat_map app comp_fun]. unfold sample_phase.
  assert (S1 : sin (INR 1 * (2 * PI * INR n / INR 6)) = six n * (sqrt 3 / 2)).
  { destruct n as [|[|[|[|[|[|n]]]]]]; [| | | | | |lia]; cbn [six].
    - cbn [INR]. replace (1 * (2 * PI * 0 / _)) with 0 by (cbn; field). rewrite sin_0. ring.
    - replace (INR 1 * (2 * PI * INR 1 / INR 6)) with (PI / 3) by (cbn; field). rewrite sin_PI3. ring.
    - replace (INR 1 * (2 * PI * INR 2 / INR 6)) with (PI - PI / 3) by (cbn; field). rewrite sin_PI_x, sin_PI3. ring.
    - replace (INR 1 * (2 * PI * INR 3 / INR 6)) with PI by (cbn; field). rewrite sin_PI. ring.
    - replace (INR 1 * (2 * PI * INR 4 / INR 6)) with (PI / 3 + PI) by (cbn; field). rewrite neg_sin, sin_PI3. ring.
    - replace (INR 1 * (2 * PI * INR 5 / INR 6)) with (- (PI / 3) + 2 * INR 1 * PI) by (cbn; field). rewrite sin_period, sin_neg, sin_PI3. ring. }
  rewrite S1. field. lra.
Qed.

Lemma plateau_wrong : let start := 0 in
  let law := jenkins_law 1 (1 / 2) (repeat_samples 6 (fun n => local_motion 1 (fun _ _ => 1) [O; 1%nat] plateau 0 (sample_phase 6 n))) start in
  exists F dU dw, jax_vector_jenkins_aft 1 (fun _ _ => 1) (fun _ _ => 1) 1 (1 / 2) (Some start) plateau 1 [O; 1%nat] 6 = Ok (F, dU, dw) /\
    F O = - (1 / 6) /\ fourier_coef 6 (fun n => law (6 + n)%nat) (Cos O) = 0.
Proof.
  intros start law.
  assert (Ha : admissible [O; 1%nat]) by (split; [discriminate|split; [repeat constructor; cbn; intuition discriminate|cbn; intuition discriminate]]).
  destruct (jax_vector_local 1 (1 / 2) (Some start) [O; 1%nat] 6 Ha ltac:(cbn; lia) eq_refl eq_refl ltac:(cbn; lia) ltac:(lra)) as (F & EF & VT & Fext & _ & DF & _).
  destruct (jax_aft_exact 1 1 (fun _ _ => 1) (fun _ _ => 1) [O; 1%nat] Ha ltac:(lia) ltac:(cbn; lia) (jv_local 1 (1 / 2) (Some start) [O; 1%nat] 6) F EF (fun V d c => dv (F V c d)) (fun V c d _ _ => eq_refl)
               (fun V W d c Hc Hd E => Fext V W c d Hc Hd E) DF) as (FF & dU & dw & A & B & _).
  exists (FF plateau 1), (dU plateau 1), (dw plateau 1). split; [apply A|].
  assert (Six : forall n, (n < 6)%nat -> lser 1 [O; 1%nat] (loc 1 1 (fun _ _ => 1) [O; 1%nat] plateau) 0 (sample_phase 6 n) = six n).
  { intros n Hn. rewrite <- plateau_samples by exact Hn. apply (lser_loc 1 1 (fun _ _ => 1) [O; 1%nat] plateau O). lia. }
  split.
  - pose proof (B plateau 1 O O ltac:(cbn; lia) ltac:(lia)) as BB. cbn [Nat.mul Nat.add rsum] in BB. rewrite BB, VT by (cbn; lia). cbn [jstart].
    set (u := fun t => lser 1 [O; 1%nat] (loc 1 1 (fun _ _ => 1) [O; 1%nat] plateau) 0 (sample_phase 6 t)) in *.
    assert (EI : kept 6 (jv_Ncrit [0%nat; 1%nat]) (jv_vector_set 6 u) = [0%nat; 1%nat; 2%nat]).
    { rewrite (kept_ext 6 _ (jv_vector_set 6 u) (fun i => match i with 3%nat => false | _ => true end)); [reflexivity|].
      intros i Hi. rewrite (set_ext 6 u six ltac:(lia)); [|intros j Hj; unfold u; rewrite !Six; [reflexivity|exact Hj|apply Nat.mod_upper_bound; lia]|exact Hi].
      unfold jv_vector_set, jv_dup, jv_dun, prev_row. destruct i as [|[|[|[|[|[|i]]]]]]; [| | | | | |lia]; cbn [Nat.eqb]; [reflexivity|..]; cbn; unfold Rsign, Reqb;
        repeat match goal with |- context [Rlt_dec ?a ?b] => destruct (Rlt_dec a b); try (exfalso; lra) end; try (destruct (Req_EM_T _ _); [lra|reflexivity]); destruct (Req_EM_T _ _); [reflexivity|lra]. }
    rewrite EI. unfold coefc, fourier_coef. cbn [nth components flat_map app comp_fun rsum].
    assert (V : forall k, (k < 6)%nat -> vtail [0%nat; 1%nat; 2%nat] 1 (1 / 2) u start k = match k with 1 => 1 / 2 | 2 => 1 / 2 | _ => - (1 / 2) end).
    { assert (Cl : forall lo hi x, lo <= x <= hi -> clamp lo hi x = x) by (intros; unfold clamp; rewrite Rmin_right, Rmax_right by lra; reflexivity).
      assert (Ch : forall lo hi x, lo <= hi -> hi <= x -> clamp lo hi x = hi) by (intros; unfold clamp; rewrite Rmin_left, Rmax_right by lra; reflexivity).
      assert (Cw : forall lo hi x, lo <= hi -> x <= lo -> clamp lo hi x = lo) by (intros; unfold clamp; rewrite Rmin_right, Rmax_left by lra; reflexivity).
      assert (V0 : vtail [0%nat; 1%nat; 2%nat] 1 (1 / 2) u start 0 = - (1 / 2)).
      { cbn [vtail]. unfold jenkins_law. cbn [length slider]. unfold repeat_samples. cbn [Nat.modulo Nat.divmod fst snd Nat.sub nth]. unfold u. rewrite !Six by lia. cbn [six]. unfold start.
        rewrite (Cl _ _ (1 * (0 - 0))) by lra. rewrite (Ch _ _ (1 * (0 - 0) + 1 * (1 - 0))) by lra. rewrite (Cl _ _ (1 / 2 + 1 * (1 - 1))) by lra. rewrite Cl by lra. lra. }
      assert (St : forall k, (S k < 6)%nat -> vtail [0%nat; 1%nat; 2%nat] 1 (1 / 2) u start (S k) = clamp (- (1 / 2)) (1 / 2) (vtail [0%nat; 1%nat; 2%nat] 1 (1 / 2) u start k + 1 * (six (S k) - six k))).
      { intros k Hk. cbn [vtail]. unfold u at 2 3. rewrite !Six by lia. reflexivity. }
      assert (V1 : vtail [0%nat; 1%nat; 2%nat] 1 (1 / 2) u start 1 = 1 / 2) by (rewrite St, V0 by lia; cbn [six]; rewrite Cl; lra).
      assert (V2 : vtail [0%nat; 1%nat; 2%nat] 1 (1 / 2) u start 2 = 1 / 2) by (rewrite St, V1 by lia; cbn [six]; rewrite Cl; lra).
      assert (V3 : vtail [0%nat; 1%nat; 2%nat] 1 (1 / 2) u start 3 = - (1 / 2)) by (rewrite St, V2 by lia; cbn [six]; rewrite Cl; lra).
      assert (V4 : vtail [0%nat; 1%nat; 2%nat] 1 (1 / 2) u start 4 = - (1 / 2)) by (rewrite St, V3 by lia; cbn [six]; rewrite Cw; lra).
      assert (V5 : vtail [0%nat; 1%nat; 2%nat] 1 (1 / 2) u start 5 = - (1 / 2)) by (rewrite St, V4 by lia; cbn [six]; rewrite Cl; lra).
      intros k Hk. destruct k as [|[|[|[|[|[|k]]]]]]; [| | | | | |lia]; assumption. }
    rewrite !V by lia. rewrite !Rmult_0_l, !cos_0. cbn. field.
  - assert (L : forall n, law n = jenkins_law 1 (1 / 2) (repeat_samples 6 six) 0 n).
    { intros n. unfold law, start. f_equal. unfold repeat_samples. extensionality k. apply plateau_samples. apply Nat.mod_upper_bound. lia. }
    assert (Cl : forall lo hi x, lo <= x <= hi -> clamp lo hi x = x) by (intros; unfold clamp; rewrite Rmin_right, Rmax_right by lra; reflexivity).
    assert (Ch : forall lo hi x, lo <= hi -> hi <= x -> clamp lo hi x = hi) by (intros; unfold clamp; rewrite Rmin_left, Rmax_right by lra; reflexivity).
    assert (Cw : forall lo hi x, lo <= hi -> x <= lo -> clamp lo hi x = lo) by (intros; unfold clamp; rewrite Rmin_right, Rmax_left by lra; reflexivity).
    set (l := jenkins_law 1 (1 / 2) (repeat_samples 6 six) 0) in *.
    assert (St : forall k, l (S k) = clamp (- (1 / 2)) (1 / 2) (l k + 1 * (six (S k mod 6) - six (k mod 6)))) by reflexivity.
    assert (V0 : l O = 0) by (unfold l, jenkins_law; cbn [slider]; unfold repeat_samples; cbn; rewrite Cl; lra).
    assert (V1 : l 1%nat = 1 / 2) by (rewrite St, V0; cbn; rewrite Ch; lra).
    assert (V2 : l 2%nat = 1 / 2) by (rewrite St, V1; cbn; rewrite Ch; lra).
    assert (V3 : l 3%nat = - (1 / 2)) by (rewrite St, V2; cbn; rewrite Cl; lra).
    assert (V4 : l 4%nat = - (1 / 2)) by (rewrite St, V3; cbn; rewrite Cw; lra).
    assert (V5 : l 5%nat = - (1 / 2)) by (rewrite St, V4; cbn; rewrite Cl; lra).
    assert (V6 : l 6%nat = 1 / 2) by (rewrite St, V5; cbn; rewrite Cl; lra).
    assert (V7 : l 7%nat = 1 / 2) by (rewrite St, V6; cbn; rewrite Ch; lra).
    assert (V8 : l 8%nat = 1 / 2) by (rewrite St, V7; cbn; rewrite Ch; lra).
    assert (V9 : l 9%nat = - (1 / 2)) by (rewrite St, V8; cbn; rewrite Cl; lra).
    assert (V10 : l 10%nat = - (1 / 2)) by (rewrite St, V9; cbn; rewrite Cw; lra).
    assert (V11 : l 11%nat = - (1 / 2)) by (rewrite St, V10; cbn; rewrite Cl; lra).
    unfold fourier_coef. cbn [comp_fun rsum Nat.add]. rewrite !L, V6, V7, V8, V9, V10, V11. cbn [INR]. rewrite !Rmult_0_l, !cos_0. field.
Qed.

Lemma vector_case :
  let U := fun p : nat => match p with 2 => 5 / 4 | _ => 0 end in
  let u := fun n => local_motion 1 (fun _ _ => 1) [O; 1%nat] U 0 (sample_phase 4 n) in
  (forall j, (j < 2 * 4)%nat -> Rabs (trial 1 1 (repeat_samples 4 u) (local_first_coef 1 (fun _ _ => 1) U) j) <> 1) /\
  (forall n, (n < 4)%nat -> u (S n) <> u n) /\ last [O; 1%nat] O = list_max [O; 1%nat].
Proof.
  intros U u. split; [exact (proj1 aft_hyst_case)|]. split; [|reflexivity].
  assert (E : forall n, u n = 5 / 4 * sin (PI / 2 * INR n)).
  { intros n. unfold u, local_motion, series. change (length (components [0%nat; 1%nat])) with 3%nat. cbn [rsum]. unfold dof_coefs, U, basis.
    cbn [Nat.mul Nat.add nth components flat_map app comp_fun]. unfold sample_phase. replace (INR 1 * (2 * PI * INR n / INR 4)) with (PI / 2 * INR n) by (cbn; field). ring. }
  intros n Hn. rewrite !E. destruct n as [|[|[|[|n]]]]; [| | | |lia].
  - replace (PI / 2 * INR 1) with (PI / 2) by (cbn; ring). replace (PI / 2 * INR 0) with 0 by (cbn; ring). rewrite sin_PI2, sin_0. lra.
  - replace (PI / 2 * INR 2) with PI by (cbn; field). replace (PI / 2 * INR 1) with (PI / 2) by (cbn; ring). rewrite sin_PI2, sin_PI. lra.
  - replace (PI / 2 * INR 3) with (3 * (PI / 2)) by (cbn; field). replace (PI / 2 * INR 2) with PI by (cbn; field). rewrite sin_3PI2, sin_PI. lra.
  - replace (PI / 2 * INR 4) with (2 * PI) by (cbn; field). replace (PI / 2 * INR 3) with (3 * (PI / 2)) by (cbn; field). rewrite sin_3PI2, sin_2PI. lra.
Qed.
