From Coq Require Import Reals List Arith Bool ZArith Lia Lra Psatz FunctionalExtensionality.
From Verif.Lib Require Import RSum Py.
From Verif.Spec Require Import Solver.
From Verif.Model Require Import JaxSolver.
From Verif.Proofs Require Import JaxP.
Import ListNotations.
Open Scope R_scope.

Lemma neg_trans a b c : a * b < 0 -> 0 < b * c -> a * c < 0.
Proof. intros H1 H2. assert (b <> 0) by (intros ->; lra). assert (0 < b * b) by nra. assert (a * c * (b * b) < 0) by (replace (a * c * (b * b)) with ((a * b) * (b * c)) by ring; nra). nra. Qed.
Lemma same_trans a b c : 0 <= a * b -> 0 < b * c -> 0 <= a * c.
Proof. intros H1 H2. assert (b <> 0) by (intros ->; lra). assert (0 < b * b) by nra. assert (0 <= a * c * (b * b)) by (replace (a * c * (b * b)) with ((a * b) * (b * c)) by ring; nra). nra. Qed.
Lemma change_trans a b c : 0 <= a * b -> b * c <= 0 -> b <> 0 -> a * c <= 0.
Proof. intros H1 H2 H. assert (0 < b * b) by nra. assert (a * c * (b * b) <= 0) by (replace (a * c * (b * b)) with ((a * b) * (b * c)) by ring; nra). nra. Qed.

Section Line.
  Variables (n : nat) (F : vec -> vec) (fn : residual) (X d : vec).
  Hypothesis Hfn : forall Y, exists J, fn Y false = Ok (Some (F Y), J).
  Let G := slope n F X d.
  Let at_ (a : R) : vec := fun i => X i + a * d i.

  Record shape (k : nat) (b : bracket) : Prop := {
    sh_le : 0 <= b_a0 b; sh_le1 : b_a1 b <= 1; sh_w : b_a1 b - b_a0 b = / 2 ^ k;
    sh_g0 : b_g0 b = Some (G (b_a0 b)); sh_g1 : b_g1 b = Some (G (b_a1 b));
    sh_r0 : b_r0 b = Some (F (at_ (b_a0 b))); sh_r1 : b_r1 b = Some (F (at_ (b_a1 b)));
    sh_n : b_nfev b = S k }.

  Lemma half_pos k : 0 < / 2 ^ k. Proof. apply Rinv_0_lt_compat, pow_lt. lra. Qed.
  Lemma half_S k : / 2 ^ S k = / 2 * / 2 ^ k. Proof. cbn. field. apply pow_nonzero. lra. Qed.

  (** one bisection *)
  Definition bisect (b : bracket) : bracket :=
    let alpha := / 2 * (b_a0 b + b_a1 b) in
    if Rltb (G alpha * G (b_a0 b)) 0 then mkBr (b_a0 b) alpha (b_g0 b) (Some (G alpha)) (b_r0 b) (Some (F (at_ alpha))) (S (b_nfev b))
    else mkBr alpha (b_a1 b) (Some (G alpha)) (b_g1 b) (Some (F (at_ alpha))) (b_r1 b) (S (b_nfev b)).

  Lemma bisect_shape k b : shape k b -> shape (S k) (bisect b).
  Proof.
    intros [A B C D E E1 E2 E3]. pose proof (half_pos k) as P. pose proof (half_S k) as Q. unfold bisect.
    destruct (Rltb _ 0); constructor; cbn [b_a0 b_a1 b_g0 b_g1 b_r0 b_r1 b_nfev]; rewrite ?Q; try assumption; try reflexivity; try lra; try congruence.
  Qed.

  Lemma loop_step iters ss tol G0 k b : shape k b ->
    ls_loop (S iters) n fn ss tol X d G0 b =
      let b' := bisect b in let alpha := / 2 * (b_a0 b + b_a1 b) in
      if (ss && Rltb (Rabs (G (b_a0 b'))) (tol * Rabs G0))%bool then Ok b'
      else if (negb ss && Rltb (Rabs (G alpha)) (tol * Rabs G0))%bool then Ok b' else ls_loop iters n fn ss tol X d G0 b'.
  Proof.
    intros Hs. destruct Hs as [A B C D E E1 E2 E3]. cbn [ls_loop]. destruct (Hfn (fun i => X i + / 2 * (b_a0 b + b_a1 b) * d i)) as [J ->]. cbn [bind].
    rewrite D. cbn [odot omul oneg]. unfold bisect. change (dot n d (F (fun i => X i + / 2 * (b_a0 b + b_a1 b) * d i))) with (G (/ 2 * (b_a0 b + b_a1 b))).
    destruct (Rltb (G (/ 2 * (b_a0 b + b_a1 b)) * G (b_a0 b)) 0); cbn [b_a0 b_a1 b_g0 b_g1 b_r0 b_r1 b_nfev oabs_lt_tol]; rewrite ?D; reflexivity.
  Qed.

  (** sign part *)
  Record signs (G0 : R) (k : nat) (b : bracket) : Prop := {
    si_same : 0 <= G (b_a0 b) * G0; si_change : G (b_a0 b) * G (b_a1 b) <= 0;
    si_all : b_a0 b = 0 -> forall j, (1 <= j <= k)%nat -> G (/ 2 ^ j) * G0 < 0 }.

  Definition ended (ss : bool) (tol G0 : R) (b : bracket) : Prop :=
    if ss then Rabs (G (b_a0 b)) < tol * Rabs G0
    else exists a, Rabs (G a) < tol * Rabs G0 /\ (a = b_a0 b \/ a = b_a1 b) /\ (b_a0 b = 0 -> a = b_a1 b).

  Lemma loop_shape ss tol G0 : forall iters k b b', shape k b -> ls_loop iters n fn ss tol X d G0 b = Ok b' ->
    exists k', (k <= k' <= k + iters)%nat /\ shape k' b' /\ (k' = (k + iters)%nat \/ ended ss tol G0 b').
  Proof.
    induction iters as [|iters IH]; intros k b b' Hs H.
    - injection H as <-. exists k. split; [lia|]. split; [exact Hs|]. left. lia.
    - rewrite (loop_step iters ss tol G0 k b Hs) in H. cbv zeta in H. pose proof (bisect_shape k b Hs) as Hs'.
      destruct (ss && Rltb (Rabs (G (b_a0 (bisect b)))) (tol * Rabs G0))%bool eqn:E1.
      { injection H as <-. apply andb_prop in E1. destruct E1 as [-> E1]. exists (S k). split; [lia|]. split; [exact Hs'|]. right. apply Rltb_true in E1. exact E1. }
      destruct (negb ss && Rltb (Rabs (G (/ 2 * (b_a0 b + b_a1 b)))) (tol * Rabs G0))%bool eqn:E2.
      { injection H as <-. apply andb_prop in E2. destruct E2 as [E2 E3]. destruct ss; [discriminate|]. exists (S k). split; [lia|]. split; [exact Hs'|]. right.
        apply Rltb_true in E3. exists (/ 2 * (b_a0 b + b_a1 b)). split; [exact E3|]. pose proof (sh_w _ _ Hs). pose proof (sh_le _ _ Hs). pose proof (half_pos k).
        unfold bisect. destruct (Rltb _ 0); cbn [b_a0 b_a1]; (split; [tauto|]); [reflexivity|intros Q; exfalso; lra]. }
      destruct (IH (S k) (bisect b) b' Hs' H) as (k' & A & B & C). exists k'. split; [lia|]. split; [exact B|]. destruct C as [C|C]; [left; lia|right; exact C].
  Qed.

  Lemma loop_signs ss tol G0 : 0 < tol -> G0 <> 0 -> forall iters k b b', shape k b -> signs G0 k b -> G (b_a0 b) <> 0 ->
    ls_loop iters n fn ss tol X d G0 b = Ok b' -> exists k', shape k' b' /\ signs G0 k' b'.
  Proof.
    intros Ht Hg. induction iters as [|iters IH]; intros k b b' Hs Hi Hn H.
    - injection H as <-. exists k. split; assumption.
    - rewrite (loop_step iters ss tol G0 k b Hs) in H. cbv zeta in H. pose proof (bisect_shape k b Hs) as Hs'.
      assert (Hi' : signs G0 (S k) (bisect b)).
      { destruct Hi as [S1 S2 S3]. pose proof (sh_w _ _ Hs) as W. pose proof (sh_le _ _ Hs) as L0. pose proof (half_pos k) as P. pose proof (half_S k) as Q. unfold bisect. set (a := / 2 * (b_a0 b + b_a1 b)).
        destruct (Rltb (G a * G (b_a0 b)) 0) eqn:E.
        - apply Rltb_true in E. constructor; cbn [b_a0 b_a1]; [exact S1|lra|]. intros Z j Hj.
          destruct (Nat.eq_dec j (S k)) as [->|Ne]; [|apply S3; [exact Z|lia]].
          replace (/ 2 ^ S k) with a by (unfold a; rewrite Z, Q in *; lra).
          assert (0 < G (b_a0 b) * G0) by (destruct S1 as [S1|S1]; [exact S1|]; exfalso; symmetry in S1; apply Rmult_integral in S1; tauto). exact (neg_trans _ _ _ E H0).
        - apply Rltb_false in E. constructor; cbn [b_a0 b_a1].
          + assert (0 < G (b_a0 b) * G0) by (destruct S1 as [S1|S1]; [exact S1|]; exfalso; symmetry in S1; apply Rmult_integral in S1; tauto). exact (same_trans _ _ _ E H0).
          + exact (change_trans _ _ _ E S2 Hn).
          + intros Z. exfalso. unfold a in Z. lra. }
      destruct (ss && Rltb (Rabs (G (b_a0 (bisect b)))) (tol * Rabs G0))%bool eqn:E1; [injection H as <-; exists (S k); split; assumption|].
      destruct (negb ss && Rltb (Rabs (G (/ 2 * (b_a0 b + b_a1 b)))) (tol * Rabs G0))%bool eqn:E2; [injection H as <-; exists (S k); split; assumption|].
      assert (Hn' : G (b_a0 (bisect b)) <> 0).
      { intros Z. assert (T : 0 < tol * Rabs G0) by (apply Rmult_lt_0_compat; [exact Ht|apply Rabs_pos_lt; exact Hg]).
        destruct ss; cbn [andb negb] in E1, E2.
        - apply Rltb_false in E1. rewrite Z, Rabs_R0 in E1. lra.
        - apply Rltb_false in E2. unfold bisect in Z. destruct (Rltb _ 0) in Z; cbn [b_a0] in Z; [contradiction|]. rewrite Z, Rabs_R0 in E2. lra. }
      destruct (IH (S k) (bisect b) b' Hs' Hi' Hn' H) as (k' & A & B). exists k'. split; assumption.
  Qed.

  Lemma at_0 : at_ 0 = X. Proof. apply functional_extensionality. intros i. unfold at_. ring. Qed.
  Lemma at_1 : (fun i => X i + d i) = at_ 1. Proof. apply functional_extensionality. intros i. unfold at_. ring. Qed.

  Lemma start_shape : shape 0 (mkBr 0 1 (Some (dot n d (F X))) (odot n d (Some (F (at_ 1)))) (Some (F X)) (Some (F (at_ 1))) 1).
  Proof.
    constructor; cbn; try lra; try reflexivity; try (rewrite at_0; reflexivity).
    unfold G, slope. change (fun i => X i + 0 * d i) with (at_ 0). rewrite at_0. reflexivity.
  Qed.

  Lemma G_0 : dot n d (F X) = G 0.
  Proof. unfold G, slope. change (fun i => X i + 0 * d i) with (at_ 0). rewrite at_0. reflexivity. Qed.

  (** the cases of a call *)
  Lemma line_cases c alpha Ra b : line_search n c fn X (F X) d = Ok (alpha, Ra, b) ->
    Ra = Some (F (at_ alpha)) /\
    ((alpha = 1 /\ shape 0 b /\ b_a0 b = 0 /\ b_a1 b = 1 /\ (0 < G 1 * G 0 \/ c_ls_same_sign c = false /\ Rabs (G 1) < c_ls_tol c * Rabs (G 0))) \/
     (G 1 * G 0 <= 0 /\ exists k, (k <= c_ls_iters c)%nat /\ shape k b /\ (k = c_ls_iters c \/ ended (c_ls_same_sign c) (c_ls_tol c) (G 0) b) /\
        (0 < c_ls_tol c -> G 0 <> 0 -> signs (G 0) k b) /\
        ((c_ls_same_sign c = true /\ b_a0 b <> 0 /\ alpha = b_a0 b) \/ (c_ls_same_sign c = false /\ b_a0 b <> 0 /\ alpha = b_a0 b /\ Rabs (G (b_a0 b)) < Rabs (G (b_a1 b))) \/
         (alpha = b_a1 b /\ b_a0 b = 0) \/ (alpha = b_a1 b /\ c_ls_same_sign c = false /\ Rabs (G (b_a1 b)) <= Rabs (G (b_a0 b)))))).
  Proof.
    unfold line_search. rewrite at_1. destruct (Hfn (at_ 1)) as [J ->]. cbn [bind]. intros H.
    pose proof start_shape as HS. set (b0 := mkBr 0 1 (Some (dot n d (F X))) (odot n d (Some (F (at_ 1)))) (Some (F X)) (Some (F (at_ 1))) 1) in *.
    assert (E1 : odot n d (Some (F (at_ 1))) = Some (G 1)) by reflexivity. rewrite E1 in H. rewrite G_0 in H. cbn [omul opos oabs_lt_tol] in H.
    destruct (Rltb 0 (G 1 * G 0)) eqn:C1.
    { injection H as <- <- <-. split; [reflexivity|]. left. repeat split; try apply HS. apply Rltb_true in C1. left. exact C1. }
    destruct (negb (c_ls_same_sign c) && Rltb (Rabs (G 1)) (c_ls_tol c * Rabs (G 0)))%bool eqn:C2.
    { injection H as <- <- <-. apply andb_prop in C2. destruct C2 as [C2 C3]. apply Rltb_true in C3. apply negb_true_iff in C2. split; [reflexivity|]. left. repeat split; try apply HS. right. auto. }
    apply Rltb_false in C1. apply bind_inv in H. destruct H as (b' & HL & H).
    destruct (loop_shape _ _ _ _ _ _ _ HS HL) as (k & K1 & K2 & K3). cbn [Nat.add] in K1, K3.
    assert (SG : 0 < c_ls_tol c -> G 0 <> 0 -> signs (G 0) k b').
    { intros T0 Z. destruct (loop_signs (c_ls_same_sign c) (c_ls_tol c) (G 0) T0 Z (c_ls_iters c) 0%nat b0 b' HS) as (k' & A & B).
      - constructor; cbn [b_a0 b_a1 b0]; [nra|lra|intros _ j Hj; lia].
      - exact Z.
      - exact HL.
      - assert (k' = k) by (pose proof (sh_n _ _ A); pose proof (sh_n _ _ K2); congruence). subst k'. exact B. }
    rewrite (sh_g0 _ _ K2), (sh_g1 _ _ K2) in H. cbn [oabs_lt] in H. cbv zeta in H.
    assert (Z1 : b_a1 b' <> 0) by (pose proof (sh_w _ _ K2); pose proof (sh_le _ _ K2); pose proof (half_pos k); lra).
    destruct (c_ls_same_sign c) eqn:ES; cbn [orb] in H.
    - destruct (Req_EM_T (b_a0 b') 0) as [Z|Z]; injection H as <- <- <-.
      + split; [apply K2|]. right. split; [exact C1|]. exists k. split; [lia|]. split; [exact K2|]. split; [exact K3|]. split; [exact SG|]. right. right. left. auto.
      + split; [apply K2|]. right. split; [exact C1|]. exists k. split; [lia|]. split; [exact K2|]. split; [exact K3|]. split; [exact SG|]. left. auto.
    - destruct (Rltb (Rabs (G (b_a0 b'))) (Rabs (G (b_a1 b')))) eqn:EL.
      + apply Rltb_true in EL. destruct (Req_EM_T (b_a0 b') 0) as [Z|Z]; injection H as <- <- <-.
        * split; [apply K2|]. right. split; [exact C1|]. exists k. split; [lia|]. split; [exact K2|]. split; [exact K3|]. split; [exact SG|]. right. right. left. auto.
        * split; [apply K2|]. right. split; [exact C1|]. exists k. split; [lia|]. split; [exact K2|]. split; [exact K3|]. split; [exact SG|]. right. left. auto.
      + apply Rltb_false in EL. destruct (Req_EM_T (b_a1 b') 0) as [Z|Z]; [contradiction|]. injection H as <- <- <-.
        split; [apply K2|]. right. split; [exact C1|]. exists k. split; [lia|]. split; [exact K2|]. split; [exact K3|]. split; [exact SG|]. right. right. right. auto.
  Qed.

  Lemma line_range c alpha Ra b : line_search n c fn X (F X) d = Ok (alpha, Ra, b) ->
    0 < alpha <= 1 /\ Ra = Some (F (fun i => X i + alpha * d i)) /\ (b_nfev b <= S (c_ls_iters c))%nat.
  Proof.
    intros H. destruct (line_cases c alpha Ra b H) as (HR & [(-> & S & _)|(_ & k & K1 & S & _ & _ & Q)]).
    - split; [lra|]. split; [exact HR|]. rewrite (sh_n _ _ S). lia.
    - assert (0 < b_a1 b <= 1 /\ 0 <= b_a0 b <= 1) by (pose proof (sh_w _ _ S); pose proof (sh_le _ _ S); pose proof (sh_le1 _ _ S); pose proof (half_pos k); lra).
      split; [|split; [exact HR|rewrite (sh_n _ _ S); lia]].
      destruct Q as [(_ & Z & ->)|[(_ & Z & -> & _)|[(-> & _)|(-> & _)]]]; lra.
  Qed.

  Lemma line_bracket c alpha Ra b : 0 < c_ls_tol c -> G 0 <> 0 -> line_search n c fn X (F X) d = Ok (alpha, Ra, b) ->
    (alpha = 1 /\ (0 < G 1 * G 0 \/ c_ls_same_sign c = false /\ Rabs (G 1) < c_ls_tol c * Rabs (G 0))) \/
    (0 <= b_a0 b < b_a1 b /\ b_a1 b <= 1 /\ b_a1 b - b_a0 b = / 2 ^ (b_nfev b - 1) /\ G (b_a0 b) * G (b_a1 b) <= 0 /\ 0 <= G (b_a0 b) * G 0).
  Proof.
    intros Ht Hg H. destruct (line_cases c alpha Ra b H) as (_ & [(-> & _ & _ & _ & Q)|(_ & k & _ & S & _ & SG & _)]); [left; auto|]. right.
    destruct (SG Ht Hg) as [A B _]. pose proof (sh_w _ _ S). pose proof (sh_le _ _ S). pose proof (sh_le1 _ _ S). pose proof (half_pos k).
    rewrite (sh_n _ _ S). replace (Datatypes.S k - 1)%nat with k by lia. repeat split; try assumption; lra.
  Qed.

  Lemma line_same_sign c alpha Ra b : 0 < c_ls_tol c -> G 0 <> 0 -> c_ls_same_sign c = true -> line_search n c fn X (F X) d = Ok (alpha, Ra, b) ->
    0 <= G alpha * G 0 \/
    (alpha = / 2 ^ c_ls_iters c \/ 1 < c_ls_tol c) /\ G 1 * G 0 <= 0 /\ forall j, (1 <= j <= b_nfev b - 1)%nat -> G (/ 2 ^ j) * G 0 < 0.
  Proof.
    intros Ht Hg Hs H. destruct (line_cases c alpha Ra b H) as (_ & [(-> & _ & _ & _ & [Q|[Q _]])|(C1 & k & K1 & S & K3 & SG & Q)]); [left; lra|congruence|].
    destruct (SG Ht Hg) as [A B C]. rewrite Hs in *. destruct Q as [(_ & Z & ->)|[(Q & _)|[(-> & Z)|(_ & Q & _)]]]; try congruence; [left; exact A|].
    right. split; [|split; [exact C1|]].
    - pose proof (sh_w _ _ S) as W. rewrite Z in W. destruct K3 as [->|K3]; [left; lra|]. right. cbn in K3. rewrite Z in K3.
      pose proof (Rabs_pos_lt _ Hg). nra.
    - intros j Hj. apply C; [exact Z|]. rewrite (sh_n _ _ S) in Hj. lia.
  Qed.

  (** fewer bisections than allowed only when the tolerance is met *)
  Lemma line_tolerance c alpha Ra b : 0 < c_ls_tol c <= 1 -> line_search n c fn X (F X) d = Ok (alpha, Ra, b) ->
    b_nfev b = S (c_ls_iters c) \/ (alpha = 1 /\ 0 < G 1 * G 0) \/ Rabs (G alpha) < c_ls_tol c * Rabs (G 0).
  Proof.
    intros Ht H. destruct (line_cases c alpha Ra b H) as (_ & [(-> & _ & _ & _ & [Q|[_ Q]])|(C1 & k & K1 & S & K3 & SG & Q)]); [auto|auto|].
    destruct K3 as [->|K3]; [left; apply S|]. right. right. unfold ended in K3. destruct (c_ls_same_sign c) eqn:Es.
    - destruct Q as [(_ & Z & ->)|[(Q & _)|[(-> & Z)|(_ & Q & _)]]]; try congruence. exfalso. rewrite Z in K3. pose proof (Rabs_pos (G 0)). nra.
    - destruct K3 as (a & T & A & B). destruct Q as [(Q & _)|[(_ & Z & -> & L)|[(-> & Z)|(-> & _ & L)]]]; try congruence.
      + destruct A as [->| ->]; [exact T|lra].
      + rewrite (B Z) in T. exact T.
      + destruct A as [->| ->]; [lra|exact T].
  Qed.

  (** a full step onto a root is never taken with same_sign *)
  Lemma line_root c alpha Ra b : c_ls_same_sign c = true -> (0 < c_ls_iters c)%nat -> c_ls_tol c <= 1 -> (forall i, (i < n)%nat -> F (fun k => X k + d k) i = 0) ->
    line_search n c fn X (F X) d = Ok (alpha, Ra, b) -> alpha < 1.
  Proof.
    intros Hs Hit Ht Hroot H. assert (G1 : G 1 = 0).
    { unfold G, slope. change (fun i => X i + 1 * d i) with (at_ 1). rewrite <- at_1. unfold dot. apply rsum_zero. intros i Hi. rewrite Hroot by exact Hi. ring. }
    destruct (line_cases c alpha Ra b H) as (_ & [(_ & _ & _ & _ & [Q|[Q _]])|(_ & k & _ & S & K3 & _ & Q)]); [rewrite G1 in Q; lra|congruence|].
    pose proof (sh_w _ _ S) as W. pose proof (sh_le _ _ S) as L0. pose proof (sh_le1 _ _ S) as L1. pose proof (half_pos k) as P.
    rewrite Hs in *. cbn [ended] in K3.
    assert (K : (0 < k)%nat).
    { destruct k; [|lia]. destruct K3 as [K3|K3]; [lia|]. cbn in W. rewrite Rinv_1 in W. assert (Z : b_a0 b = 0) by lra. rewrite Z in K3. pose proof (Rabs_pos (G 0)). nra. }
    destruct Q as [(_ & Z & ->)|[(Q & _)|[(-> & Z)|(_ & Q & _)]]]; try congruence; [lra|].
    destruct k; [lia|]. rewrite half_S in W. assert (/ 2 ^ k <= 1) by (rewrite <- Rinv_1; apply Rinv_le_contravar; [lra|apply pow_R1_Rle; lra]). lra.
  Qed.

  Lemma line_ok c : exists alpha Ra b, line_search n c fn X (F X) d = Ok (alpha, Ra, b).
  Proof.
    assert (L : forall iters ss tol G0 k b, shape k b -> exists b', ls_loop iters n fn ss tol X d G0 b = Ok b').
    { induction iters as [|iters IH]; intros ss tol G0 k b Hs; [eexists; reflexivity|]. rewrite (loop_step iters ss tol G0 k b Hs). cbv zeta.
      destruct (_ && _)%bool; [eexists; reflexivity|]. destruct (_ && _)%bool; [eexists; reflexivity|]. apply (IH ss tol G0 (S k)). apply bisect_shape. exact Hs. }
    unfold line_search. rewrite at_1. destruct (Hfn (at_ 1)) as [J ->]. cbn [bind].
    destruct (opos _); [eexists _, _, _; reflexivity|]. destruct (_ && _)%bool; [eexists _, _, _; reflexivity|].
    destruct (L (c_ls_iters c) (c_ls_same_sign c) (c_ls_tol c) (dot n d (F X)) 0%nat _ start_shape) as [b' ->]. cbn [bind]. cbv zeta.
    destruct (Req_EM_T _ 0); eexists _, _, _; reflexivity.
  Qed.
End Line.
