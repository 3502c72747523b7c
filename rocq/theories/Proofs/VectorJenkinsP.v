(** VectorJenkins evaluates the same recursion as the sequential element. *)
From Coq Require Import Reals Lra Lia Arith List Bool.
From Verif.Lib Require Import RSum Py.
From Verif.Spec Require Import Slider JenkinsCalls.
From Verif.Model Require Import Jenkins VectorJenkins.
From Verif.Proofs Require Import SliderP JenkinsP.
Import ListNotations.
Open Scope R_scope.

(** ---- motion without reversal ---- *)
Definition same_dir (uu : nat -> R) (t p : nat) : Prop :=
  (forall j, (j < p)%nat -> 0 < uu (t + S j)%nat - uu (t + j)%nat) \/
  (forall j, (j < p)%nat -> uu (t + S j)%nat - uu (t + j)%nat < 0) \/
  (forall j, (j < p)%nat -> uu (t + S j)%nat - uu (t + j)%nat = 0).

Lemma same_dir_of_signs uu t p :
  (forall j, (1 <= j < p)%nat ->
     Rsign (uu (t + j)%nat - uu (t + (j - 1))%nat) = Rsign (uu (t + S j)%nat - uu (t + j)%nat)) ->
  same_dir uu t p.
Proof.
  intros H.
  assert (S0 : forall j, (j < p)%nat ->
     Rsign (uu (t + S j)%nat - uu (t + j)%nat) = Rsign (uu (t + 1)%nat - uu (t + 0)%nat)).
  { induction j as [|j IH]; intros Hj; [reflexivity|].
    rewrite <- (H (S j)) by lia. simpl Nat.sub. rewrite Nat.sub_0_r. apply IH. lia. }
  destruct (Rtotal_order 0 (uu (t + 1)%nat - uu (t + 0)%nat)) as [C|[C|C]].
  - left. intros j Hj. specialize (S0 j Hj). rewrite (Rsign_pos _ C) in S0.
    unfold Rsign in S0. destruct (Rlt_dec 0 _); [assumption|]. destruct (Rlt_dec _ 0); lra.
  - right; right. intros j Hj. specialize (S0 j Hj). rewrite <- C, Rsign_0 in S0.
    unfold Rsign in S0. destruct (Rlt_dec 0 _); [lra|]. destruct (Rlt_dec _ 0); lra.
  - right; left. intros j Hj. specialize (S0 j Hj). rewrite (Rsign_neg _ C) in S0.
    unfold Rsign in S0. destruct (Rlt_dec 0 _); [lra|]. destruct (Rlt_dec _ 0); lra.
Qed.

Section Gap.
  Variables (kt Fs : R) (uu : nat -> R) (cc : nat -> vec) (u0 : R) (t : nat).
  Hypothesis HF : 0 <= Fs.
  Let law := jenkins_law kt Fs uu u0.
  Let dl := dlaw kt Fs uu cc u0.

  Lemma law_range k : - Fs <= law k <= Fs.
  Proof. apply (slider_range kt (fun _ => - Fs) (fun _ => Fs) uu). intros; lra. Qed.

  Lemma law_S k : law (S k) = clamp (- Fs) Fs (law k + kt * (uu (S k) - uu k)).
  Proof. reflexivity. Qed.

  Lemma dl_S k : dl (S k) = if Rltb Fs (Rabs (law k + kt * (uu (S k) - uu k))) then (fun _ => 0)
           else (fun i => kt * (cc (S k) i - cc k i) + dl k i).
  Proof. reflexivity. Qed.

  (** total motion over the gap has the direction of its increments *)
  Lemma total_dir p :
    same_dir uu t (S p) ->
    let A := uu (t + p)%nat - uu t in let d := uu (t + S p)%nat - uu (t + p)%nat in
    (0 <= A /\ 0 < d) \/ (A <= 0 /\ d < 0) \/ (A = 0 /\ d = 0).
  Proof.
    intros H A d. unfold A, d. destruct H as [H|[H|H]].
    - left. split; [|apply H; lia].
      assert (forall q, (q <= p)%nat -> 0 <= uu (t + q)%nat - uu t).
      { induction q as [|q IH]; intros Hq; [rewrite Nat.add_0_r; lra|].
        specialize (IH ltac:(lia)). specialize (H q ltac:(lia)). lra. }
      apply H0. lia.
    - right; left. split; [|apply H; lia].
      assert (forall q, (q <= p)%nat -> uu (t + q)%nat - uu t <= 0).
      { induction q as [|q IH]; intros Hq; [rewrite Nat.add_0_r; lra|].
        specialize (IH ltac:(lia)). specialize (H q ltac:(lia)). lra. }
      apply H0. lia.
    - right; right. split; [|apply H; lia].
      assert (forall q, (q <= p)%nat -> uu (t + q)%nat - uu t = 0).
      { induction q as [|q IH]; intros Hq; [rewrite Nat.add_0_r; lra|].
        specialize (IH ltac:(lia)). specialize (H q ltac:(lia)). lra. }
      apply H0. lia.
  Qed.

  Lemma same_dir_le p q : (p <= q)%nat -> same_dir uu t q -> same_dir uu t p.
  Proof.
    intros Hpq [H|[H|H]]; [left|right; left|right; right]; intros j Hj; apply H; lia.
  Qed.

  Lemma gap_formula p :
    same_dir uu t (S p) ->
    law (t + S p)%nat = clamp (- Fs) Fs (law t + kt * (uu (t + S p)%nat - uu t)) /\
    forall i, dl (t + S p)%nat i =
      if Rltb Fs (Rabs (law t + kt * (uu (t + S p)%nat - uu t))) then 0
      else kt * (cc (t + S p)%nat i - cc t i) + dl t i.
  Proof.
    induction p as [|p IH]; intros Hd.
    - replace (t + 1)%nat with (S t) by lia. rewrite law_S, dl_S. split; [reflexivity|].
      intros i. destruct (Rltb _ _); reflexivity.
    - destruct (IH (same_dir_le (S p) (S (S p)) ltac:(lia) Hd)) as [IHf IHd].
      pose proof (total_dir (S p) Hd) as T. cbv zeta in T.
      replace (t + S (S p))%nat with (S (t + S p)) in * by lia.
      rewrite law_S, dl_S, IHf.
      set (A := uu (t + S p)%nat - uu t) in *.
      set (d := uu (S (t + S p)) - uu (t + S p)%nat) in *.
      replace (uu (S (t + S p)) - uu t) with (A + d) by (unfold A, d; ring).
      pose proof (law_range t) as LR.
      set (f := law t) in *.
      assert (KT : (0 <= kt * A /\ 0 <= kt * d /\ (kt * A <> 0 -> 0 < kt * d)) \/
                   (kt * A <= 0 /\ kt * d <= 0 /\ (kt * A <> 0 -> kt * d < 0))).
      { destruct (Rtotal_order 0 kt) as [K|[K|K]].
        - destruct T as [[T1 T2]|[[T1 T2]|[T1 T2]]].
          + left. repeat split; nra.
          + right. repeat split; nra.
          + left. rewrite T1, T2. repeat split; lra.
        - left. rewrite <- K. repeat split; lra.
        - destruct T as [[T1 T2]|[[T1 T2]|[T1 T2]]].
          + right. repeat split; nra.
          + left. repeat split; nra.
          + left. rewrite T1, T2. repeat split; lra. }
      replace (kt * (A + d)) with (kt * A + kt * d) by ring.
      set (a := kt * A) in *. set (b := kt * d) in *.
      assert (SLIP : Fs < Rabs (f + a) -> Fs < Rabs (clamp (- Fs) Fs (f + a) + b)
                                          /\ Fs < Rabs (f + (a + b))).
      { intros Hs. unfold Rabs in Hs. destruct KT as [(K1 & K2 & K3)|(K1 & K2 & K3)].
        - destruct (Rcase_abs (f + a)); [lra|].
          assert (a <> 0) by lra. specialize (K3 H).
          replace (clamp (- Fs) Fs (f + a)) with Fs by minmax.
          unfold Rabs. split; destruct (Rcase_abs _); lra.
        - destruct (Rcase_abs (f + a)); [|lra].
          assert (a <> 0) by lra. specialize (K3 H).
          replace (clamp (- Fs) Fs (f + a)) with (- Fs) by minmax.
          unfold Rabs. split; destruct (Rcase_abs _); lra. }
      assert (STICK : Rabs (f + a) <= Fs -> clamp (- Fs) Fs (f + a) = f + a)
        by apply stick_clamp.
      split.
      + destruct KT as [(K1 & K2 & _)|(K1 & K2 & _)]; minmax.
      + intros i. destruct (Rltb Fs (Rabs (f + a))) eqn:E.
        * apply Rltb_true in E. destruct (SLIP E) as [S1 S2].
          apply Rltb_true in S1. apply Rltb_true in S2. rewrite S1, S2. reflexivity.
        * apply Rltb_false in E. rewrite (STICK E). rewrite Rplus_assoc.
          destruct (Rltb Fs (Rabs (f + (a + b)))); [reflexivity|].
          specialize (IHd i). rewrite IHd. ring.
  Qed.
End Gap.

(** ---- the list of critical indices ---- *)
Section Crit.
  Variables (N : nat) (u : nat -> R).
  Hypothesis HN : (0 < N)%nat.
  Let vs := vj_vector_set N u.

  Fixpoint chain (c : nat) (cs : list nat) : Prop :=
    match cs with
    | [] => (c < N)%nat /\ forall j, (c < j < N)%nat -> vs j = true
    | d :: cs' => (c < d < N)%nat /\ (forall j, (c < j < d)%nat -> vs j = true) /\ chain d cs'
    end.

  Lemma chain_filter n : forall c a,
    (c < a)%nat -> (a + n = N)%nat -> (forall j, (c < j < a)%nat -> vs j = true) ->
    chain c (filter (fun i => negb (vs i)) (seq a n)).
  Proof.
    induction n as [|n IH]; intros c a Hca HaN Hg; cbn [seq filter].
    - simpl. split; [lia|]. intros j Hj. apply Hg. lia.
    - destruct (negb (vs a)) eqn:E.
      + simpl. split; [lia|]. split; [exact Hg|]. apply IH; [lia|lia|]. intros; lia.
      + apply negb_false_iff in E. apply IH; [lia|lia|].
        intros j Hj. destruct (Nat.eq_dec j a) as [->|]; [exact E|]. apply Hg. lia.
  Qed.

  Lemma crit_chain : exists cs, vj_crit N u = O :: cs /\ chain O cs.
  Proof.
    unfold vj_crit. exists (filter (fun i => negb (vs i)) (seq 1 (N - 1))). split.
    - replace (seq 0 N) with (O :: seq 1 (N - 1))
        by (destruct N; [lia|]; simpl; rewrite Nat.sub_0_r; reflexivity).
      reflexivity.
    - apply chain_filter; [lia|lia|]. intros; lia.
  Qed.

  (** facts about neighbouring entries *)
  Lemma chain_nth cs : forall c, chain c cs ->
    (forall j, (j <= length cs)%nat -> (nth j (c :: cs) O < N)%nat) /\
    (forall j, (j < length cs)%nat ->
        (nth j (c :: cs) O < nth (S j) (c :: cs) O)%nat /\
        forall i, (nth j (c :: cs) O < i < nth (S j) (c :: cs) O)%nat -> vs i = true) /\
    (forall i, (nth (length cs) (c :: cs) O < i < N)%nat -> vs i = true).
  Proof.
    induction cs as [|d cs IH]; intros c H.
    - simpl in H. destruct H as [H1 H2]. split; [|split].
      + intros j Hj. simpl in Hj. replace j with O by lia. simpl. exact H1.
      + intros j Hj. simpl in Hj. lia.
      + exact H2.
    - destruct H as [H1 [H2 H3]]. destruct (IH d H3) as [A [B C]].
      split; [|split].
      + intros [|j] Hj; [simpl; lia|]. change (nth (S j) (c :: d :: cs) O) with (nth j (d :: cs) O).
        apply A. simpl in Hj. lia.
      + intros [|j] Hj.
        * simpl. split; [lia|exact H2].
        * change (nth (S j) (c :: d :: cs) O) with (nth j (d :: cs) O).
          change (nth (S (S j)) (c :: d :: cs) O) with (nth (S j) (d :: cs) O).
          apply B. simpl in Hj. lia.
      + exact C.
  Qed.

  (** non-critical samples at absolute time *)
  Let uu := repeat_samples N u.

  Lemma vs_time n i : (0 < i < N)%nat -> vs i = true ->
    Rsign (uu (n * N + i)%nat - uu (n * N + i - 1)%nat) =
    Rsign (uu (S (n * N + i)) - uu (n * N + i)%nat).
  Proof.
    intros Hi H. unfold vs, vj_vector_set in H.
    destruct (Nat.eqb_spec i 0); [lia|]. apply Reqb_true in H.
    unfold vj_dup, vj_dun in H. unfold uu, repeat_samples.
    assert (M : forall q, ((n * N + q) mod N = q mod N)%nat).
    { intros q. rewrite Nat.add_comm, Nat.mod_add by lia. reflexivity. }
    replace (n * N + i - 1)%nat with (n * N + (i - 1))%nat by lia.
    replace (S (n * N + i)) with (n * N + (i + 1))%nat by lia.
    rewrite !M. rewrite (Nat.mod_small i) by lia. rewrite (Nat.mod_small (i - 1)) by lia.
    replace ((i + N - 1) mod N)%nat with (i - 1)%nat in H; [exact H|].
    replace (i + N - 1)%nat with ((i - 1) + 1 * N)%nat by lia.
    rewrite Nat.mod_add by lia. rewrite Nat.mod_small by lia. reflexivity.
  Qed.

  (** a gap without critical samples, inside one pass or up to the start of the next *)
  Lemma gap_dir n c p :
    (c + p <= N)%nat -> (forall i, (c < i < c + p)%nat -> vs i = true) ->
    same_dir uu (n * N + c) p.
  Proof.
    intros Hle Hg. apply same_dir_of_signs. intros j Hj.
    pose proof (vs_time n (c + j)%nat ltac:(lia) (Hg (c + j)%nat ltac:(lia))) as H.
    replace (n * N + c + j)%nat with (n * N + (c + j))%nat by lia.
    replace (n * N + c + (j - 1))%nat with (n * N + (c + j) - 1)%nat by lia.
    replace (n * N + c + S j)%nat with (S (n * N + (c + j))) by lia. exact H.
  Qed.
End Crit.

(** ---- critical points evaluated alone give the sequential forces at these points ---- *)
Section CritLaw.
  Variables (kt Fs : R) (N : nat) (u : nat -> R) (cst : nat -> vec) (u0 : R).
  Hypothesis HN : (0 < N)%nat.
  Hypothesis HF : 0 <= Fs.
  Let vs := vj_vector_set N u.
  Let uu := repeat_samples N u.
  Let cc := fun t => cst (t mod N).

  Lemma uu_at n i : (i < N)%nat -> uu (n * N + i)%nat = u i.
  Proof.
    intros Hi. unfold uu, repeat_samples. rewrite Nat.add_comm, Nat.mod_add by lia.
    rewrite Nat.mod_small by lia. reflexivity.
  Qed.
  Lemma cc_at n i : (i < N)%nat -> cc (n * N + i)%nat = cst i.
  Proof.
    intros Hi. unfold cc. rewrite Nat.add_comm, Nat.mod_add by lia.
    rewrite Nat.mod_small by lia. reflexivity.
  Qed.

  (** value at a non-critical point (or the next critical one) from the previous critical one *)
  Lemma fill_value n c i :
    (c < i < N)%nat -> (forall j, (c < j < i)%nat -> vs j = true) ->
    pass_law kt Fs N u u0 n i
      = clamp (- Fs) Fs (pass_law kt Fs N u u0 n c + kt * (u i - u c)) /\
    forall q, dpass_law kt Fs N u cst u0 n i q =
      if Rltb Fs (Rabs (pass_law kt Fs N u u0 n c + kt * (u i - u c))) then 0
      else kt * (cst i q - cst c q) + dpass_law kt Fs N u cst u0 n c q.
  Proof.
    intros Hi Hg.
    pose proof (gap_formula kt Fs uu cc u0 (n * N + c) HF (i - c - 1)) as G.
    replace (n * N + c + S (i - c - 1))%nat with (n * N + i)%nat in G by lia.
    destruct G as [Gf Gd].
    { apply gap_dir; [exact HN|lia|]. intros j Hj. apply Hg. lia. }
    rewrite !uu_at in Gf by lia. rewrite !uu_at in Gd by lia.
    split; [exact Gf|]. intros q. specialize (Gd q). rewrite !cc_at in Gd by lia. exact Gd.
  Qed.

  (** wrap from the last critical point to index 0 of the next pass *)
  Lemma wrap_value n c :
    (c < N)%nat -> (forall j, (c < j < N)%nat -> vs j = true) ->
    pass_law kt Fs N u u0 (S n) 0
      = clamp (- Fs) Fs (pass_law kt Fs N u u0 n c + kt * (u O - u c)) /\
    forall q, dpass_law kt Fs N u cst u0 (S n) 0 q =
      if Rltb Fs (Rabs (pass_law kt Fs N u u0 n c + kt * (u O - u c))) then 0
      else kt * (cst O q - cst c q) + dpass_law kt Fs N u cst u0 n c q.
  Proof.
    intros Hc Hg.
    pose proof (gap_formula kt Fs uu cc u0 (n * N + c) HF (N - c - 1)) as G.
    replace (n * N + c + S (N - c - 1))%nat with (S n * N + 0)%nat in G by nia.
    destruct G as [Gf Gd].
    { replace (S (N - c - 1)) with (N - c)%nat by lia.
      apply gap_dir; [exact HN|lia|]. intros j Hj. apply Hg. lia. }
    rewrite !uu_at in Gf by lia. rewrite !uu_at in Gd by lia.
    split; [exact Gf|]. intros q. specialize (Gd q). rewrite !cc_at in Gd by lia. exact Gd.
  Qed.

  Variable cs : list nat.
  Hypothesis Hcrit : vj_crit N u = O :: cs.
  Hypothesis Hchain : chain N u O cs.
  Let crit := O :: cs.
  Let m := length crit.
  Let uc := fun j => u (nth j crit O).
  Let cstc := fun j => cst (nth j crit O).

  Lemma crit_law n : forall j, (j < m)%nat ->
    pass_law kt Fs m uc u0 n j = pass_law kt Fs N u u0 n (nth j crit O) /\
    forall q, dpass_law kt Fs m uc cstc u0 n j q = dpass_law kt Fs N u cst u0 n (nth j crit O) q.
  Proof.
    destruct (chain_nth N u HN cs O Hchain) as [A [B C]]. fold crit in A, B, C.
    assert (Hm : (0 < m)%nat) by (unfold m, crit; simpl; lia).
    assert (Hmc : m = S (length cs)) by reflexivity.
    (* step inside a pass *)
    assert (STEP : forall n j, (S j < m)%nat ->
       (pass_law kt Fs m uc u0 n j = pass_law kt Fs N u u0 n (nth j crit O) /\
        forall q, dpass_law kt Fs m uc cstc u0 n j q = dpass_law kt Fs N u cst u0 n (nth j crit O) q) ->
       (pass_law kt Fs m uc u0 n (S j) = pass_law kt Fs N u u0 n (nth (S j) crit O) /\
        forall q, dpass_law kt Fs m uc cstc u0 n (S j) q = dpass_law kt Fs N u cst u0 n (nth (S j) crit O) q)).
    { clear n. intros n j Hj [Hf Hd].
      destruct (B j ltac:(lia)) as [B1 B2].
      destruct (fill_value n (nth j crit O) (nth (S j) crit O)) as [Vf Vd];
        [split; [exact B1|apply A; lia]|exact B2|].
      assert (E : pass_law kt Fs m uc u0 n (S j)
                = clamp (- Fs) Fs (pass_law kt Fs m uc u0 n j + kt * (uc (S j) - uc j))).
      { unfold pass_law, jenkins_law. replace (n * m + S j)%nat with (S (n * m + j)) by lia.
        cbn [slider]. unfold repeat_samples at 2 3.
        replace (S (n * m + j)) with (S j + n * m)%nat by lia.
        rewrite (Nat.add_comm (n * m) j).
        rewrite !Nat.mod_add by lia. rewrite !Nat.mod_small by lia. reflexivity. }
      assert (Ed : forall q, dpass_law kt Fs m uc cstc u0 n (S j) q
                = if Rltb Fs (Rabs (pass_law kt Fs m uc u0 n j + kt * (uc (S j) - uc j))) then 0
                  else kt * (cstc (S j) q - cstc j q) + dpass_law kt Fs m uc cstc u0 n j q).
      { intros q. unfold dpass_law, pass_law. replace (n * m + S j)%nat with (S (n * m + j)) by lia.
        cbn [dlaw]. unfold repeat_samples at 2 3.
        replace (S (n * m + j) mod m)%nat with (S j).
        2:{ replace (S (n * m + j)) with (S j + n * m)%nat by lia.
            rewrite Nat.mod_add by lia. rewrite Nat.mod_small by lia. reflexivity. }
        replace ((n * m + j) mod m)%nat with j.
        2:{ rewrite (Nat.add_comm (n * m) j).
            rewrite Nat.mod_add by lia. rewrite Nat.mod_small by lia. reflexivity. }
        match goal with |- context [if ?b then _ else _] => destruct b end; reflexivity. }
      split.
      - rewrite E, Hf, Vf. reflexivity.
      - intros q. rewrite Ed, Hf, Vd, Hd. reflexivity. }
    (* start of a pass *)
    assert (START : pass_law kt Fs m uc u0 n 0 = pass_law kt Fs N u u0 n (nth 0 crit O) /\
        forall q, dpass_law kt Fs m uc cstc u0 n 0 q = dpass_law kt Fs N u cst u0 n (nth 0 crit O) q).
    { induction n as [|n IHn].
      - unfold pass_law, dpass_law, jenkins_law. cbn [slider dlaw Nat.mul Nat.add nth crit].
        unfold repeat_samples. rewrite !Nat.mod_small by lia. unfold uc, cstc. split; reflexivity.
      - (* all points of pass n first *)
        assert (ALL : forall j, (j < m)%nat ->
          pass_law kt Fs m uc u0 n j = pass_law kt Fs N u u0 n (nth j crit O) /\
          forall q, dpass_law kt Fs m uc cstc u0 n j q = dpass_law kt Fs N u cst u0 n (nth j crit O) q).
        { induction j as [|j IHj]; intros Hj; [exact IHn|]. apply STEP; [exact Hj|apply IHj; lia]. }
        destruct (ALL (m - 1)%nat ltac:(lia)) as [Lf Ld].
        replace (m - 1)%nat with (length cs) in * by lia.
        destruct (wrap_value n (nth (length cs) crit O)) as [Wf Wd];
          [apply A; lia|exact C|].
        change (nth 0 crit O) with O.
        assert (E : pass_law kt Fs m uc u0 (S n) 0
                = clamp (- Fs) Fs (pass_law kt Fs m uc u0 n (length cs) + kt * (uc O - uc (length cs)))).
        { rewrite pass_law_S by exact Hm. cbn [run].
          replace (m - 1)%nat with (length cs) by lia. reflexivity. }
        assert (Ed : forall q, dpass_law kt Fs m uc cstc u0 (S n) 0 q
                = if Rltb Fs (Rabs (pass_law kt Fs m uc u0 n (length cs) + kt * (uc O - uc (length cs)))) then 0
                  else kt * (cstc O q - cstc (length cs) q) + dpass_law kt Fs m uc cstc u0 n (length cs) q).
        { intros q. rewrite dpass_law_S by exact Hm. cbn [drun].
          replace (m - 1)%nat with (length cs) by lia. match goal with |- context [if ?b then _ else _] => destruct b end; reflexivity. }
        split.
        + rewrite E, Lf, Wf. reflexivity.
        + intros q. rewrite Ed, Lf, Wd, Ld. reflexivity. }
    induction j as [|j IHj]; intros Hj; [exact START|].
    apply STEP; [exact Hj|apply IHj; lia].
  Qed.

  (** ---- the fill-in loop ---- *)
  Definition correct (n : nat) (acc : (nat -> R) * (nat -> vec)) (i : nat) : Prop :=
    fst acc i = pass_law kt Fs N u u0 n i /\
    forall q, snd acc i q = dpass_law kt Fs N u cst u0 n i q.

  Lemma fill_correct n acc c d :
    correct n acc c ->
    (c < N)%nat -> (d = O \/ (c < d < N)%nat) ->
    (forall j, (c < j < (if Nat.eqb d 0 then N else d))%nat -> vs j = true) ->
    (forall i, correct n acc i -> correct n (vj_fill kt Fs N u cst acc (c, d)) i) /\
    (forall i, (c < i < (if Nat.eqb d 0 then N else d))%nat ->
        correct n (vj_fill kt Fs N u cst acc (c, d)) i).
  Proof.
    intros Hc HcN Hd Hg.
    set (stop := (if Nat.eqb d 0 then N else d)) in *.
    assert (Estop : (d + N * (if Nat.eqb d 0 then 1 else 0))%nat = stop).
    { unfold stop. destruct (Nat.eqb_spec d 0); lia. }
    assert (Hstop : (stop <= N)%nat).
    { unfold stop. destruct (Nat.eqb_spec d 0); lia. }
    destruct acc as [ft df]. destruct Hc as [Hcf Hcd]. cbn [fst snd] in *.
    assert (IN : forall i, (c < i < stop)%nat ->
       correct n (vj_fill kt Fs N u cst (ft, df) (c, d)) i).
    { intros i Hi. unfold vj_fill, correct. cbn [fst snd]. rewrite Estop.
      replace (c + 1 - 1)%nat with c by lia.
      replace (Nat.ltb (c + 1) stop) with true by (symmetry; apply Nat.ltb_lt; lia).
      cbn [fst snd].
      replace (Nat.leb (c + 1) i && Nat.ltb i stop) with true
        by (symmetry; apply andb_true_intro; split; [apply Nat.leb_le; lia|apply Nat.ltb_lt; lia]).
      destruct (fill_value n c i) as [Vf Vd]; [lia|intros j Hj; apply Hg; lia|].
      rewrite Hcf, (Rplus_comm (kt * (u i - u c))).
      set (tr := pass_law kt Fs N u u0 n c + kt * (u i - u c)) in *.
      destruct (Rltb Fs (Rabs tr)) eqn:E.
      - split.
        + rewrite Rmult_comm. rewrite slip_sign by (auto; apply Rltb_true; exact E).
          symmetry. exact Vf.
        + intros q. rewrite Vd. reflexivity.
      - split.
        + rewrite Vf. symmetry. apply stick_clamp. apply Rltb_false. exact E.
        + intros q. rewrite Vd, Hcd. reflexivity. }
    split; [|exact IN].
    intros i Hi. destruct (le_lt_dec i c) as [L|L].
    - unfold vj_fill, correct in *. cbn [fst snd] in *. rewrite Estop.
      destruct (Nat.ltb (c + 1) stop); [|exact Hi]. cbn [fst snd].
      replace (Nat.leb (c + 1) i) with false by (symmetry; apply Nat.leb_gt; lia).
      exact Hi.
    - destruct (le_lt_dec stop i) as [L2|L2]; [|apply IN; lia].
      unfold vj_fill, correct in *. cbn [fst snd] in *. rewrite Estop.
      destruct (Nat.ltb (c + 1) stop); [|exact Hi]. cbn [fst snd].
      replace (Nat.ltb i stop) with false by (symmetry; apply Nat.ltb_ge; lia).
      rewrite andb_false_r. exact Hi.
  Qed.

  Lemma fill_all n : forall l c acc,
    chain N u c l ->
    (forall k, In k (c :: l) -> correct n acc k) ->
    let acc' := fold_left (vj_fill kt Fs N u cst) (vj_pairs O (c :: l)) acc in
    (forall i, correct n acc i -> correct n acc' i) /\
    (forall i, (c <= i < N)%nat -> correct n acc' i).
  Proof.
    induction l as [|d l IH]; intros c acc Hch Hk acc'.
    - unfold acc'. cbn [vj_pairs fold_left]. destruct Hch as [H1 H2].
      destruct (fill_correct n acc c O) as [F1 F2];
        [apply Hk; left; reflexivity|exact H1|left; reflexivity|exact H2|].
      split; [exact F1|].
      intros i Hi. destruct (Nat.eq_dec i c) as [->|Hne].
      + apply F1. apply Hk. left; reflexivity.
      + apply F2. simpl. lia.
    - unfold acc'. cbn [vj_pairs fold_left]. destruct Hch as [H1 [H2 H3]].
      destruct (fill_correct n acc c d) as [F1 F2].
      + apply Hk; left; reflexivity.
      + lia.
      + right; lia.
      + destruct (Nat.eqb_spec d 0); [lia|exact H2].
      + destruct (IH d (vj_fill kt Fs N u cst acc (c, d)) H3) as [G1 G2].
        { intros k Hin. apply F1. apply Hk. right. exact Hin. }
        split; [intros i Hi; apply G1, F1, Hi|].
        intros i Hi. destruct (le_lt_dec d i) as [L|L]; [apply G2; lia|].
        apply G1. destruct (Nat.eq_dec i c) as [->|Hne].
        * apply F1. apply Hk. left; reflexivity.
        * apply F2. destruct (Nat.eqb_spec d 0); lia.
  Qed.
End CritLaw.

(** scatter: with distinct indices each index receives its value *)
Lemma scatter_other {A} (idx : list nat) : forall (vals : list A) a k,
  ~ In k idx -> vj_scatter idx vals a k = a k.
Proof.
  induction idx as [|i idx IH]; intros [|v vals] a k H; cbn [vj_scatter]; try reflexivity.
  rewrite IH by (intros Hin; apply H; right; exact Hin).
  destruct (Nat.eqb_spec k i); [|reflexivity]. exfalso. apply H. left; auto.
Qed.

Lemma scatter_nth {A} (idx : list nat) : forall (vals : list A) a j d,
  NoDup idx -> length vals = length idx -> (j < length idx)%nat ->
  vj_scatter idx vals a (nth j idx O) = nth j vals d.
Proof.
  induction idx as [|i idx IH]; intros vals a j d Hn Hl Hj; [simpl in Hj; lia|].
  destruct vals as [|v vals]; [discriminate|]. simpl in Hl, Hj. inversion Hn; subst.
  cbn [vj_scatter]. destruct j as [|j].
  - cbn [nth]. rewrite scatter_other by assumption. rewrite Nat.eqb_refl. reflexivity.
  - cbn [nth]. apply IH; [assumption|lia|lia].
Qed.

Lemma map_nth_rows (u : nat -> R) (cst : nat -> vec) (l : list nat) :
  map (fun i => (u i, cst i)) l =
  rows (length l) (fun j => u (nth j l O)) (fun j => cst (nth j l O)).
Proof.
  unfold rows. induction l as [|a l IH]; [reflexivity|].
  cbn [length seq map]. f_equal. rewrite IH. rewrite <- seq_shift, map_map. reflexivity.
Qed.

(** What VectorJenkins.local_force_history returns, exactly. *)
Lemma vector_history_spec s N u cst u0 :
  (0 < N)%nat -> 0 <= j_Fs s ->
  exists s' ft dfduh c,
    vector_jenkins_local_force_history s N u cst u0 = Ok (s', ft, dfduh) /\
    same_params s s' /\
    c = last (vj_crit N u) O /\
    let f0 := pass_law (j_kt s) (j_Fs s) N u u0 0 c in
    let second := not_converged default_tol default_tol (Rabs (f0 - 0)) f0 in
    forall k, (k < N)%nat ->
      ft k = pass_law (j_kt s) (j_Fs s) N u u0 (if second then 1 else 0) k /\
      forall i, dfduh k i = dpass_law (j_kt s) (j_Fs s) N u cst u0 (if second then 1 else 0) k i.
Proof.
  intros HN HF. destruct (crit_chain N u HN) as [cs [Ec Hch]].
  unfold vector_jenkins_local_force_history. rewrite Ec.
  rewrite map_nth_rows.
  set (crit := O :: cs). set (m := length crit).
  assert (Hm : (0 < m)%nat) by (unfold m, crit; simpl; lia).
  assert (Htol : 0 <= default_tol \/ 0 <= default_tol).
  { left. unfold default_tol. left. apply Rinv_0_lt_compat. simpl; lra. }
  destruct (jenkins_history_spec s m (fun j => u (nth j crit O)) (fun j => cst (nth j crit O)) u0
              2 default_tol default_tol Hm HF Htol) as (s' & os & Eh & El & Ep & Hv).
  rewrite Eh. cbn [bind]. cbv zeta in Hv.
  destruct (crit_law (j_kt s) (j_Fs s) N u cst u0 HN HF cs Hch 0 (m - 1)%nat) as [L0 _];
    [fold crit; fold m; lia|].
  fold crit in L0. fold m in L0. rewrite L0 in Hv.
  set (c := nth (m - 1) crit O) in *.
  replace (Nat.ltb 1 2) with true in Hv by reflexivity. rewrite andb_true_r in Hv.
  set (second := not_converged default_tol default_tol
         (Rabs (pass_law (j_kt s) (j_Fs s) N u u0 0 c - 0))
         (pass_law (j_kt s) (j_Fs s) N u u0 0 c)) in *.
  set (n := if second then 1%nat else 0%nat) in *.
  (* distinct critical indices *)
  assert (ND : NoDup crit).
  { unfold crit. rewrite <- Ec. unfold vj_crit. apply NoDup_filter. apply seq_NoDup. }
  set (ft0 := vj_scatter crit (map fst os) (fun _ => 0)).
  set (df0 := vj_scatter crit (map snd os) (fun _ _ => 0)).
  assert (C0 : forall k, In k crit -> correct (j_kt s) (j_Fs s) N u cst u0 n (ft0, df0) k).
  { intros k Hin. destruct (In_nth crit k O Hin) as [j [Hj <-]].
    destruct (Hv j Hj) as [Vf Vd].
    destruct (crit_law (j_kt s) (j_Fs s) N u cst u0 HN HF cs Hch n j Hj) as [Lf Ld].
    fold crit in Lf, Ld. fold m in Lf, Ld.
    unfold correct. cbn [fst snd]. split.
    - unfold ft0. rewrite (scatter_nth crit (map fst os) _ j 0); [|exact ND| |exact Hj].
      + rewrite Vf. exact Lf.
      + rewrite map_length, El. reflexivity.
    - intros q. unfold df0. rewrite (scatter_nth crit (map snd os) _ j (fun _ => 0)); [|exact ND| |exact Hj].
      + rewrite Vd. apply Ld.
      + rewrite map_length, El. reflexivity. }
  destruct (fill_all (j_kt s) (j_Fs s) N u cst u0 HN HF cs n cs O (ft0, df0) Hch C0) as [_ G].
  cbn [hd]. fold crit in G.
  destruct (fold_left (vj_fill (j_kt s) (j_Fs s) N u cst) (vj_pairs O crit) (ft0, df0))
    as [ft' df'] eqn:EF.
  fold crit. fold ft0 df0. unfold hd, crit at 1. fold crit. rewrite EF.
  exists s', ft', df', c. split; [reflexivity|]. split; [exact Ep|].
  split; [unfold c, m; rewrite last_nth; reflexivity|].
  cbv zeta. intros k Hk. apply G. lia.
Qed.
