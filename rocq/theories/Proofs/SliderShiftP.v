(** The steady state of a slider does not depend on the sample at which the period starts. *)
From Coq Require Import Reals Lra Lia Arith List.
From Verif.Lib Require Import RSum.
From Verif.Spec Require Import Slider.
Import ListNotations.
Open Scope R_scope.

Ltac clamps := unfold clamp, Rmax, Rmin in *; repeat (match goal with |- context [Rle_dec ?a ?b] => destruct (Rle_dec a b) | H : context [Rle_dec ?a ?b] |- _ => destruct (Rle_dec a b) end; try lra); try lra.

(** successive limits *)
Definition limits (l : list (R * R)) (y : R) : R := fold_left (fun y ab => clamp (fst ab) (snd ab) y) l y.

Lemma limits_app l m y : limits (l ++ m) y = limits m (limits l y).
Proof. unfold limits. apply fold_left_app. Qed.

Lemma clamp_clamp a b p q y : a <= b -> p <= q -> clamp a b (clamp p q y) = clamp (clamp a b p) (clamp a b q) y.
Proof. intros. clamps. Qed.

Lemma limits_form l ab : fst ab <= snd ab -> (forall x, In x l -> fst x <= snd x) ->
  exists p q, p <= q /\ (forall y, limits (ab :: l) y = clamp p q y) /\ (p < q -> forall x, In x (ab :: l) -> fst x <= p /\ q <= snd x).
Proof.
  intros Hab. induction l as [|cd l IH] using rev_ind; intros Hl.
  - exists (fst ab), (snd ab). split; [exact Hab|]. split; [reflexivity|]. intros _ x [<-|[]]. lra.
  - destruct IH as (p & q & H1 & H2 & H3); [intros x Hx; apply Hl; apply in_or_app; left; exact Hx|].
    assert (Hcd : fst cd <= snd cd) by (apply Hl; apply in_or_app; right; left; reflexivity).
    exists (clamp (fst cd) (snd cd) p), (clamp (fst cd) (snd cd) q). split; [clamps|]. split.
    + intros y. change (ab :: l ++ [cd]) with ((ab :: l) ++ [cd]). rewrite limits_app, H2. change (limits [cd] (clamp p q y)) with (clamp (fst cd) (snd cd) (clamp p q y)). apply clamp_clamp; assumption.
    + intros Hpq x Hx.
      assert (L : p < q /\ p <= clamp (fst cd) (snd cd) p /\ clamp (fst cd) (snd cd) q <= q) by (revert Hpq; clamps).
      assert (C : fst cd <= clamp (fst cd) (snd cd) p /\ clamp (fst cd) (snd cd) q <= snd cd) by (clear Hpq L; clamps).
      destruct L as (L1 & L2 & L3). change (ab :: l ++ [cd]) with ((ab :: l) ++ [cd]) in Hx. apply in_app_or in Hx. destruct Hx as [Hx|[<-|[]]]; [|exact C].
      destruct (H3 L1 x Hx). lra.
Qed.

(** limits that occur again later have no effect *)
Lemma limits_absorb l m y : l <> [] -> (forall x, In x l -> fst x <= snd x) -> (forall x, In x m -> In x l) -> limits l (limits m y) = limits l y.
Proof.
  intros Hne Hl Hm. destruct l as [|ab l]; [congruence|].
  destruct (limits_form l ab) as (p & q & H1 & H2 & H3); [apply Hl; left; reflexivity|intros x Hx; apply Hl; right; exact Hx|].
  rewrite !H2. destruct (Rle_lt_or_eq_dec p q H1) as [L|E].
  - specialize (H3 L). clear H2 Hl Hne. revert y. induction m as [|x m IH]; intros y; [reflexivity|].
    change (limits (x :: m) y) with (limits m (clamp (fst x) (snd x) y)). rewrite IH by (intros z Hz; apply Hm; right; exact Hz).
    destruct (H3 x (Hm x (or_introl eq_refl))). clear IH Hm H3. clamps.
  - subst q. clear. clamps.
Qed.

Section Shift.
  Variables (kt : R) (N : nat) (lo hi u : nat -> R).
  Hypothesis HN : (0 < N)%nat.
  Hypothesis Hlim : forall k, lo k <= hi k.
  Hypothesis plo : periodic N lo.
  Hypothesis phi : periodic N hi.
  Hypothesis pu : periodic N u.

  Definition window (k : nat) : R * R := (lo k - kt * u k, hi k - kt * u k).

  Lemma window_ok k : fst (window k) <= snd (window k).
  Proof. unfold window. cbn [fst snd]. specialize (Hlim k). lra. Qed.

  Lemma clamp_shift a b x s : clamp a b x - s = clamp (a - s) (b - s) (x - s).
  Proof. clamps. Qed.

  Lemma slider_limits v0 j k : slider kt (fun i => lo (j + i)%nat) (fun i => hi (j + i)%nat) (fun i => u (j + i)%nat) v0 k
    = limits (map window (seq j (S k))) (- kt * v0) + kt * u (j + k)%nat.
  Proof.
    induction k as [|k IH].
    - cbn [slider seq map]. rewrite Nat.add_0_r. unfold limits. cbn [fold_left]. unfold window. cbn [fst snd].
      pose proof (clamp_shift (lo j) (hi j) (kt * (u j - v0)) (kt * u j)) as P. replace (kt * (u j - v0) - kt * u j) with (- kt * v0) in P by ring. lra.
    - cbn [slider]. rewrite IH. rewrite (seq_S (S k) j), map_app, limits_app. set (g := limits _ (- kt * v0)).
      change (limits (map window [(j + S k)%nat]) g) with (clamp (fst (window (j + S k))) (snd (window (j + S k))) g). unfold window. cbn [fst snd].
      pose proof (clamp_shift (lo (j + S k)%nat) (hi (j + S k)%nat) (g + kt * u (j + k)%nat + kt * (u (j + S k)%nat - u (j + k)%nat)) (kt * u (j + S k)%nat)) as P.
      replace (g + kt * u (j + k)%nat + kt * (u (j + S k)%nat - u (j + k)%nat) - kt * u (j + S k)%nat) with g in P by ring. lra.
  Qed.

  Lemma window_period q k : window (q * N + k) = window k.
  Proof.
    induction q as [|q IH]; [reflexivity|]. replace (S q * N + k)%nat with (N + (q * N + k))%nat by lia.
    rewrite <- IH. unfold window. rewrite plo, phi, pu. reflexivity.
  Qed.

  Lemma window_again j k x : (N <= k)%nat -> In x (map window (seq 0 j)) -> In x (map window (seq j k)).
  Proof.
    intros Hk Hx. apply in_map_iff in Hx. destruct Hx as (i & <- & Hi). apply in_seq in Hi.
    set (q := ((j - i + (N - 1)) / N)%nat). assert (B : (j <= q * N + i < j + N)%nat).
    { unfold q. pose proof (Nat.div_mod (j - i + (N - 1)) N ltac:(lia)) as D. pose proof (Nat.mod_upper_bound (j - i + (N - 1)) N ltac:(lia)). nia. }
    rewrite <- (window_period q i). apply in_map. apply in_seq. lia.
  Qed.

  Lemma slider_shift u0 j k :
    slider kt (fun i => lo (j + i)%nat) (fun i => hi (j + i)%nat) (fun i => u (j + i)%nat) u0 (N + k) = slider kt lo hi u u0 (N + (j + k)).
  Proof.
    rewrite slider_limits.
    assert (E : slider kt lo hi u u0 (N + (j + k)) = limits (map window (seq 0 (S (N + (j + k))))) (- kt * u0) + kt * u (N + (j + k))%nat) by (apply (slider_limits u0 0)).
    rewrite E. replace (j + (N + k))%nat with (N + (j + k))%nat by lia. f_equal.
    replace (S (N + (j + k))) with (j + S (N + k))%nat by lia. rewrite seq_app, map_app, limits_app. cbn [Nat.add].
    symmetry. apply limits_absorb.
    - cbn [seq map]. discriminate.
    - intros x Hx. apply in_map_iff in Hx. destruct Hx as (i & <- & _). apply window_ok.
    - intros x. apply window_again. lia.
  Qed.

  (** a different start changes the steady state by a constant *)
  Lemma limits_inside l y : (forall x, In x l -> fst x <= y <= snd x) -> limits l y = y.
  Proof.
    induction l as [|x l IH]; intros H; [reflexivity|]. change (limits (x :: l) y) with (limits l (clamp (fst x) (snd x) y)).
    assert (E : clamp (fst x) (snd x) y = y) by (specialize (H x (or_introl eq_refl)); clamps). rewrite E. apply IH. intros z Hz. apply H. right. exact Hz.
  Qed.

  Lemma window_once j k : exists i, (j <= i < j + N)%nat /\ window (j + k) = window i.
  Proof.
    exists (j + k mod N)%nat. split; [pose proof (Nat.mod_upper_bound k N ltac:(lia)); lia|].
    rewrite <- (window_period (k / N) (j + k mod N)). f_equal. pose proof (Nat.div_mod k N ltac:(lia)). lia.
  Qed.

  Lemma slider_starts u0 u1 j : exists c, (u0 = u1 -> c = 0) /\ forall k,
    slider kt (fun i => lo (j + i)%nat) (fun i => hi (j + i)%nat) (fun i => u (j + i)%nat) u1 (N + k) = slider kt lo hi u u0 (N + (j + k)) + c.
  Proof.
    assert (W : exists p q, p <= q /\ (forall y, limits (map window (seq j N)) y = clamp p q y) /\ (p < q -> forall x, In x (map window (seq j N)) -> fst x <= p /\ q <= snd x)).
    { assert (Ne : map window (seq j N) <> []) by (destruct N; [lia|discriminate]). assert (Ok : forall x, In x (map window (seq j N)) -> fst x <= snd x).
      { intros x Hx. apply in_map_iff in Hx. destruct Hx as (i & <- & _). apply window_ok. }
      destruct (map window (seq j N)) as [|ab l]; [congruence|]. apply limits_form; [apply Ok; left; reflexivity|intros x Hx; apply Ok; right; exact Hx]. }
    destruct W as (p & q & H1 & H2 & H3).
    exists (clamp p q (- kt * u1) - clamp p q (- kt * u0)). split; [intros ->; lra|]. intros k. rewrite <- (slider_shift u0 j k), !slider_limits.
    replace (S (N + k)) with (N + S k)%nat by lia. rewrite seq_app, map_app, !limits_app, !H2.
    destruct (Rle_lt_or_eq_dec p q H1) as [L|E].
    - assert (B : forall y, p <= y <= q -> limits (map window (seq (j + N) (S k))) y = y).
      { intros y Hy. apply limits_inside. intros x Hx. apply in_map_iff in Hx. destruct Hx as (i & <- & Hi). apply in_seq in Hi.
        destruct (window_once j (i - j)) as (i' & Hi' & E). replace (j + (i - j))%nat with i in E by lia. rewrite E.
        destruct (H3 L (window i')) as [A B]; [apply in_map, in_seq; lia|]. lra. }
      assert (Bc : forall y, p <= clamp p q y <= q) by (intros y; clear - H1; clamps). rewrite !B by apply Bc. lra.
    - subst q. assert (C : forall y, clamp p p y = p) by (intros y; clear; clamps). rewrite !C. lra.
  Qed.
End Shift.
