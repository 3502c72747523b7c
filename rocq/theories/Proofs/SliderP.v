(** Facts about the slider specification: composition of clamps, steady state after one pass. *)
From Coq Require Import Reals Lra Lia Arith.
From Verif.Lib Require Import RSum.
From Verif.Spec Require Import Slider.
Open Scope R_scope.

Ltac minmax :=
  unfold clamp, Rmax, Rmin in *;
  repeat match goal with
  | H : context [Rle_dec ?a ?b] |- _ => destruct (Rle_dec a b)
  | |- context [Rle_dec ?a ?b] => destruct (Rle_dec a b)
  end; try lra.

Lemma clamp_range lo hi x : lo <= hi -> lo <= clamp lo hi x <= hi.
Proof. intros; minmax. Qed.

Lemma clamp_id lo hi x : lo <= x <= hi -> clamp lo hi x = x.
Proof. intros; minmax. Qed.

Lemma clamp_mono lo hi x y : x <= y -> clamp lo hi x <= clamp lo hi y.
Proof. intros; minmax. Qed.

Lemma clamp_idem lo hi x : lo <= hi -> clamp lo hi (clamp lo hi x) = clamp lo hi x.
Proof. intros. apply clamp_id. apply clamp_range; assumption. Qed.

(** clamping after a shifted clamp is again a shifted clamp *)
Lemma clamp_compose lo hi a b y d :
  lo <= hi -> a <= b ->
  clamp lo hi (clamp a b y + d) = clamp (clamp lo hi (a + d)) (clamp lo hi (b + d)) (y + d).
Proof.
  intros Hl Hab.
  destruct (Rle_dec y a) as [H1|H1].
  - replace (clamp a b y) with a by minmax.
    unfold clamp at 2. minmax.
  - destruct (Rle_dec b y) as [H2|H2].
    + replace (clamp a b y) with b by minmax. minmax.
    + replace (clamp a b y) with y by minmax. minmax.
Qed.

Section Slider.
  Variables (kt : R) (N : nat) (lo hi u : nat -> R).
  Hypothesis HN : (0 < N)%nat.
  Hypothesis Hlim : forall k, lo k <= hi k.

  (** force at step k when at step "-1" the displacement was [um] and the force [x] *)
  Fixpoint run (um x : R) (k : nat) : R :=
    match k with
    | O => clamp (lo O) (hi O) (x + kt * (u O - um))
    | S j => clamp (lo (S j)) (hi (S j)) (run um x j + kt * (u (S j) - u j))
    end.

  Lemma run_clamp um k :
    exists a b, a <= b /\ forall x, run um x k = clamp a b (x + kt * (u k - um)).
  Proof.
    induction k as [|k IH].
    - exists (lo O), (hi O). split; [apply Hlim|]. intros x. reflexivity.
    - destruct IH as [a [b [Hab IH]]].
      exists (clamp (lo (S k)) (hi (S k)) (a + kt * (u (S k) - u k))),
             (clamp (lo (S k)) (hi (S k)) (b + kt * (u (S k) - u k))).
      split; [apply clamp_mono; lra|].
      intros x. simpl. rewrite IH. rewrite clamp_compose by (auto; apply Hlim).
      f_equal. ring.
  Qed.

  Lemma slider_run u0 um k : slider kt lo hi u u0 k = run um (kt * (um - u0)) k.
  Proof.
    induction k as [|k IH].
    - simpl. f_equal. ring.
    - simpl. rewrite IH. reflexivity.
  Qed.

  Hypothesis Hlo : periodic N lo.
  Hypothesis Hhi : periodic N hi.
  Hypothesis Hu : periodic N u.

  (** continuing a pass: the next pass starts from the force at the end of the previous one *)
  Lemma slider_next u0 n k :
    slider kt lo hi u u0 (S n * N + k) = run (u (N - 1)%nat) (slider kt lo hi u u0 (S n * N - 1)) k.
  Proof.
    assert (Per : forall f, periodic N f -> forall n k, f (n * N + k)%nat = f k).
    { intros f Hf m. induction m as [|m IH]; intros j; [reflexivity|].
      replace (S m * N + j)%nat with (N + (m * N + j))%nat by lia. rewrite Hf. apply IH. }
    assert (SS : forall j, slider kt lo hi u u0 (S j)
              = clamp (lo (S j)) (hi (S j)) (slider kt lo hi u u0 j + kt * (u (S j) - u j)))
      by reflexivity.
    induction k as [|k IH].
    - replace (S n * N + 0)%nat with (S (S n * N - 1)) by nia.
      rewrite SS. cbn [run].
      replace (S (S n * N - 1)) with (S n * N + 0)%nat by nia.
      rewrite (Per lo Hlo), (Per hi Hhi), (Per u Hu (S n)).
      replace (u (S n * N - 1)%nat) with (u (N - 1)%nat).
      2:{ replace (S n * N - 1)%nat with (n * N + (N - 1))%nat by nia. symmetry. apply (Per u Hu). }
      reflexivity.
    - replace (S n * N + S k)%nat with (S (S n * N + k)) by lia.
      rewrite SS, IH.
      replace (S (S n * N + k)) with (S n * N + S k)%nat by lia.
      rewrite (Per lo Hlo), (Per hi Hhi), (Per u Hu (S n) (S k)), (Per u Hu (S n) k).
      reflexivity.
  Qed.

  Lemma slider_end_fixed u0 n :
    slider kt lo hi u u0 (S n * N + (N - 1)) = slider kt lo hi u u0 (N - 1).
  Proof.
    destruct (run_clamp (u (N - 1)%nat) (N - 1)) as [a [b [Hab H]]].
    assert (E0 : slider kt lo hi u u0 (N - 1)
                 = clamp a b (kt * (u (N - 1)%nat - u0))).
    { rewrite (slider_run u0 (u (N - 1)%nat)), H. f_equal. ring. }
    induction n as [|n IH].
    - rewrite slider_next. rewrite H.
      replace (1 * N - 1)%nat with (N - 1)%nat by lia. rewrite E0.
      replace (kt * (u (N - 1)%nat - u (N - 1)%nat)) with 0 by ring.
      rewrite Rplus_0_r. apply clamp_idem. exact Hab.
    - rewrite slider_next. rewrite H.
      replace (S (S n) * N - 1)%nat with (S n * N + (N - 1))%nat by lia.
      rewrite IH, E0.
      replace (kt * (u (N - 1)%nat - u (N - 1)%nat)) with 0 by ring.
      rewrite Rplus_0_r. apply clamp_idem. exact Hab.
  Qed.

  (** every pass from the second on is the same *)
  Lemma slider_two_pass u0 n k :
    (1 <= n)%nat -> (k < N)%nat ->
    slider kt lo hi u u0 (n * N + k) = slider kt lo hi u u0 (N + k).
  Proof.
    intros Hn Hk. destruct n as [|n]; [lia|]. clear Hn.
    rewrite slider_next.
    replace (N + k)%nat with (1 * N + k)%nat by lia. rewrite (slider_next u0 0).
    f_equal. replace (1 * N - 1)%nat with (N - 1)%nat by lia.
    destruct n as [|n]; [f_equal; lia|].
    replace (S (S n) * N - 1)%nat with (S n * N + (N - 1))%nat by lia.
    apply slider_end_fixed.
  Qed.

  Lemma slider_steady u0 :
    steady_state N (slider kt lo hi u u0) (fun k => slider kt lo hi u u0 (N + k)).
  Proof. exists 1%nat. intros n k Hn Hk. apply slider_two_pass; assumption. Qed.

  Lemma slider_range u0 k : lo k <= slider kt lo hi u u0 k <= hi k.
  Proof. destruct k; simpl; apply clamp_range; apply Hlim. Qed.
End Slider.

(** the steady state is unique *)
Lemma steady_state_unique N f g g' :
  steady_state N f g -> steady_state N f g' -> forall k, (k < N)%nat -> g k = g' k.
Proof.
  intros [n0 H] [n1 H'] k Hk.
  rewrite <- (H (Nat.max n0 n1) k), <- (H' (Nat.max n0 n1) k); lia || auto.
Qed.

Lemma periodic_repeat N us : (0 < N)%nat -> periodic N (repeat_samples N us).
Proof.
  intros HN k. unfold repeat_samples. f_equal.
  rewrite Nat.add_mod by lia. rewrite Nat.mod_same by lia. simpl.
  rewrite Nat.mod_mod by lia. reflexivity.
Qed.

Lemma repeat_small N us k : (k < N)%nat -> repeat_samples N us k = us k.
Proof. intros H. unfold repeat_samples. rewrite Nat.mod_small by exact H. reflexivity. Qed.

Lemma periodic_const N c : periodic N (fun _ => c).
Proof. intros k. reflexivity. Qed.
