(** Steady state of sliders whose stiffness changes with time, and counterexamples for the rough contact element. *)
From Coq Require Import Reals Lra Lia Arith List Bool FunctionalExtensionality.
From Verif.Lib Require Import RSum Calc Py.
From Verif.Spec Require Import Calculus Slider Rough RoughCalls.
From Verif.Model Require Import Harmonic Aft JaxDual JaxFloat RoughContact.
From Verif.Proofs Require Import JaxDualP JaxFloatP RoughNormalP RoughStaticP RoughCallsP RoughHistoryP SliderP.
Import ListNotations.
Open Scope R_scope.

Section Mindlin.
  Variables (N : nat) (kt limit u : nat -> R) (u0 : R).
  Hypothesis HN : (0 < N)%nat.
  Hypothesis Hkt : periodic N kt.
  Hypothesis Hl : periodic N limit.
  Hypothesis Hu : periodic N u.
  Hypothesis Hpos : forall k, 0 <= limit k.
  Let f := mindlin kt limit u u0.

  Lemma mindlin_range k : - limit k <= f k <= limit k.
  Proof. destruct k; unfold f; cbn [mindlin]; apply clamp_range; match goal with |- - limit ?j <= _ => pose proof (Hpos j) end; lra. Qed.

  Lemma same_from a : f (N + a)%nat = f a -> forall j, f (N + (a + j))%nat = f (a + j)%nat.
  Proof.
    intros H. induction j as [|j IH]; [rewrite Nat.add_0_r; exact H|]. rewrite Nat.add_succ_r, Nat.add_succ_r. unfold f in *. cbn [mindlin]. rewrite IH.
    replace (S (N + (a + j))) with (N + S (a + j))%nat by lia. rewrite (Hkt (S (a + j))), (Hl (S (a + j))), (Hu (S (a + j))), (Hu (a + j)%nat). reflexivity.
  Qed.

  Lemma repeats_from a : f (N + a)%nat = f a -> forall n k, (a <= k)%nat -> f (n * N + k)%nat = f k.
  Proof.
    intros H. induction n as [|n IH]; intros k Hk; [reflexivity|]. replace (S n * N + k)%nat with (N + (a + (n * N + k - a)))%nat by lia. rewrite same_from by exact H.
    replace (a + (n * N + k - a))%nat with (n * N + k)%nat by lia. apply IH. exact Hk.
  Qed.

  (** open at one instant: the second pass is steady *)
  Lemma open_pass a : (a < N)%nat -> limit a = 0 -> forall n k, (1 <= n)%nat -> (k < N)%nat -> f (n * N + k)%nat = f (N + k)%nat.
  Proof.
    intros Ha H0. assert (E : f (N + a)%nat = f a).
    { pose proof (mindlin_range a) as A. pose proof (mindlin_range (N + a)) as B. rewrite (Hl a) in B. lra. }
    intros n k Hn Hk. replace (n * N + k)%nat with ((n - 1) * N + (N + k))%nat by nia. apply (repeats_from a); [exact E|lia].
  Qed.
  Lemma steady_open a : (a < N)%nat -> limit a = 0 -> steady_state N f (fun k => f (N + k)%nat).
  Proof. intros Ha H0. exists 1%nat. apply (open_pass a); assumption. Qed.

  (** constant stiffness: the second pass is steady *)
  Lemma mindlin_const c k : (forall j, kt j = c) -> f k = slider c (fun j => - limit j) limit u u0 k.
  Proof. intros Hc. unfold f. induction k as [|k IH]; cbn [mindlin slider]; rewrite Hc; [reflexivity|]. rewrite IH. reflexivity. Qed.
  Lemma const_pass c : (forall j, kt j = c) -> forall n k, (1 <= n)%nat -> (k < N)%nat -> f (n * N + k)%nat = f (N + k)%nat.
  Proof.
    intros H n k Hn Hk. rewrite !(mindlin_const c) by exact H. apply slider_two_pass; try assumption.
    all: try (intros i; cbn beta; pose proof (Hpos i); lra).
    all: intros i; rewrite (Hl i); reflexivity.
  Qed.
  Lemma steady_const c : (forall j, kt j = c) -> steady_state N f (fun k => f (N + k)%nat).
  Proof. intros H. exists 1%nat. apply (const_pass c). exact H. Qed.

  (** in general the state is reached after some number of passes *)
  Definition drift (a j : nat) : R := rsum j (fun i => kt (S (a + i)) * (u (S (a + i)) - u (a + i)%nat)).
  Lemma window a : forall j, exists A B, A <= B /\ forall n, f (n * N + (a + j))%nat = (if Nat.eqb j 0 then f (n * N + a)%nat else clamp A B (f (n * N + a)%nat + drift a j)).
  Proof.
    assert (Pn : forall (g : nat -> R), periodic N g -> forall n k, g (n * N + k)%nat = g k).
    { intros g Hg. induction n as [|n IH]; intros k; [reflexivity|]. replace (S n * N + k)%nat with (N + (n * N + k))%nat by lia. rewrite Hg. apply IH. }
    induction j as [|j (A & B & HAB & IH)].
    - exists 0, 0. split; [lra|]. intros n. rewrite Nat.add_0_r. reflexivity.
    - set (d := kt (S (a + j)) * (u (S (a + j)) - u (a + j)%nat)). set (L := limit (S (a + j))).
      assert (St : forall n, f (n * N + (a + S j))%nat = clamp (- L) L (f (n * N + (a + j))%nat + d)).
      { intros n. replace (n * N + (a + S j))%nat with (S (n * N + (a + j)))%nat by lia. unfold f at 1. cbn [mindlin]. fold f. replace (S (n * N + (a + j))) with (n * N + S (a + j))%nat by lia.
        rewrite (Pn limit Hl), (Pn kt Hkt), (Pn u Hu n (S (a + j))), (Pn u Hu n (a + j)%nat). reflexivity. }
      pose proof (Hpos (S (a + j))) as HL. fold L in HL.
      destruct (Nat.eqb_spec j 0) as [->|Hj].
      + exists (- L), L. split; [lra|]. intros n. rewrite St. cbn [Nat.eqb]. rewrite IH. unfold drift. cbn [rsum]. fold d. rewrite !Nat.add_0_r in *. rewrite Rplus_0_l. fold d. reflexivity.
      + exists (clamp (- L) L (A + d)), (clamp (- L) L (B + d)). split; [apply clamp_mono; lra|]. intros n. rewrite St, IH. cbn [Nat.eqb]. rewrite clamp_compose by lra. f_equal. unfold drift. cbn [rsum]. fold d. ring.
  Qed.

  Lemma eventually_fixed (x : nat -> R) A B c : A <= B -> (forall n, x (S n) = clamp A B (x n + c)) -> exists n, x (S n) = x n.
  Proof.
    intros HAB H. destruct (Rtotal_order c 0) as [Hc|[Hc|Hc]].
    - (* decreasing *)
      assert (G : forall n, x (S n) <= Rmax A (B + INR n * c)).
      { induction n as [|n IH]; [rewrite H; cbn; minmax|]. rewrite H, S_INR. pose proof (H n). clear H. revert IH. minmax. }
      destruct (archimed_cor1 (- c / (B - A + 1)) ltac:(apply Rdiv_lt_0_compat; lra)) as (n & Hn & Hn0).
      assert (INR n * - c > B - A).
      { assert (0 < INR n) by (apply lt_0_INR; exact Hn0). assert (/ INR n * INR n < - c / (B - A + 1) * INR n) by (apply Rmult_lt_compat_r; assumption). rewrite Rinv_l in H1 by lra.
        assert (1 * (B - A + 1) < - c / (B - A + 1) * INR n * (B - A + 1)) by (apply Rmult_lt_compat_r; lra). replace (- c / (B - A + 1) * INR n * (B - A + 1)) with (INR n * - c) in H2 by (field; lra). lra. }
      exists (S n). specialize (G n). rewrite (H (S n)). assert (x (S n) = A) by (pose proof (clamp_range A B (x n + c) HAB); rewrite H in *; rewrite Rmax_left in G by lra; lra). rewrite H1. minmax.
    - exists 1%nat. rewrite (H 1%nat), Hc, Rplus_0_r. rewrite (H 0%nat). apply clamp_idem. exact HAB.
    - assert (G : forall n, Rmin B (A + INR n * c) <= x (S n)).
      { induction n as [|n IH]; [rewrite H; cbn; minmax|]. rewrite H, S_INR. pose proof (H n). clear H. revert IH. minmax. }
      destruct (archimed_cor1 (c / (B - A + 1)) ltac:(apply Rdiv_lt_0_compat; lra)) as (n & Hn & Hn0).
      assert (INR n * c > B - A).
      { assert (0 < INR n) by (apply lt_0_INR; exact Hn0). assert (/ INR n * INR n < c / (B - A + 1) * INR n) by (apply Rmult_lt_compat_r; assumption). rewrite Rinv_l in H1 by lra.
        assert (1 * (B - A + 1) < c / (B - A + 1) * INR n * (B - A + 1)) by (apply Rmult_lt_compat_r; lra). replace (c / (B - A + 1) * INR n * (B - A + 1)) with (INR n * c) in H2 by (field; lra). lra. }
      exists (S n). specialize (G n). rewrite (H (S n)). assert (x (S n) = B) by (pose proof (clamp_range A B (x n + c) HAB); rewrite H in *; rewrite Rmin_left in G by lra; lra). rewrite H1. minmax.
  Qed.

  Lemma eventually_steady : exists n, steady_state N f (fun k => f (n * N + k)%nat).
  Proof.
    destruct (window 0 N) as (A & B & HAB & W). rewrite (proj2 (Nat.eqb_neq N 0)) in W by lia.
    destruct (eventually_fixed (fun n => f (n * N)%nat) A B (drift 0 N) HAB) as [n Hn].
    { intros n. specialize (W n). rewrite Nat.add_0_l, Nat.add_0_r in W. replace (S n * N)%nat with (n * N + N)%nat by lia. exact W. }
    exists n, n. intros p k Hp Hk. cbn beta in Hn. replace (p * N + k)%nat with ((p - n) * N + (n * N + k))%nat by nia. apply (repeats_from (n * N)); [|lia]. rewrite <- Hn. f_equal.
  Qed.
End Mindlin.

(** ---- the asperities of a cycle ---- *)
Section CycleFriction.
  Variables (s : solid) (mu peak u0 : R) (N : nat) (x u : nat -> R).
  Hypothesis Hs : physical s.
  Hypothesis Hmu : 0 <= mu.
  Hypothesis HN : (0 < N)%nat.
  Let f := cycle_friction s mu peak (repeat_samples N x) (repeat_samples N u) u0.
  Let per h : periodic N (fun k => h (repeat_samples N x k)).
  Proof. intros k. rewrite (periodic_repeat N x HN k). reflexivity. Qed.
  Let lim_pos : forall k : nat, 0 <= mu * cycle_force s peak (repeat_samples N x k).
  Proof. intros k. apply Rmult_le_pos; [exact Hmu|apply cycle_nonneg; exact Hs]. Qed.

  Lemma friction_range k : Rabs (f k) <= mu * cycle_force s peak (repeat_samples N x k).
  Proof. apply Rabs_le. exact (mindlin_range _ (fun k => mu * cycle_force s peak (repeat_samples N x k)) _ _ lim_pos k). Qed.
  Lemma friction_open_pass t : (t < N)%nat -> cycle_force s peak (x t) = 0 -> forall n k, (1 <= n)%nat -> (k < N)%nat -> f (n * N + k)%nat = f (N + k)%nat.
  Proof.
    intros Ht H0. apply (open_pass N (fun k => 8 * mindlin_modulus s * cycle_radius s peak (repeat_samples N x k)) (fun k => mu * cycle_force s peak (repeat_samples N x k)) (repeat_samples N u) u0) with (a := t); try assumption.
    - exact (per (fun y => 8 * mindlin_modulus s * cycle_radius s peak y)).
    - exact (per (fun y => mu * cycle_force s peak y)).
    - apply periodic_repeat. exact HN.
    - cbn beta. rewrite repeat_small, H0 by exact Ht. ring.
  Qed.
  Lemma friction_open t : (t < N)%nat -> cycle_force s peak (x t) = 0 -> steady_state N f (fun k => f (N + k)%nat).
  Proof. intros Ht H0. exists 1%nat. apply (friction_open_pass t); assumption. Qed.
  Lemma friction_constant_pass x0 : (forall t, (t < N)%nat -> x t = x0) -> forall n k, (1 <= n)%nat -> (k < N)%nat -> f (n * N + k)%nat = f (N + k)%nat.
  Proof.
    intros H0. assert (Ex : forall k, repeat_samples N x k = x0) by (intros k; unfold repeat_samples; apply H0; apply Nat.mod_upper_bound; lia).
    apply (const_pass N (fun k => 8 * mindlin_modulus s * cycle_radius s peak (repeat_samples N x k)) (fun k => mu * cycle_force s peak (repeat_samples N x k)) (repeat_samples N u) u0) with (c := 8 * mindlin_modulus s * cycle_radius s peak x0); try assumption.
    - exact (per (fun y => mu * cycle_force s peak y)).
    - apply periodic_repeat. exact HN.
    - intros j. cbn beta. rewrite Ex. reflexivity.
  Qed.
  Lemma friction_constant x0 : (forall t, (t < N)%nat -> x t = x0) -> steady_state N f (fun k => f (N + k)%nat).
  Proof. intros H0. exists 1%nat. apply (friction_constant_pass x0). exact H0. Qed.
  Lemma friction_eventually : exists n, steady_state N f (fun k => f (n * N + k)%nat).
  Proof.
    apply (eventually_steady N (fun k => 8 * mindlin_modulus s * cycle_radius s peak (repeat_samples N x k)) (fun k => mu * cycle_force s peak (repeat_samples N x k)) (repeat_samples N u) u0); try assumption.
    - exact (per (fun y => 8 * mindlin_modulus s * cycle_radius s peak y)).
    - exact (per (fun y => mu * cycle_force s peak y)).
    - apply periodic_repeat. exact HN.
  Qed.
End CycleFriction.

(** ---- two passes are not enough ---- *)
Definition soft : solid := mkSolid 2 0 1 0 1.
Lemma soft_physical : physical soft. Proof. unfold physical, soft. cbn. lra. Qed.
Lemma soft_modulus : effective_modulus soft = 1. Proof. unfold effective_modulus, soft. cbn. field. Qed.
Lemma soft_mindlin : mindlin_modulus soft = 1/4. Proof. unfold mindlin_modulus, soft. cbn. field. Qed.
Lemma soft_limit : 4 < yield_limit soft.
Proof.
  unfold yield_limit, yield_interference. rewrite soft_modulus. unfold hardness_ratio, soft. cbn [s_R s_nu s_Sy]. rewrite Rmult_0_r, exp_0. pose proof PI_RGT_0. pose proof PI2_3_2. unfold PI2 in *.
  assert (3 < PI) by lra. assert (9/10 < PI * (1295/1000 * 1) * 1 / (4 * 1)) by lra. nra.
Qed.
Lemma soft_force x : 0 < x -> cycle_force soft 4 x = 4/3 * (x * sqrt x).
Proof.
  intros Hx. unfold cycle_force. destruct (Rlt_dec 4 (yield_limit soft)) as [_|N]; [|exfalso; apply N; apply soft_limit]. unfold solid_hertz, hertz. rewrite soft_modulus. destruct (Rlt_dec 0 x); [|contradiction].
  cbn [soft s_R]. rewrite sqrt_1. field.
Qed.
Lemma soft_radius x : 0 < x -> cycle_radius soft 4 x = sqrt x.
Proof.
  intros Hx. unfold cycle_radius. destruct (Rlt_dec 4 (yield_limit soft)) as [_|N]; [|exfalso; apply N; apply soft_limit]. destruct (Rlt_dec 0 x); [|contradiction]. cbn [soft s_R]. f_equal. ring.
Qed.
Lemma sqrt_4 : sqrt 4 = 2. Proof. replace 4 with (2 * 2) by ring. apply sqrt_square. lra. Qed.
Definition ratchet_x (t : nat) : R := match t with O => 1 | _ => 4 end.
Definition ratchet_u (e : R) (t : nat) : R := match t with O => 0 | _ => e end.

Lemma ratchet e n : 0 < e -> (INR n + 1) * (2 * e) <= 1 -> cycle_friction soft 1 4 (repeat_samples 2 ratchet_x) (repeat_samples 2 (ratchet_u e)) 0 (n * 2) = INR n * (2 * e).
Proof.
  intros He Hn. induction n as [|n IH].
  - cbn [Nat.mul]. unfold cycle_friction. cbn [mindlin]. unfold repeat_samples. rewrite Nat.mod_0_l by lia. cbn [ratchet_x ratchet_u]. rewrite soft_force by lra. rewrite sqrt_1. rewrite clamp_id by lra. cbn. ring.
  - rewrite S_INR in *. pose proof (pos_INR n). specialize (IH ltac:(nra)). change (S n * 2)%nat with (S (S (n * 2))). unfold cycle_friction in *. cbn [mindlin]. rewrite IH.
    assert (M1 : (S (n * 2) mod 2 = 1)%nat) by (replace (S (n * 2)) with (1 + n * 2)%nat by lia; rewrite Nat.mod_add by lia; reflexivity).
    assert (M2 : (S (S (n * 2)) mod 2 = 0)%nat) by (replace (S (S (n * 2))) with (0 + (n + 1) * 2)%nat by lia; rewrite Nat.mod_add by lia; reflexivity).
    assert (M0 : (n * 2 mod 2 = 0)%nat) by (apply Nat.mod_mul; lia).
    unfold repeat_samples. rewrite M0, M1, M2. cbn [ratchet_x ratchet_u]. rewrite !soft_force, !soft_radius by lra. rewrite soft_mindlin, sqrt_1, sqrt_4.
    assert (2 * e <= 1) by nra. rewrite (clamp_id (- (1 * (4 / 3 * (4 * 2))))) by nra. rewrite clamp_id by nra. field.
Qed.

Definition ratchet_contact : rough := mkRough (mat_of soft) 1 (fun _ => 0) (fun _ => 1) 0 TAN 1.
Lemma ratchet_history e n : 0 < e -> (INR n + 1) * (2 * e) <= 1 -> forall st, rs_mu st = 1 ->
  rough_local_force_history ratchet_contact st 2 (fun t d => match d with 2%nat => ratchet_x t | _ => ratchet_u e t end) (fun _ => 0) (S n) 0 0 = Some (INR n * (2 * e)).
Proof.
  intros He Hn st Hst. unfold rough_local_force_history. rewrite Hst.
  pose proof (history_value soft ratchet_contact 1 2 (fun t d => dconst (match d with 2%nat => ratchet_x t | _ => ratchet_u e t end)) (fun _ => 0) soft_physical eq_refl
    (fun i _ => ltac:(cbn; lra)) ltac:(lra) I ltac:(lia) n 0 ltac:(lia)) as [_ H].
  destruct (H 0%nat ltac:(lia)) as (f & Hf & Ef & _). rewrite Hf. f_equal. rewrite Ef by reflexivity. cbn [r_n ratchet_contact rsum]. cbn [r_weights r_meso r_gaps ratchet_contact dconst dv].
  rewrite <- (ratchet e n He Hn). rewrite Rplus_0_l, Rmult_1_l, Nat.add_0_r.
  assert (V : vmax 2 (fun t => ratchet_x t) - (0 + 0) = 4) by (unfold vmax; cbn; rewrite Rmax_right by lra; lra). rewrite V.
  replace (fun t => ratchet_x t - (0 + 0)) with ratchet_x by (apply functional_extensionality; intros; lra). reflexivity.
Qed.
Lemma ratchet_never n : exists unlt, forall st, rs_mu st = 1 -> exists a b,
  rough_local_force_history ratchet_contact st 2 unlt (fun _ => 0) (S n) 0 0 = Some a /\ rough_local_force_history ratchet_contact st 2 unlt (fun _ => 0) (S (S n)) 0 0 = Some b /\ a <> b.
Proof.
  pose proof (pos_INR n) as Hp. set (e := / (2 * (INR n + 2))). assert (He : 0 < e) by (apply Rinv_0_lt_compat; lra). assert (E1 : (INR n + 2) * (2 * e) = 1) by (unfold e; field; lra).
  exists (fun t d => match d with 2%nat => ratchet_x t | _ => ratchet_u e t end). intros st Hst. exists (INR n * (2 * e)), (INR (S n) * (2 * e)).
  split; [apply ratchet_history; [exact He|nra|exact Hst]|]. split; [apply ratchet_history; [exact He|rewrite S_INR; nra|exact Hst]|]. rewrite S_INR. nra.
Qed.
