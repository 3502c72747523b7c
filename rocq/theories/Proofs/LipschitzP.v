(** Elements as force laws: samples, displacements, Lipschitz continuity. *)
From Coq Require Import Reals List Arith Bool ZArith Lia Lra Psatz FunctionalExtensionality.
From Verif.Lib Require Import RSum Calc LinAlg Py.
From Verif.Spec Require Import Calculus Harmonic Elements System Galerkin Periodic.
From Verif.Model Require Import Harmonic LocalForces Aft VibSys SysElements.
From Verif.Proofs Require Import HarmonicP VibSysP AftP ElementsP GalerkinP GronwallP ShootMotionP.
Import ListNotations.
Open Scope R_scope.

(** ---- functions that are Lipschitz on bounded sets ---- *)
Definition dist1 (N : nat) (u u' : vec) : R := rsum N (fun j => Rabs (u j - u' j)).
Definition within (N : nat) (B : R) (u : vec) : Prop := forall j, (j < N)%nat -> Rabs (u j) <= B.
Definition lip (N : nat) (F : vec -> R) : Prop :=
  forall B, exists L, 0 <= L /\ forall u u', within N B u -> within N B u' -> Rabs (F u - F u') <= L * dist1 N u u'.
Lemma dist1_nonneg N u u' : 0 <= dist1 N u u'.
Proof. apply rsum_nonneg. intros. apply Rabs_pos. Qed.
Lemma lip_const N c : lip N (fun _ => c).
Proof. intros B. exists 0. split; [lra|]. intros. rewrite Rminus_diag_eq, Rabs_R0 by reflexivity. pose proof (dist1_nonneg N u u'). lra. Qed.
Lemma lip_coord N j : (j < N)%nat -> lip N (fun u => u j).
Proof. intros Hj B. exists 1. split; [lra|]. intros. rewrite Rmult_1_l. unfold dist1. apply (rsum_term N (fun j => Rabs (u j - u' j)) j Hj). intros. apply Rabs_pos. Qed.
Lemma lip_plus N F G : lip N F -> lip N G -> lip N (fun u => F u + G u).
Proof.
  intros HF HG B. destruct (HF B) as (L & P & H). destruct (HG B) as (L' & P' & H'). exists (L + L'). split; [lra|]. intros u u' Hu Hu'.
  specialize (H u u' Hu Hu'). specialize (H' u u' Hu Hu'). replace (F u + G u - (F u' + G u')) with ((F u - F u') + (G u - G u')) by ring.
  pose proof (Rabs_triang (F u - F u') (G u - G u')). lra.
Qed.
Lemma lip_bounded N F : lip N F -> forall B, exists b, 0 <= b /\ forall u, within N B u -> Rabs (F u) <= b.
Proof.
  intros H B. destruct (Rle_dec 0 B) as [HB|HB].
  - destruct (H B) as (L & P & HL). exists (Rabs (F vzero) + L * (INR N * B)). split; [pose proof (Rabs_pos (F vzero)); pose proof (pos_INR N); assert (0 <= INR N * B) by nra; nra|]. intros u Hu.
    assert (D : dist1 N u vzero <= INR N * B).
    { unfold dist1. rewrite <- rsum_const. apply rsum_le. intros j Hj. unfold vzero. rewrite Rminus_0_r. apply Hu. exact Hj. }
    specialize (HL u vzero Hu ltac:(intros j Hj; unfold vzero; rewrite Rabs_R0; exact HB)).
    replace (F u) with ((F u - F vzero) + F vzero) by ring. pose proof (Rabs_triang (F u - F vzero) (F vzero)).
    assert (L * dist1 N u vzero <= L * (INR N * B)) by (apply Rmult_le_compat_l; assumption). lra.
  - destruct N as [|N].
    + destruct (H 0) as (L & P & HL). exists (Rabs (F vzero)). split; [apply Rabs_pos|]. intros u _. specialize (HL u vzero ltac:(intros j Hj; lia) ltac:(intros j Hj; lia)).
      replace (F u) with ((F u - F vzero) + F vzero) by ring. pose proof (Rabs_triang (F u - F vzero) (F vzero)).
      assert (E0 : dist1 0 u vzero = 0) by reflexivity. rewrite E0 in HL. lra.
    + exists 0. split; [lra|]. intros u Hu. exfalso. pose proof (Hu O ltac:(lia)). pose proof (Rabs_pos (u O)). lra.
Qed.
Lemma lip_mult N F G : lip N F -> lip N G -> lip N (fun u => F u * G u).
Proof.
  intros HF HG B. destruct (HF B) as (L & P & H). destruct (HG B) as (L' & P' & H').
  destruct (lip_bounded N F HF B) as (b & Pb & Hb). destruct (lip_bounded N G HG B) as (b' & Pb' & Hb').
  exists (L * b' + b * L'). split; [nra|]. intros u u' Hu Hu'. specialize (H u u' Hu Hu'). specialize (H' u u' Hu Hu'). specialize (Hb u' Hu'). specialize (Hb' u Hu).
  replace (F u * G u - F u' * G u') with ((F u - F u') * G u + F u' * (G u - G u')) by ring.
  pose proof (Rabs_triang ((F u - F u') * G u) (F u' * (G u - G u'))) as T. rewrite !Rabs_mult in T. pose proof (dist1_nonneg N u u').
  assert (Rabs (F u - F u') * Rabs (G u) <= L * dist1 N u u' * b') by (apply Rmult_le_compat; try apply Rabs_pos; assumption).
  assert (Rabs (F u') * Rabs (G u - G u') <= b * (L' * dist1 N u u')) by (apply Rmult_le_compat; try apply Rabs_pos; assumption). lra.
Qed.
Lemma lip_rsum N n (F : nat -> vec -> R) : (forall d, (d < n)%nat -> lip N (F d)) -> lip N (fun u => rsum n (fun d => F d u)).
Proof.
  induction n as [|n IH]; intros H.
  - apply (lip_const N 0).
  - intros B. destruct (lip_plus N _ _ (IH ltac:(intros; apply H; lia)) (H n ltac:(lia)) B) as (L & P & HL). exists L. split; [exact P|]. intros u u' Hu Hu'. rewrite !rsum_S. apply HL; assumption.
Qed.
Lemma lip_ext N F G : (forall u, F u = G u) -> lip N F -> lip N G.
Proof. intros E H B. destruct (H B) as (L & P & HL). exists L. split; [exact P|]. intros. rewrite <- !E. apply HL; assumption. Qed.
Lemma lip_pow N F n : lip N F -> lip N (fun u => F u ^ n).
Proof. intros H. induction n as [|n IH]; [apply (lip_const N 1)|]. apply (lip_mult N F (fun u => F u ^ n) H IH). Qed.
Lemma lip_row N (Q : mat) d : lip N (fun u => rsum N (fun j => Q d j * u j)).
Proof. apply lip_rsum. intros j Hj. apply (lip_mult N (fun _ => Q d j) (fun u => u j)); [apply lip_const|apply lip_coord; exact Hj]. Qed.
Lemma lip_comp N F (phi : R -> R) L : 0 <= L -> (forall x x', Rabs (phi x - phi x') <= L * Rabs (x - x')) -> lip N F -> lip N (fun u => phi (F u)).
Proof.
  intros HL Hp H B. destruct (H B) as (L' & P & HF). exists (L * L'). split; [nra|]. intros u u' Hu Hu'. specialize (HF u u' Hu Hu'). eapply Rle_trans; [apply Hp|].
  rewrite Rmult_assoc. apply Rmult_le_compat_l; assumption.
Qed.
Lemma lip_rprod N n (F : nat -> vec -> R) : (forall d, (d < n)%nat -> lip N (F d)) -> lip N (fun u => rprod n (fun d => F d u)).
Proof.
  induction n as [|n IH]; intros H; [apply (lip_const N 1)|].
  apply (lip_mult N (fun u => rprod n (fun d => F d u)) (F n)); [apply IH; intros; apply H; lia|apply H; lia].
Qed.

Lemma lip_uniform N (F : nat -> vec -> R) : forall n, (forall i, (i < n)%nat -> lip N (F i)) ->
  forall B, exists L, 0 <= L /\ forall u u' i, (i < n)%nat -> within N B u -> within N B u' -> Rabs (F i u - F i u') <= L * dist1 N u u'.
Proof.
  induction n as [|n IH]; intros H B.
  - exists 0. split; [lra|]. intros. lia.
  - destruct (IH ltac:(intros; apply H; lia) B) as (L & P & HL). destruct (H n ltac:(lia) B) as (L' & P' & HL'). exists (L + L'). split; [lra|]. intros u u' i Hi Hu Hu'.
    pose proof (dist1_nonneg N u u'). destruct (Nat.eq_dec i n) as [->|Ne]; [specialize (HL' u u' Hu Hu'); nra|specialize (HL u u' i ltac:(lia) Hu Hu'); nra].
Qed.
Lemma lipschitz_of N law : (forall u v v' i, (i < N)%nat -> law u v i = law u v' i) -> (forall i, (i < N)%nat -> lip N (fun u => law u vzero i)) -> lipschitz_law N law.
Proof.
  intros E H B. destruct (lip_uniform N (fun i u => law u vzero i) N H B) as (L & P & HL). exists L. intros u u' v v' Hu Hu' i Hi.
  rewrite (E u v vzero i Hi), (E u' v' vzero i Hi). apply HL; assumption.
Qed.
Lemma lipschitz_local_forces N nnl Q T (phi : nat -> R -> R) : (forall d, (d < nnl)%nat -> lip N (fun u => phi d (rsum N (fun j => Q d j * u j)))) ->
  lipschitz_law N (local_forces N nnl Q T (fun d u _ => phi d u)).
Proof.
  intros H. apply lipschitz_of; [reflexivity|]. intros i Hi. unfold local_forces. apply lip_rsum. intros d Hd.
  apply (lip_mult N (fun _ => T i d) (fun u => phi d (rsum N (fun j => Q d j * u j)))); [apply lip_const|apply H; exact Hd].
Qed.

Lemma iwan_lipschitz kt Fs chi beta : 0 < kt -> 0 < Fs -> -1 < chi -> 0 <= beta -> forall x x', Rabs (iwan_backbone kt Fs chi beta x - iwan_backbone kt Fs chi beta x') <= kt * Rabs (x - x').
Proof.
  intros H1 H2 H3 H4.
  assert (G : forall a b, - macroslip kt Fs chi beta <= a -> a <= b -> b <= macroslip kt Fs chi beta -> ElementsP.g kt Fs chi beta b - ElementsP.g kt Fs chi beta a <= kt * (b - a)).
  { intros a b Ha [Hab|<-] Hb; [|lra]. destruct (MVT_cor2 (ElementsP.g kt Fs chi beta) (dg kt Fs chi beta) a b Hab) as [c [E Hc]].
    - intros c _. apply dlim_g; assumption.
    - assert (dg kt Fs chi beta c <= kt).
      { unfold dg. pose proof (K_pos kt chi beta H1 H3 H4). pose proof (P_nonneg kt Fs chi beta (Rabs c)).
        match goal with |- kt - ?a * ?k * ?p <= _ => assert (0 <= a * k * p) by (apply Rmult_le_pos; [apply Rmult_le_pos; lra|assumption]) end. lra. }
      nra. }
  assert (Ord : forall x x', x' <= x -> Rabs (iwan_backbone kt Fs chi beta x - iwan_backbone kt Fs chi beta x') <= kt * Rabs (x - x')).
  { intros x x' Hx. pose proof (iwan_mono kt Fs chi beta H1 H2 H3 H4 x' x Hx). rewrite !Rabs_right by lra. rewrite !backbone_clamp by assumption.
    pose proof (ElementsP.clamp_mono kt Fs chi beta x' x Hx) as C.
    pose proof (ElementsP.clamp_range kt Fs chi beta H1 H2 H3 H4 x). pose proof (ElementsP.clamp_range kt Fs chi beta H1 H2 H3 H4 x').
    eapply Rle_trans; [apply G; lra|]. apply Rmult_le_compat_l; [lra|].
    pose proof (phi_pos kt Fs chi beta H1 H2 H3 H4). unfold ElementsP.clamp, Rmax, Rmin. repeat destruct Rle_dec; lra. }
  intros x x'. destruct (Rle_dec x' x); [apply Ord; assumption|]. rewrite Rabs_minus_sym, (Rabs_minus_sym x). apply Ord. lra.
Qed.

(** ---- elements ---- *)
Lemma local_forces_local N nnl Q T f : law_of N (local_forces N nnl Q T f).
Proof.
  intros u u' v v' Hu Hv i Hi. unfold local_forces. apply rsum_ext. intros d Hd. f_equal. f_equal; apply rsum_ext; intros j Hj; [rewrite Hu|rewrite Hv]; auto.
Qed.
Lemma harmonic_local N nnl Q T f h Nt reg nf : aft_is_exact (fun U w => nl_aft nf U w h Nt) N nnl Q T f h Nt reg -> harmonic_law N h Nt nf (local_forces N nnl Q T f).
Proof.
  intros (F & dU & dw & A & B & _). split; [apply local_forces_local|]. intros U w v Hv. exists (F U w), (dU U w), (dw U w). split; [apply A|]. intros c i Hc Hi.
  rewrite (B U w (fun d tau => rsum N (fun j => Q d j * v j tau)) ltac:(intros d tau; apply local_phase; exact Hv) c i Hc Hi).
  unfold fourier_coef. f_equal. apply rsum_ext. intros n Hn. f_equal. unfold local_forces. apply rsum_ext. intros d Hd. f_equal. f_equal.
  rewrite <- rsum_scal_l. apply rsum_ext. intros. ring.
Qed.

Section Elements.
  Variables (N nnl : nat) (Q T : mat) (h : list nat) (Nt : nat).
  Hypothesis Ha : admissible h.
  Hypothesis HN : (2 * list_max h + 1 < Nt)%nat.
  Hypothesis Hev : Nat.even Nt = true.

  Lemma cubic_law k : spring_law N h Nt (cubic_nl N nnl Q T k) (local_forces N nnl Q T (fun d u _ => k d * u ^ 3)).
  Proof.
    split; [|split].
    - eapply harmonic_local. apply (aft_cubic N nnl Q T h Nt Ha HN Hev k).
    - split; [reflexivity|]. intros u. eexists _, _. split; [reflexivity|]. intros v i Hi. reflexivity.
    - apply lipschitz_local_forces. intros d Hd. apply (lip_mult N (fun _ => k d)); [apply lip_const|]. apply lip_pow. apply lip_row.
  Qed.
  Lemma quintic_law k : spring_law N h Nt (quintic_nl N nnl Q T k) (local_forces N nnl Q T (fun d u _ => k d * u ^ 5)).
  Proof.
    split; [|split].
    - eapply harmonic_local. apply (aft_quintic N nnl Q T h Nt Ha HN Hev k).
    - split; [reflexivity|]. intros u. eexists _, _. split; [reflexivity|]. intros v i Hi. reflexivity.
    - apply lipschitz_local_forces. intros d Hd. apply (lip_mult N (fun _ => k d)); [apply lip_const|]. apply lip_pow. apply lip_row.
  Qed.
  Lemma unilateral_spring_law k Np delta : (forall d, (d < nnl)%nat -> 0 <= k d) ->
    spring_law N h Nt (unilateral_nl N nnl Q T k Np delta) (local_forces N nnl Q T (fun d u _ => unilateral_law (k d) (Np d) (delta d) u)).
  Proof.
    intros Hk. split; [|split].
    - eapply harmonic_local. apply (aft_unilateral N nnl Q T h Nt Ha HN Hev k Np delta Hk).
    - split; [reflexivity|]. intros u. eexists _, _. split; [reflexivity|]. intros v i Hi. apply unilateral_force_value. exact Hk.
    - apply (lipschitz_local_forces N nnl Q T (fun d u => unilateral_law (k d) (Np d) (delta d) u)). intros d Hd.
      apply (lip_comp N (fun u => rsum N (fun j => Q d j * u j)) (unilateral_law (k d) (Np d) (delta d)) (k d) (Hk d Hd)); [intros; apply unilateral_lipschitz; apply Hk; exact Hd|apply lip_row].
  Qed.
  Lemma iwan_law kt Fs chi beta : 0 < kt -> 0 < Fs -> -1 < chi -> 0 <= beta ->
    spring_law N h Nt (iwan_nl N nnl Q T kt Fs chi beta) (local_forces N nnl Q T (fun _ u _ => iwan_backbone kt Fs chi beta u)).
  Proof.
    intros H1 H2 H3 H4. split; [|split].
    - eapply harmonic_local. apply (aft_iwan N nnl Q T h Nt Ha HN Hev kt Fs chi beta H1 H2 H3 H4).
    - split; [reflexivity|]. intros u. eexists _, _. split; [reflexivity|]. intros v i Hi. apply iwan_force_value; assumption.
    - apply (lipschitz_local_forces N nnl Q T (fun _ u => iwan_backbone kt Fs chi beta u)). intros d Hd.
      apply (lip_comp N (fun u => rsum N (fun j => Q d j * u j)) (iwan_backbone kt Fs chi beta) kt ltac:(lra)); [apply iwan_lipschitz; assumption|apply lip_row].
  Qed.
  Lemma poly_law cnl E qq : spring_law N h Nt (poly_nl N nnl cnl Q T E qq) (poly_forces N nnl cnl Q T E qq).
  Proof.
    split; [|split].
    - split.
      + intros u u' v v' Hu Hv i Hi. unfold poly_forces. apply rsum_ext. intros d Hd. f_equal. apply rsum_ext. intros p Hp. f_equal. rewrite !monomial_rprod.
        apply rprod_ext. intros e He. f_equal. apply rsum_ext. intros j Hj. rewrite Hu by exact Hj. reflexivity.
      + intros U w v Hv. destruct (aft_poly N nnl Q T h Nt Ha HN Hev cnl E qq) as (F & dU & A & B & _). exists (F U), (dU U), (fun _ => 0). split; [apply A|].
        intros c i Hc Hi. rewrite (B U c i Hc Hi). reflexivity.
    - split; [reflexivity|]. intros u. eexists _, _. split; [reflexivity|]. intros v i Hi. apply poly_force_value.
    - apply lipschitz_of; [reflexivity|]. intros i Hi. unfold poly_forces. apply lip_rsum. intros d Hd. apply (lip_mult N (fun _ => T i d)); [apply lip_const|].
      apply lip_rsum. intros p Hp. apply (lip_mult N (fun _ => E d p)); [apply lip_const|].
      eapply lip_ext; [intros u; symmetry; apply monomial_rprod|]. apply lip_rprod. intros e He. apply lip_pow. apply lip_row.
  Qed.
  Lemma damping_law c : harmonic_law N h Nt (damping_nl N nnl Q T c) (local_forces N nnl Q T (fun d _ v => c d * v ^ 3)).
  Proof. eapply harmonic_local. apply (aft_damping N nnl Q T h Nt Ha HN Hev c). Qed.
End Elements.
