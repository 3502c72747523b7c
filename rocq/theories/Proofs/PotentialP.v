(** Residuals of conservative systems are gradients. *)
From Coq Require Import Reals Lra Lia Arith List Bool FunctionalExtensionality.
From Verif.Lib Require Import RSum Calc Py.
From Verif.Spec Require Import Calculus Harmonic Elements System Galerkin Energy StaticHistory Potential.
From Verif.Model Require Import Harmonic LocalForces Aft VibSys SysElements.
From Verif.Proofs Require Import HarmonicP FourierP HarmonicOpsP AftP ElementsP VibSysP EnergyP.
Import ListNotations.
Open Scope R_scope.

(** * Energies of the elements *)
Lemma potential_ext nnl f g V W : (forall q d, (d < nnl)%nat -> f q d = g q d) -> (forall q, V q = W q) -> potential_of nnl f V -> potential_of nnl g W.
Proof.
  intros Hf HV [L D]. split.
  - intros q q' E. rewrite <- !HV. apply L. exact E.
  - intros q dq t H. eapply dlim_ext; [intros s; apply HV|]. eapply dlim_eq; [apply (D q dq t H)|]. apply rsum_ext. intros d Hd. rewrite Hf by exact Hd. reflexivity.
Qed.

Lemma potential_separate nnl (g W : nat -> R -> R) : (forall d u, (d < nnl)%nat -> derivable_pt_lim (W d) u (g d u)) ->
  potential_of nnl (fun q d => g d (q d)) (fun q => rsum nnl (fun d => W d (q d))).
Proof.
  intros H. split.
  - intros q q' E. apply rsum_ext. intros d Hd. rewrite E by exact Hd. reflexivity.
  - intros q dq t Hq. apply (dlim_rsum nnl (fun d t => W d (q d t)) t (fun d => g d (q d t) * dq d t)). intros d Hd.
    apply (dlim_comp (q d) (W d) t (dq d t) (g d (q d t))); [apply Hq|apply H]; exact Hd.
Qed.

Lemma ramp_square x : derivable_pt_lim (fun u => Rmax u 0 ^ 2 / 2) x (Rmax x 0).
Proof.
  destruct (Rtotal_order x 0) as [L|[->|G]].
  - apply dlim_ext_loc with (fun _ => 0); [exists (- x); split; [lra|]|rewrite Rmax_right by lra; apply dlim_const].
    intros t Ht. apply Rabs_def2 in Ht. rewrite Rmax_right by lra. lra.
  - rewrite Rmax_left by lra. intros eps He. exists (mkposreal eps He). cbn [pos]. intros t Hne Ht. rewrite Rplus_0_l, (Rmax_left 0 0) by lra.
    destruct (Rle_dec 0 t) as [P|P].
    + rewrite Rmax_left by lra. replace ((t ^ 2 / 2 - 0 ^ 2 / 2) / t - 0) with (t / 2) by (field; exact Hne). rewrite Rabs_right in * by lra. lra.
    + rewrite Rmax_right by lra. replace ((0 ^ 2 / 2 - 0 ^ 2 / 2) / t - 0) with 0 by (field; exact Hne). rewrite Rabs_R0. exact He.
  - apply dlim_ext_loc with (fun u => u ^ 2 / 2); [exists x; split; [lra|]|].
    + intros t Ht. apply Rabs_def2 in Ht. rewrite Rmax_left by lra. reflexivity.
    + rewrite Rmax_left by lra. apply dlim_ext with (fun u => / 2 * u ^ 2); [intros; field|]. eapply dlim_eq; [apply dlim_scal; apply derivable_pt_lim_pow|]. cbn. field.
Qed.

Lemma unilateral_energy k Np delta u : derivable_pt_lim (fun u => k / 2 * Rmax (u - delta) 0 ^ 2 - Np * u) u (unilateral_law k Np delta u).
Proof.
  apply dlim_eq with (k * (Rmax (u - delta) 0 * 1) - Np * 1).
  - apply dlim_minus; [|apply dlim_scal; apply dlim_id]. apply dlim_ext with (fun u => k * (Rmax (u - delta) 0 ^ 2 / 2)); [intros; field|]. apply dlim_scal.
    apply (dlim_comp (fun u => u - delta) (fun x => Rmax x 0 ^ 2 / 2)); [|apply ramp_square]. eapply dlim_eq; [apply dlim_minus; [apply dlim_id|apply dlim_const]|cbv beta; ring].
  - unfold unilateral_law. destruct (Rle_dec u delta); [rewrite Rmax_right by lra|rewrite Rmax_left by lra]; ring.
Qed.

(** a primitive of a continuous function that is constant outside [a, b] *)
Lemma primitive_exists (f : R -> R) a b : a < b -> (forall x, continuity_pt f x) -> (forall x, x <= a -> f x = f a) -> (forall x, b <= x -> f x = f b) ->
  exists W, forall x, derivable_pt_lim W x (f x).
Proof.
  intros Hab C La Lb. assert (h : a <= b) by lra. assert (C0 : forall x, a <= x <= b -> continuity_pt f x) by (intros; apply C).
  exists (primitive h (FTC_P1 h C0)). intros x. destruct (Rlt_dec x a) as [L|L]; [|destruct (Rlt_dec b x) as [G|G]].
  - rewrite La by lra. apply dlim_ext_loc with (fun t => f a * (t - a)); [exists (a - x); split; [lra|]|].
    + intros t Ht. apply Rabs_def2 in Ht. unfold primitive. destruct (Rle_dec a t); [exfalso; lra|reflexivity].
    + eapply dlim_eq; [apply dlim_scal; apply dlim_minus; [apply dlim_id|apply dlim_const]|cbv beta; ring].
  - rewrite Lb by lra. apply dlim_ext_loc with (fun t => f b * (t - b) + RiemannInt (FTC_P1 h C0 h (Rle_refl b))); [exists (x - b); split; [lra|]|].
    + intros t Ht. apply Rabs_def2 in Ht. unfold primitive. destruct (Rle_dec a t); [|exfalso; lra]. destruct (Rle_dec t b); [exfalso; lra|reflexivity].
    + eapply dlim_eq; [apply dlim_plus; [apply dlim_scal; apply dlim_minus; [apply dlim_id|apply dlim_const]|apply dlim_const]|ring].
  - apply RiemannInt_P28. lra.
Qed.

Lemma macroslip_pos kt Fs chi beta : 0 < kt -> 0 < Fs -> -1 < chi -> 0 <= beta -> 0 < macroslip kt Fs chi beta.
Proof.
  intros. unfold macroslip. assert (0 < (chi + 1) / (chi + 2)) by (apply Rdiv_lt_0_compat; lra). apply Rdiv_lt_0_compat; [nra|]. apply Rmult_lt_0_compat; lra.
Qed.

Lemma iwan_energy kt Fs chi beta : 0 < kt -> 0 < Fs -> -1 < chi -> 0 <= beta -> exists W, forall u, derivable_pt_lim W u (iwan_backbone kt Fs chi beta u).
Proof.
  intros H1 H2 H3 H4. pose proof (macroslip_pos kt Fs chi beta H1 H2 H3 H4) as P.
  apply (primitive_exists _ (- macroslip kt Fs chi beta) (macroslip kt Fs chi beta)); [lra| | |].
  - intros x. apply iwan_continuous; assumption.
  - intros x Hx. pose proof (iwan_odd kt Fs chi beta (- x)) as A. rewrite Ropp_involutive in A. rewrite A, (iwan_odd kt Fs chi beta (macroslip kt Fs chi beta)). rewrite !iwan_macro by (assumption || lra). reflexivity.
  - intros x Hx. rewrite !iwan_macro by (assumption || lra). reflexivity.
Qed.

(** * What a spring is made of *)
Definition spring_facts (N : nat) (f : nlforce) (Q : mat) (V : vec -> R) (nnl : nat) (T : mat) (phi : vec -> vec) : Prop :=
  acts_on_its_displacements N nnl Q T /\ potential_of nnl phi V /\
  (forall U, exists F J, nl_force f U = Ok (F, J) /\ forall i, F i = rsum nnl (fun d => T i d * phi (local_at N Q U) d)) /\
  (forall h Nt, admissible h -> (2 * list_max h + 1 < Nt)%nat -> Nat.even Nt = true -> forall U w, exists F dU dw, nl_aft f U w h Nt = Ok (F, dU, dw) /\
     forall c i, (c < length (components h))%nat -> (i < N)%nat ->
       F (c * N + i)%nat = fourier_coef Nt (fun n => rsum nnl (fun d => T i d * phi (fun d => local_motion N Q h U d (sample_phase Nt n)) d)) (nth c (components h) (Cos O))).

Lemma inst_facts N nnl Q T h Nt law (g : nat -> R -> R) reg : aft_is_exact (fun U w => aft_instantaneous N nnl Q T law U w h Nt) N nnl Q T (fun d u _ => g d u) h Nt reg ->
  forall U w, exists F dU dw, aft_instantaneous N nnl Q T law U w h Nt = Ok (F, dU, dw) /\ forall c i, (c < length (components h))%nat -> (i < N)%nat ->
       F (c * N + i)%nat = fourier_coef Nt (fun n => rsum nnl (fun d => T i d * g d (local_motion N Q h U d (sample_phase Nt n)))) (nth c (components h) (Cos O)).
Proof.
  intros (F & dU & dw & E & V & _) U w. exists (F U w), (dU U w), (dw U w). split; [apply E|]. intros c i Hc Hi.
  apply (V U w (fun d tau => dseries h (fun c => aft_Unl N Q U c d) tau)); [|exact Hc|exact Hi]. intros d tau. apply local_motion_deriv.
Qed.

Lemma pair_ok (o : vec * mat) (P : vec -> Prop) : P (fst o) -> exists F J, Ok o = Ok (F, J) /\ P F.
Proof. intros H. exists (fst o), (snd o). split; [rewrite <- surjective_pairing; reflexivity|exact H]. Qed.

Lemma spring_has_facts N f Q V : spring N f Q V -> exists nnl T phi, spring_facts N f Q V nnl T phi.
Proof.
  intros [(nnl & T & HT & H)|(nnl & T & cnl & E & qq & HT & -> & HV)].
  - destruct H as [(k & -> & HV)|[(k & -> & HV)|[(k & Np & delta & Hk & -> & HV)|(kt & Fs & chi & beta & W & H1 & H2 & H3 & H4 & -> & HW & HV)]]].
    + exists nnl, T, (fun q d => k d * q d ^ 3). split; [exact HT|]. split.
      { eapply potential_ext; [reflexivity|intros q; symmetry; apply HV|]. apply (potential_separate nnl (fun d u => k d * u ^ 3) (fun d u => k d / 4 * u ^ 4)).
        intros d u _. eapply dlim_eq; [apply dlim_scal; apply derivable_pt_lim_pow|]. cbn [INR pred]. field. }
      split; [intros U; apply pair_ok; intros i; apply cubic_force_value|].
      intros h Nt Ha HN He. apply (inst_facts N nnl Q T h Nt _ (fun d u => k d * u ^ 3) _ (aft_cubic N nnl Q T h Nt Ha HN He k)).
    + exists nnl, T, (fun q d => k d * q d ^ 5). split; [exact HT|]. split.
      { eapply potential_ext; [reflexivity|intros q; symmetry; apply HV|]. apply (potential_separate nnl (fun d u => k d * u ^ 5) (fun d u => k d / 6 * u ^ 6)).
        intros d u _. eapply dlim_eq; [apply dlim_scal; apply derivable_pt_lim_pow|]. cbn [INR pred]. field. }
      split; [intros U; apply pair_ok; intros i; apply quintic_force_value|].
      intros h Nt Ha HN He. apply (inst_facts N nnl Q T h Nt _ (fun d u => k d * u ^ 5) _ (aft_quintic N nnl Q T h Nt Ha HN He k)).
    + exists nnl, T, (fun q d => unilateral_law (k d) (Np d) (delta d) (q d)). split; [exact HT|]. split.
      { eapply potential_ext; [reflexivity|intros q; symmetry; apply HV|].
        apply (potential_separate nnl (fun d u => unilateral_law (k d) (Np d) (delta d) u) (fun d u => k d / 2 * Rmax (u - delta d) 0 ^ 2 - Np d * u)). intros d u _. apply unilateral_energy. }
      split; [intros U; apply pair_ok; intros i; apply unilateral_force_value; exact Hk|].
      intros h Nt Ha HN He. apply (inst_facts N nnl Q T h Nt _ (fun d u => unilateral_law (k d) (Np d) (delta d) u) _ (aft_unilateral N nnl Q T h Nt Ha HN He k Np delta Hk)).
    + exists nnl, T, (fun q d => iwan_backbone kt Fs chi beta (q d)). split; [exact HT|]. split.
      { eapply potential_ext; [reflexivity|intros q; symmetry; apply HV|]. apply (potential_separate nnl (fun d u => iwan_backbone kt Fs chi beta u) (fun d u => W u)). intros d u _. apply HW. }
      split; [intros U; apply pair_ok; intros i; apply iwan_force_value; assumption|].
      intros h Nt Ha HN He. apply (inst_facts N nnl Q T h Nt _ (fun d u => iwan_backbone kt Fs chi beta u) _ (aft_iwan N nnl Q T h Nt Ha HN He kt Fs chi beta H1 H2 H3 H4)).
  - exists nnl, T, (fun q d => rsum cnl (fun p => E d p * monomial nnl (qq p) q)). split; [exact HT|]. split; [exact HV|]. split.
    { intros U; apply pair_ok; intros i; apply poly_force_value. }
    intros h Nt Ha HN He U w. destruct (aft_poly N nnl Q T h Nt Ha HN He cnl E qq) as (F & dU & E1 & E2 & _). exists (F U), (dU U), (fun _ => 0). split; [apply E1|]. intros c i Hc Hi. apply E2; assumption.
Qed.

(** * Gradients *)
Lemma gradient_plus n f g X F G : is_gradient n f X F -> is_gradient n g X G -> is_gradient n (fun x => f x + g x) X (fun j => F j + G j).
Proof.
  intros Hf Hg c v t H1 H2. eapply dlim_eq; [apply dlim_plus; [apply (Hf c v t H1 H2)|apply (Hg c v t H1 H2)]|]. rewrite <- rsum_plus. apply rsum_ext. intros; ring.
Qed.
Lemma gradient_minus n f g X F G : is_gradient n f X F -> is_gradient n g X G -> is_gradient n (fun x => f x - g x) X (fun j => F j - G j).
Proof.
  intros Hf Hg c v t H1 H2. eapply dlim_eq; [apply dlim_minus; [apply (Hf c v t H1 H2)|apply (Hg c v t H1 H2)]|]. rewrite <- rsum_minus. apply rsum_ext. intros; ring.
Qed.
Lemma gradient_eq n f X F G : is_gradient n f X F -> (forall j, (j < n)%nat -> F j = G j) -> is_gradient n f X G.
Proof. intros H E c v t H1 H2. eapply dlim_eq; [apply (H c v t H1 H2)|]. apply rsum_ext. intros j Hj. rewrite E by exact Hj. reflexivity. Qed.

Lemma gradient_quadratic N A X : symmetric_matrix N A -> is_gradient N (fun x => quadratic N A x / 2) X (fun i => rsum N (fun j => A i j * X j)).
Proof.
  intros HA g v t H1 H2. unfold quadratic. apply dlim_ext with (fun s => / 2 * rsum N (fun i => g s i * rsum N (fun j => A i j * g s j))); [intros; field|].
  eapply dlim_eq; [apply (quadratic_derivative N A (fun i s => g s i) (fun i _ => v i) t HA H2)|]. apply rsum_ext. intros i Hi. f_equal. apply rsum_ext. intros j Hj. rewrite H1 by exact Hj. reflexivity.
Qed.
Lemma gradient_linear N F X : is_gradient N (fun x => rsum N (fun i => F i * x i)) X F.
Proof. intros g v t H1 H2. apply (dlim_rsum N (fun i s => F i * g s i) t (fun i => F i * v i)). intros i Hi. apply dlim_scal. apply H2. exact Hi. Qed.

Lemma local_at_ext N Q x y : (forall j, (j < N)%nat -> x j = y j) -> local_at N Q x = local_at N Q y.
Proof. intros H. apply functional_extensionality. intros d. unfold local_at. apply rsum_ext. intros j Hj. rewrite H by exact Hj. reflexivity. Qed.

Lemma gradient_local N nnl Q T phi V X : acts_on_its_displacements N nnl Q T -> potential_of nnl phi V ->
  is_gradient N (fun x => V (local_at N Q x)) X (fun i => rsum nnl (fun d => T i d * phi (local_at N Q X) d)).
Proof.
  intros HT [_ D] g v t H1 H2. eapply dlim_eq.
  - apply (D (fun d s => local_at N Q (g s) d) (fun d _ => local_at N Q v d) t). intros d Hd. unfold local_at.
    apply (dlim_rsum N (fun j s => Q d j * g s j) t (fun j => Q d j * v j)). intros j Hj. apply dlim_scal. apply H2. exact Hj.
  - change (fun e => local_at N Q (g t) e) with (local_at N Q (g t)). rewrite (local_at_ext N Q (g t) X H1).
    rewrite (rsum_ext nnl _ (fun d => rsum N (fun i => phi (local_at N Q X) d * (Q d i * v i)))) by (intros; unfold local_at at 2; rewrite rsum_scal_l; reflexivity).
    rewrite rsum_swap. apply rsum_ext. intros i Hi. rewrite <- rsum_scal_r. apply rsum_ext. intros d Hd. rewrite (HT i d Hi Hd). ring.
Qed.


(** one force law per spring *)
Definition law_force N (x : vec) (pl : mat * (vec -> R) * (nat * mat * (vec -> vec))) (i : nat) : R :=
  rsum (fst (fst (snd pl))) (fun d => snd (fst (snd pl)) i d * snd (snd pl) (local_at N (fst (fst pl)) x) d).

Inductive laws (N : nat) : list nlforce -> list (mat * (vec -> R)) -> list (nat * mat * (vec -> vec)) -> Prop :=
| laws_nil : laws N [] [] []
| laws_cons f p l fs ps ls : spring_facts N f (fst p) (snd p) (fst (fst l)) (snd (fst l)) (snd l) -> laws N fs ps ls -> laws N (f :: fs) (p :: ps) (l :: ls).

Lemma springs_have_laws N fs ps : springs N fs ps -> exists ls, laws N fs ps ls.
Proof.
  intros H. induction H as [|f p fs ps Hs H (ls & IH)]; [exists []; constructor|].
  destruct (spring_has_facts _ _ _ _ Hs) as (nnl & T & phi & F). exists ((nnl, T, phi) :: ls). constructor; assumption.
Qed.

Lemma gradient_energy N fs ps ls X : laws N fs ps ls ->
  is_gradient N (fun x => lsum (fun p => snd p (local_at N (fst p) x)) ps) X (fun i => lsum (fun pl => law_force N X pl i) (combine ps ls)).
Proof.
  intros H. induction H as [|f p l fs ps ls F H IH].
  - intros g v t H1 H2. cbn. eapply dlim_eq; [apply dlim_const|]. symmetry. apply rsum_zero. intros; ring.
  - cbn [combine]. unfold lsum. cbn [map fold_right]. apply gradient_plus; [|exact IH]. destruct F as (A & B & _). apply (gradient_local N _ _ _ _ _ X A B).
Qed.

Lemma gradient_potential N K fs ps ls F X : symmetric_matrix N K -> laws N fs ps ls ->
  is_gradient N (potential_energy N K ps F) X (fun i => rsum N (fun j => K i j * X j) + lsum (fun pl => law_force N X pl i) (combine ps ls) - F i).
Proof.
  intros HK H. unfold potential_energy. apply gradient_minus; [|apply gradient_linear]. apply gradient_plus; [apply gradient_quadratic; exact HK|eapply gradient_energy; exact H].
Qed.

(** * Static residuals *)
Lemma laws_static N fs ps ls U : laws N fs ps ls -> exists outs, Forall2 (fun f o => nl_force f U = Ok o) fs outs /\
  forall i, lsum (fun o => fst o i) outs = lsum (fun pl => law_force N U pl i) (combine ps ls).
Proof.
  intros H. induction H as [|f p l fs ps ls F H (outs & IH & E)]; [exists []; split; [constructor|reflexivity]|].
  destruct F as (_ & _ & S & _). destruct (S U) as (Fv & J & EF & VF). exists ((Fv, J) :: outs). split; [constructor; assumption|].
  intros i. cbn [combine]. unfold lsum. cbn [map fold_right]. f_equal; [apply VF|apply E].
Qed.

Lemma static_gradient s ps Fst U : symmetric_matrix (vs_N s) (vs_K s) -> springs (vs_N s) (vs_forces s) ps ->
  exists Rr J, static_res s U Fst = Ok (Rr, J) /\ is_gradient (vs_N s) (potential_energy (vs_N s) (vs_K s) ps Fst) U Rr.
Proof.
  intros HK H. destruct (springs_have_laws _ _ _ H) as (ls & HL). destruct (laws_static _ _ _ _ U HL) as (outs & HO & E).
  destruct (static_value s U Fst outs HO) as (Rr & J & ER & VR). exists Rr, J. split; [exact ER|]. eapply gradient_eq; [apply (gradient_potential _ _ _ _ ls Fst U HK HL)|].
  intros i Hi. cbv beta. rewrite VR, E. reflexivity.
Qed.

(** * Mean products of series *)
Section Means.
  Variables (h : list nat) (Nt : nat).
  Hypothesis Ha : admissible h.
  Hypothesis HN : (2 * list_max h + 1 < Nt)%nat.
  Let nc := length (components h).
  Let ph := sample_phase Nt.
  Definition cshare (c : nat) : R := match nth c (components h) (Cos O) with Cos O => 1 | _ => / 2 end.

  Lemma INR_Nt : INR Nt <> 0.
  Proof. apply not_0_INR. lia. Qed.

  Lemma mean_basis c x : rsum Nt (fun n => x n * basis h c (ph n)) / INR Nt = cshare c * coefc h Nt x c.
  Proof. unfold cshare, coefc, fourier_coef, basis, ph. pose proof INR_Nt. destruct (nth c (components h) (Cos O)) as [[|k]|k]; field; assumption. Qed.

  Lemma mean_series (A x : vec) : rsum Nt (fun n => x n * series h A (ph n)) / INR Nt = rsum nc (fun c => cshare c * coefc h Nt x c * A c).
  Proof.
    unfold series. rewrite (rsum_ext Nt _ (fun n => rsum nc (fun c => x n * basis h c (ph n) * A c))) by (intros; rewrite <- rsum_scal_l; apply rsum_ext; intros; ring).
    rewrite rsum_swap. unfold Rdiv. rewrite <- rsum_scal_r. apply rsum_ext. intros c Hc. rewrite rsum_scal_r. rewrite <- mean_basis. unfold Rdiv. ring.
  Qed.

  (** derivatives of components are multiples of components *)
  Definition cfac (c : comp) : R := match c with Cos k => - INR k | Sin k => INR k end.
  Definition cdual (c : comp) : comp := match c with Cos k => Sin k | Sin k => Cos k end.
  Lemma dfun_dual c t : comp_dfun c t = cfac c * comp_fun (cdual c) t.
  Proof. destruct c; cbn; ring. Qed.

  Lemma comp_mean c d : comp_ok c -> comp_ok d -> (harm c + harm d < Nt)%nat -> rsum Nt (fun n => comp_fun d (ph n) * comp_fun c (ph n)) / INR Nt =
    (if comp_eq_dec d c then 1 else 0) * match c with Cos O => 1 | _ => / 2 end.
  Proof.
    intros Hc Hd H. pose proof (orthogonal Nt ltac:(lia) c d Hc Hd H) as O. unfold fourier_coef in O. rewrite <- O. unfold ph. pose proof INR_Nt. destruct c as [[|k]|k]; field; assumption.
  Qed.

  Lemma dbasis_mean c d : (c < nc)%nat -> (d < nc)%nat -> rsum Nt (fun n => dbasis h d (ph n) * dbasis h c (ph n)) / INR Nt =
    if Nat.eq_dec c d then cshare c * INR (harm (nth c (components h) (Cos O))) ^ 2 else 0.
  Proof.
    intros Hc Hd. unfold dbasis. set (a := nth c (components h) (Cos O)). set (b := nth d (components h) (Cos O)).
    assert (Ia : In a (components h)) by (apply nth_In; exact Hc). assert (Ib : In b (components h)) by (apply nth_In; exact Hd).
    rewrite (rsum_ext Nt _ (fun n => cfac a * cfac b * (comp_fun (cdual b) (ph n) * comp_fun (cdual a) (ph n)))) by (intros; rewrite !dfun_dual; ring).
    rewrite rsum_scal_l. unfold Rdiv. rewrite (Rmult_assoc (cfac a * cfac b)). fold (rsum Nt (fun n => comp_fun (cdual b) (ph n) * comp_fun (cdual a) (ph n)) / INR Nt).
    destruct (in_components h a Ia) as [_ Ka]. destruct (in_components h b Ib) as [_ Kb]. pose proof (harm_max h a Ia) as Ma. pose proof (harm_max h b Ib) as Mb.
    destruct (Nat.eq_dec (harm a) 0) as [Za|Za].
    { assert (Fa : cfac a = 0) by (destruct a as [k|k]; cbn in *; subst; cbn; ring). rewrite Fa. destruct (Nat.eq_dec c d); [|ring]. rewrite Za. cbn. ring. }
    destruct (Nat.eq_dec (harm b) 0) as [Zb|Zb].
    { assert (Fb : cfac b = 0) by (destruct b as [k|k]; cbn in *; subst; cbn; ring). rewrite Fb. destruct (Nat.eq_dec c d) as [->|]; [|ring]. exfalso. apply Za. exact Zb. }
    unfold Rdiv. fold (rsum Nt (fun n => comp_fun (cdual b) (ph n) * comp_fun (cdual a) (ph n)) / INR Nt).
    rewrite (comp_mean (cdual a) (cdual b)).
    - destruct (Nat.eq_dec c d) as [E|E].
      + assert (Eab : b = a) by (unfold a, b; rewrite E; reflexivity). rewrite Eab. destruct (comp_eq_dec (cdual a) (cdual a)); [|congruence]. unfold cshare. fold a.
        destruct a as [[|k]|[|k]]; cbn [cfac cdual harm] in *; try congruence; ring.
      + destruct (comp_eq_dec (cdual b) (cdual a)) as [E'|E']; [|ring]. exfalso. apply E. apply (proj1 (NoDup_nth (components h) (Cos O)) (NoDup_components h (proj1 (proj2 Ha)))); [exact Hc|exact Hd|].
        fold a b. destruct a, b; cbn in E'; congruence.
    - destruct a as [k|k]; cbn in *; try exact I; lia.
    - destruct b as [k|k]; cbn in *; try exact I; lia.
    - destruct a, b; cbn [cdual harm] in *; lia.
  Qed.

  Lemma mean_dseries (A B : vec) : rsum Nt (fun n => dseries h B (ph n) * dseries h A (ph n)) / INR Nt =
    rsum nc (fun c => cshare c * (INR (harm (nth c (components h) (Cos O))) ^ 2 * B c) * A c).
  Proof.
    unfold dseries. fold nc.
    rewrite (rsum_ext Nt _ (fun n => rsum nc (fun c => rsum nc (fun d => B d * A c * (dbasis h d (ph n) * dbasis h c (ph n)))))).
    2: { intros n _. rewrite <- rsum_scal_l. apply rsum_ext. intros c _. rewrite <- rsum_scal_r. apply rsum_ext. intros; ring. }
    rewrite rsum_swap. unfold Rdiv. rewrite <- rsum_scal_r. apply rsum_ext. intros c Hc. rewrite rsum_swap, <- rsum_scal_r.
    rewrite (rsum_ext nc _ (fun d => B d * A c * (if Nat.eq_dec c d then cshare c * INR (harm (nth c (components h) (Cos O))) ^ 2 else 0))).
    2: { intros d Hd. rewrite rsum_scal_l, Rmult_assoc. f_equal. apply (dbasis_mean c d Hc Hd). }
    rewrite (rsum_single nc c _ Hc).
    - destruct (Nat.eq_dec c c); [ring|congruence].
    - intros d Hd Hne. destruct (Nat.eq_dec c d); [congruence|ring].
  Qed.
End Means.
