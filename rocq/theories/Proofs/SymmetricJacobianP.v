(** The Jacobians of conservative systems are symmetric. *)
From Coq Require Import Reals Lra Lia Arith List Bool.
From Verif.Lib Require Import RSum Calc Py.
From Verif.Spec Require Import Calculus Harmonic Elements System Galerkin Energy StaticHistory Potential.
From Verif.Model Require Import Harmonic LocalForces Aft VibSys SysElements.
From Verif.Proofs Require Import HarmonicP FourierP HarmonicOpsP AftP ElementsP VibSysP CoordinatesP EnergyP PotentialP PotentialHbmP.
Import ListNotations.
Open Scope R_scope.

Definition weighted_symmetric (n : nat) (p : vec) (J : mat) : Prop := forall r s, (r < n)%nat -> (s < n)%nat -> p r * J r s = p s * J s r.

Lemma diagonal_symmetric N nnl Q T a : acts_on_its_displacements N nnl Q T -> symmetric_matrix N (matmul nnl (matmul nnl T (mdiag a)) Q).
Proof.
  intros HT. assert (V : forall i j, (i < N)%nat -> (j < N)%nat -> matmul nnl (matmul nnl T (mdiag a)) Q i j = rsum nnl (fun d => Q d i * a d * Q d j)).
  { intros i j Hi Hj. unfold matmul. apply rsum_ext. intros d Hd. f_equal. rewrite (rsum_single nnl d _ Hd).
    - unfold mdiag. rewrite Nat.eqb_refl, (HT i d Hi Hd). reflexivity.
    - intros e He Hne. unfold mdiag. destruct (Nat.eqb_spec e d); [contradiction|ring]. }
  intros i j Hi Hj. rewrite !V by assumption. apply rsum_ext. intros; ring.
Qed.

Section Inst.
  Variables (N nnl : nat) (Q T : mat) (law : local_law) (h : list nat) (Nt : nat).
  Hypothesis Ha : admissible h.
  Hypothesis HN : (2 * list_max h + 1 < Nt)%nat.
  Hypothesis He : Nat.even Nt = true.
  Hypothesis HT : acts_on_its_displacements N nnl Q T.
  Hypothesis Hv : forall d u v, law_dv law d u v = 0.
  Let nc := length (components h).

  Lemma inst_symmetric U w : exists F dU dw, aft_instantaneous N nnl Q T law U w h Nt = Ok (F, dU, dw) /\ weighted_symmetric (nc * N) (share N h) dU.
  Proof.
    destruct (aft_inst_value N nnl Q T law h Nt Ha HN He U w) as (F & dU & dw & E & _ & D & _). exists F, dU, dw. split; [exact E|].
    intros r s Hr Hs. rewrite !D. set (V := loc N nnl Q h U). fold nc.
    destruct (block_form nc N r Hr) as (c & i & Hc & Hi & ->). destruct (block_form nc N s Hs) as (b & j & Hb & Hj & ->).
    unfold share. destruct (divmod_block N c i Hi) as [-> _]. destruct (divmod_block N b j Hj) as [-> _]. fold (cshare h c) (cshare h b).
    set (L := fun d t => law_du law d (lser nnl h V d (sample_phase Nt t)) (w * ldser nnl h V d (sample_phase Nt t))).
    assert (G : forall c i b j, (c < nc)%nat -> (i < N)%nat -> (b < nc)%nat -> (j < N)%nat ->
      cshare h c * aft_dU N nnl nc Q T (locJ nnl law h Nt w V) (c * N + i)%nat (b * N + j)%nat =
      rsum nnl (fun d => Q d i * (rsum Nt (fun t => L d t * basis h b (sample_phase Nt t) * basis h c (sample_phase Nt t)) / INR Nt) * Q d j)).
    { clear c i Hc Hi b j Hb Hj Hr Hs. intros c i b j Hc Hi Hb Hj. rewrite dU_entry by assumption. rewrite <- rsum_scal_l. apply rsum_ext. intros d Hd.
      rewrite (rsum_single nnl d _ Hd).
      - rewrite (mean_basis h Nt HN c (fun t => L d t * basis h b (sample_phase Nt t))). unfold locJ.
        destruct (divmod_block nnl c d Hd) as [-> ->]. destruct (divmod_block nnl b d Hd) as [-> ->]. rewrite Nat.eqb_refl, (HT i d Hi Hd).
        rewrite (coefc_ext h Nt (fun t => law_du law d _ _ * basis h b _ + _) (fun t => L d t * basis h b (sample_phase Nt t))); [ring|].
        intros n _. rewrite Hv. unfold L. ring.
      - intros e He' Hne. unfold locJ. destruct (divmod_block nnl c d Hd) as [_ ->]. destruct (divmod_block nnl b e He') as [_ ->].
        destruct (Nat.eqb_spec d e); [congruence|ring]. }
    rewrite !G by assumption. apply rsum_ext. intros d Hd.
    rewrite (rsum_ext Nt (fun t => L d t * basis h c (sample_phase Nt t) * basis h b (sample_phase Nt t)) (fun t => L d t * basis h b (sample_phase Nt t) * basis h c (sample_phase Nt t))) by (intros; ring). ring.
  Qed.
End Inst.

Lemma spring_symmetric N f Q V : separate_spring N f Q V ->
  (forall U, exists F J, nl_force f U = Ok (F, J) /\ symmetric_matrix N J) /\
  forall h Nt, admissible h -> (2 * list_max h + 1 < Nt)%nat -> Nat.even Nt = true -> forall U w,
    exists F dU dw, nl_aft f U w h Nt = Ok (F, dU, dw) /\ weighted_symmetric (length (components h) * N) (share N h) dU.
Proof.
  intros (nnl & T & HT & H).
  assert (G : forall force law, (forall U, symmetric_matrix N (snd (force U))) -> (forall d u v, law_dv law d u v = 0) -> f = instantaneous_nl N nnl Q T force law ->
    (forall U, exists F J, nl_force f U = Ok (F, J) /\ symmetric_matrix N J) /\
    forall h Nt, admissible h -> (2 * list_max h + 1 < Nt)%nat -> Nat.even Nt = true -> forall U w,
    exists F dU dw, nl_aft f U w h Nt = Ok (F, dU, dw) /\ weighted_symmetric (length (components h) * N) (share N h) dU).
  { intros force law HS Hv ->. split.
    - intros U. exists (fst (force U)), (snd (force U)). split; [cbn; rewrite <- surjective_pairing; reflexivity|apply HS].
    - intros h Nt Ha HN He U w. apply (inst_symmetric N nnl Q T law h Nt Ha HN He HT Hv U w). }
  destruct H as [(k & -> & _)|[(k & -> & _)|[(k & Np & delta & _ & -> & _)|(kt & Fs & chi & beta & W & _ & _ & _ & _ & -> & _)]]];
    (eapply G; [| |reflexivity]; [intros U; apply diagonal_symmetric; exact HT|reflexivity]).
Qed.

Lemma static_symmetric s Fst U : symmetric_matrix (vs_N s) (vs_K s) -> separate_springs (vs_N s) (vs_forces s) ->
  exists Rr J, static_res s U Fst = Ok (Rr, J) /\ symmetric_matrix (vs_N s) J.
Proof.
  intros HK H. unfold static_res.
  assert (L : forall a, symmetric_matrix (vs_N s) (snd a) -> exists o, static_loop (vs_forces s) U a = Ok o /\ symmetric_matrix (vs_N s) (snd o)).
  { induction H as [|f fs (Q & V & Hf) H IH]; intros a A; [exists a; split; [reflexivity|exact A]|].
    destruct (proj1 (spring_symmetric _ _ _ _ Hf) U) as (F & J & E & S1). cbn [static_loop]. rewrite E. cbn [bind]. apply IH. cbn [snd].
    intros i j Hi Hj. unfold madd. rewrite (A i j Hi Hj), (S1 i j Hi Hj). reflexivity. }
  destruct (L (vzero, mzero)) as ([F J] & -> & S1); [intros i j _ _; reflexivity|]. cbn [bind]. eexists _, _. split; [reflexivity|].
  intros i j Hi Hj. unfold madd. rewrite (HK i j Hi Hj). f_equal. apply (S1 i j Hi Hj).
Qed.

Lemma hbm_symmetric s h Nt X Fl : admissible h -> (2 * list_max h + 1 < Nt)%nat -> Nat.even Nt = true ->
  let N := vs_N s in let n := (length (components h) * N)%nat in
  X n <> 0 -> symmetric_matrix N (vs_M s) -> symmetric_matrix N (vs_K s) -> (forall i j, (i < N)%nat -> (j < N)%nat -> vs_C s i j = 0) ->
  separate_springs N (vs_forces s) ->
  exists Rr J Jw, hbm_res s X Fl h Nt true = Ok (Rr, Some (J, Jw)) /\
    forall r c, (r < n)%nat -> (c < n)%nat -> share N h r * J r c = share N h c * J c r.
Proof.
  intros Ha HN He N n Hw HM HK HC H. unfold hbm_res. rewrite nhc_aft. fold N n.
  destruct (stiffness_derivative N (vs_M s) (vs_C s) (vs_K s) h false Ha) as (E & dE & E1 & _ & _). rewrite E1. cbn [bind].
  assert (L : forall a, weighted_symmetric n (share N h) (snd (fst a)) -> exists o, aft_loop (vs_forces s) (take n X) (X n) h Nt a = Ok o /\ weighted_symmetric n (share N h) (snd (fst o))).
  { induction H as [|f fs (Q & V & Hf) H IH]; intros a A; [exists a; split; [reflexivity|exact A]|].
    destruct (proj2 (spring_symmetric _ _ _ _ Hf) h Nt Ha HN He (take n X) (X n)) as (F & dU & dw & EF & S1). cbn [aft_loop]. rewrite EF. cbn [bind]. apply IH. cbn [fst snd].
    intros r c Hr Hc. unfold madd. rewrite !Rmult_plus_distr_l, (A r c Hr Hc), (S1 r c Hr Hc). reflexivity. }
  unfold total_aft. rewrite (proj1 (Nhc_spec h) (proj1 (proj2 Ha))). cbn [bind].
  destruct (L (vzero, mzero, vzero)) as ([[F dU] dw] & -> & S1); [intros r c _ _; unfold mzero; cbn; ring|]. cbn [bind fst snd].
  eexists _, _, _. split; [reflexivity|]. intros r c Hr Hc. unfold madd. rewrite !Rmult_plus_distr_l.
  rewrite (linear_symmetric N h (vs_M s) (vs_C s) (vs_K s) (X n) Ha Hw HC (E (X n)) (Some (dE (X n))) r c (E1 (X n)) HM HK Hr Hc). f_equal. apply (S1 r c Hr Hc).
Qed.
