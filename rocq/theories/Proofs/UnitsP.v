(** Systems in other units. *)
From Coq Require Import Reals List Arith Bool Lra Lia FunctionalExtensionality.
From Verif.Lib Require Import RSum Py.
From Verif.Spec Require Import Harmonic Elements Slider Coordinates Units.
From Verif.Model Require Import Harmonic LocalForces Aft VibSys SysElements Jenkins Iwan JaxDual JaxFloat JaxFriction RoughContact SysHistory SysHarmonic.
From Verif.Proofs Require Import AftP CoordinatesP UnitsFloatP UnitsRoughP.
Import ListNotations.
Open Scope R_scope.

(** * the Fourier transforms are linear *)
Lemma vset_scale a v i x j : vset (fun j => a * v j) i (a * x) j = a * vset v i x j.
Proof. unfold vset. destruct (Nat.eqb j i); ring. Qed.

Lemma fold_scale {B} (f g : vec -> B -> vec) a l : (forall v w b, (forall j, w j = a * v j) -> forall j, g w b j = a * f v b j) ->
  forall v w, (forall j, w j = a * v j) -> forall j, fold_left g l w j = a * fold_left f l v j.
Proof. intros H. induction l as [|b l IH]; intros v w E; cbn [fold_left]; [exact E|]. apply IH, H, E. Qed.

Lemma x0full_scale h X a j : x0full h (fun i => a * X i) j = a * x0full h X j.
Proof.
  unfold x0full. revert j. apply fold_scale.
  - intros v w p E j. unfold vset. destruct (Nat.eqb j _); [ring|]. destruct (Nat.eqb j _); [ring|apply E].
  - intros j. destruct (Nat.eqb (zi h) 1); [|unfold vzero; ring]. unfold vset, vzero. destruct (Nat.eqb j 0); ring.
Qed.

Lemma ifft_scale Nt X Y a n : (forall f, fst (Y f) = a * fst (X f) /\ snd (Y f) = a * snd (X f)) -> real_ifft Nt Y n = a * real_ifft Nt X n.
Proof.
  intros H. unfold real_ifft. rewrite (rsum_ext Nt _ (fun f => a * (fst (X f) * cos (2 * PI * INR f * INR n / INR Nt) - snd (X f) * sin (2 * PI * INR f * INR n / INR Nt)))).
  - rewrite rsum_scal_l. ring.
  - intros f _. rewrite (proj1 (H f)), (proj2 (H f)). ring.
Qed.

Lemma spectrum_scale m x y a f : (forall j, y j = a * x j) -> fst (spectrum m y f) = a * fst (spectrum m x f) /\ snd (spectrum m y f) = a * snd (spectrum m x f).
Proof.
  intros H. unfold spectrum. destruct (Nat.eqb f 0); [split; cbn; rewrite ?H; ring|]. destruct (Nat.leb f m); [split; cbn [fst snd]; rewrite H; ring|].
  destruct (Nat.eqb f (m + 1)); split; cbn [fst snd]; rewrite ?H; ring.
Qed.

Definition rmap {A B} (f : A -> B) (r : result A) : result B := match r with Ok a => Ok (f a) | Err x => Err x end.

Lemma tsd_scale Nt h X a o : time_series_deriv Nt h (fun i => a * X i) o = rmap (fun p => (fst p, fun t => a * snd p t)) (time_series_deriv Nt h X o).
Proof.
  unfold time_series_deriv. destruct (negb _); [reflexivity|]. destruct h as [|h0 hs]; [reflexivity|]. set (h := h0 :: hs). cbv zeta. destruct (negb _); [reflexivity|]. cbn [rmap fst snd]. do 2 f_equal.
  extensionality t. apply ifft_scale. intros f. apply spectrum_scale. intros j. destruct (Nat.ltb j _); [|ring]. destruct (Nat.ltb 0 o); [|apply x0full_scale].
  rewrite (matvec_ext _ _ _ (fun j => a * x0full h X j)) by (intros; apply x0full_scale). apply matvec_scal.
Qed.

Lemma fft_scale Nt x a k : fst (fft Nt (fun i => a * x i) k) = a * fst (fft Nt x k) /\ snd (fft Nt (fun i => a * x i) k) = a * snd (fft Nt x k).
Proof.
  unfold fft. cbn [fst snd]. split; [rewrite <- rsum_scal_l; apply rsum_ext; intros; ring|]. rewrite Ropp_mult_distr_r_reverse. f_equal. rewrite <- rsum_scal_l. apply rsum_ext. intros; ring.
Qed.

Lemma gfc_scale h Nt x a : get_fourier_coeff h Nt (fun i => a * x i) = rmap (fun p c => a * p c) (get_fourier_coeff h Nt x).
Proof.
  unfold get_fourier_coeff. destruct h as [|h0 hs]; [reflexivity|]. set (h := h0 :: hs). destruct (negb _); [reflexivity|]. destruct (existsb _ _); [reflexivity|]. cbn [rmap]. f_equal.
  extensionality c. revert c. apply fold_scale.
  - intros v w p E j. unfold vset. rewrite (proj1 (fft_scale Nt x a _)), (proj2 (fft_scale Nt x a _)). destruct (Nat.eqb j _); [unfold Rdiv; ring|]. destruct (Nat.eqb j _); [unfold Rdiv; ring|apply E].
  - intros j. destruct (Nat.eqb (zi h) 1); [|unfold vzero; ring]. unfold vset, vzero. rewrite (proj1 (fft_scale Nt x a _)). destruct (Nat.eqb j 0); unfold Rdiv; ring.
Qed.

Lemma ts_cols_scale Nt h X a o : ts_cols Nt h (fun d c => a * X d c) o = rmap (fun p => (fst p, fun d t => a * snd p d t)) (ts_cols Nt h X o).
Proof.
  unfold ts_cols. destruct (time_series_deriv Nt h (fun _ => 0) o) as [[n z]|e]; [|reflexivity]. cbn [bind rmap fst snd]. do 2 f_equal. extensionality d. extensionality t.
  rewrite tsd_scale. destruct (time_series_deriv Nt h (X d) o) as [[m x]|e]; cbn [rmap fst snd]; [reflexivity|ring].
Qed.

Lemma gfc_cols_scale h n x a : gfc_cols h n (fun d t => a * x d t) = rmap (fun p d c => a * p d c) (gfc_cols h n x).
Proof.
  unfold gfc_cols. destruct (get_fourier_coeff h n (fun _ => 0)) as [z|e]; [|reflexivity]. cbn [bind rmap]. f_equal. extensionality d. extensionality c.
  rewrite gfc_scale. destruct (get_fourier_coeff h n (x d)) as [m|e]; cbn [rmap]; [reflexivity|ring].
Qed.

(** only the coefficients of h are read *)
Lemma zeros_once h : NoDup h -> (count_zero h <= 1)%nat.
Proof.
  intros H. unfold count_zero. induction H as [|k l Hk Hl IH]; [cbn; lia|]. cbn [filter]. destruct (Nat.eqb_spec k 0) as [->|]; [|exact IH]. cbn [length].
  rewrite (proj2 (length_zero_iff_nil _)); [lia|]. destruct (filter (fun k => Nat.eqb k 0) l) as [|x r] eqn:E; [reflexivity|]. exfalso.
  assert (I : In x (filter (fun k => Nat.eqb k 0) l)) by (rewrite E; left; reflexivity). apply filter_In in I. destruct I as [I J]. apply Nat.eqb_eq in J. subst. exact (Hk I).
Qed.
Lemma counts h : (count_nonzero h + count_zero h = length h)%nat.
Proof. unfold count_nonzero, count_zero. induction h as [|k l IH]; [reflexivity|]. cbn [filter]. destruct (Nat.eqb k 0); cbn [negb length]; lia. Qed.
Lemma nhc_nodup h m : Nhc h = Ok m -> NoDup h.
Proof.
  unfold Nhc. destruct (Nat.eqb_spec (length (nodup Nat.eq_dec h)) (length h)) as [E|]; [|discriminate]. intros _.
  apply (@NoDup_incl_NoDup nat (nodup Nat.eq_dec h)); [apply NoDup_nodup|lia|]. intros x Hx. apply nodup_In in Hx. exact Hx.
Qed.

Lemma tsd_range Nt h X Y o : NoDup h -> (forall c, (c < aft_Nhc h)%nat -> X c = Y c) -> time_series_deriv Nt h X o = time_series_deriv Nt h Y o.
Proof.
  intros Hn H. unfold time_series_deriv. destruct (negb (Nat.eqb (count_zero h) 0 || Nat.eqb (hd 1%nat h) 0)) eqn:G; [reflexivity|]. destruct h as [|h0 hs]; [reflexivity|]. set (h := h0 :: hs) in *.
  assert (Z : count_zero h = zi h).
  { pose proof (zeros_once h Hn). apply negb_false_iff, orb_true_iff in G. unfold zi. destruct (Nat.eqb_spec (hd 1%nat h) 0) as [E|E].
    - assert ((1 <= count_zero h)%nat); [|lia]. unfold count_zero, h. cbn in E. rewrite E. cbn. lia.
    - destruct G as [G|G]; [apply Nat.eqb_eq in G; exact G|discriminate]. }
  assert (B : aft_Nhc h = (2 * (length h - zi h) + zi h)%nat) by (unfold aft_Nhc; pose proof (counts h); lia).
  assert (E : x0full h X = x0full h Y).
  { unfold x0full. assert (I : forall l v, (forall p, In p l -> (p < length h - zi h)%nat) ->
      fold_left (fun acc p => let k := nth (p + zi h) h O in vset (vset acc (2 * k - 1) (X (2 * p + zi h)%nat)) (2 * k) (X (2 * p + 1 + zi h)%nat)) l v =
      fold_left (fun acc p => let k := nth (p + zi h) h O in vset (vset acc (2 * k - 1) (Y (2 * p + zi h)%nat)) (2 * k) (Y (2 * p + 1 + zi h)%nat)) l v).
    { induction l as [|p l IH]; intros v Hl; [reflexivity|]. cbn [fold_left]. pose proof (Hl p (or_introl eq_refl)). rewrite !H by lia. apply IH. intros q Hq. apply Hl. right. exact Hq. }
    rewrite I by (intros p Hp; apply in_seq in Hp; lia). f_equal. destruct (Nat.eqb_spec (zi h) 1) as [E1|]; [|reflexivity]. rewrite H by lia. reflexivity. }
  rewrite E. reflexivity.
Qed.

Lemma ts_dual_sc tau a Nt h nn X Y : NoDup h -> (forall c d, (c < aft_Nhc h)%nat -> (d < nn)%nat -> dsc tau a (X c d) (Y c d)) ->
  same_result (fun p q => fst p = fst q /\ forall t d, (d < nn)%nat -> dsc tau a (snd p t d) (snd q t d)) (ts_dual Nt h X) (ts_dual Nt h Y).
Proof.
  intros Hn H. unfold ts_dual, ts_cols. destruct (time_series_deriv Nt h (fun _ => 0) 0) as [[n z]|e]; [|reflexivity]. cbn [bind same_result fst snd].
  split; [reflexivity|]. intros t d Hd. split; [|intros i]; cbn [dv dt].
  - rewrite (tsd_range Nt h (fun c => dv (Y c d)) (fun c => a * dv (X c d)) 0 Hn) by (intros c Hc; apply (proj1 (H c d Hc Hd))).
    rewrite tsd_scale. destruct (time_series_deriv Nt h (fun c => dv (X c d)) 0) as [[m x]|e]; cbn [rmap fst snd]; ring.
  - rewrite (tsd_range Nt h (fun c => dt (Y c d) i) (fun c => (a * tau i) * dt (X c d) i) 0 Hn) by (intros c Hc; apply (proj2 (H c d Hc Hd))).
    rewrite tsd_scale. destruct (time_series_deriv Nt h (fun c => dt (X c d) i) 0) as [[m y]|e]; cbn [rmap fst snd]; ring.
Qed.

Lemma gfc_dual_sc tau a h n nn x y : (forall t d, (d < nn)%nat -> dsc tau a (x t d) (y t d)) ->
  same_result (fun p q => forall c d, (d < nn)%nat -> dsc tau a (p c d) (q c d)) (gfc_dual h n x) (gfc_dual h n y).
Proof.
  intros H. unfold gfc_dual, gfc_cols. destruct (get_fourier_coeff h n (fun _ => 0)) as [z|e]; [|reflexivity]. cbn [bind same_result].
  intros c d Hd. split; [|intros i]; cbn [dv dt].
  - replace (fun t => dv (y t d)) with (fun t => a * dv (x t d)) by (extensionality t; symmetry; apply (proj1 (H t d Hd))).
    rewrite gfc_scale. destruct (get_fourier_coeff h n (fun t => dv (x t d))) as [m|e]; cbn [rmap]; ring.
  - replace (fun t => dt (y t d) i) with (fun t => (a * tau i) * dt (x t d) i) by (extensionality t; symmetry; apply (proj2 (H t d Hd))).
    rewrite gfc_scale. destruct (get_fourier_coeff h n (fun t => dt (x t d) i)) as [m|e]; cbn [rmap]; ring.
Qed.

(** * local and global numbers *)
Lemma matvec_times N Q U a : matvec N Q (fun i => a * U i) = fun d => a * matvec N Q U d.
Proof. extensionality d. apply matvec_scal. Qed.
Lemma Unl_times N Q U V a c d : times a U V -> aft_Unl N Q V c d = a * aft_Unl N Q U c d.
Proof. intros H. unfold aft_Unl, matvec. rewrite <- rsum_scal_l. apply rsum_ext. intros j _. rewrite H. ring. Qed.
Lemma global_times N nnl T F G a : (forall d c, G d c = a * F d c) -> times a (aft_global N nnl T F) (aft_global N nnl T G).
Proof. intros H r. unfold aft_global, matvec. rewrite <- rsum_scal_l. apply rsum_ext. intros d _. rewrite H. ring. Qed.
Lemma dU_times N nnl nb Q T J K a : (forall r s, (s < nb * nnl)%nat -> K r s = a * J r s) -> mtimes a (aft_dU N nnl nb Q T J) (aft_dU N nnl nb Q T K).
Proof.
  intros H i j. unfold aft_dU. unfold matmul at 1 3. rewrite <- rsum_scal_l. apply rsum_ext. intros s Hs. unfold matmul.
  rewrite (rsum_ext _ (fun k => kron_eye N nnl T i k * K k s) (fun k => a * (kron_eye N nnl T i k * J k s))) by (intros k _; rewrite H by exact Hs; ring).
  rewrite rsum_scal_l. ring.
Qed.
Lemma tdq_times nnl T D D' Q a : (forall i j, D' i j = a * D i j) -> mtimes a (matmul nnl (matmul nnl T D) Q) (matmul nnl (matmul nnl T D') Q).
Proof.
  intros H i j. rewrite !tdq, <- rsum_scal_l. apply rsum_ext. intros d _. rewrite <- rsum_scal_l. apply rsum_ext. intros e _. rewrite H. ring.
Qed.
Lemma matvec_out n T f g a : (forall d, g d = a * f d) -> times a (matvec n T f) (matvec n T g).
Proof. intros H i. unfold matvec. rewrite <- rsum_scal_l. apply rsum_ext. intros d _. rewrite H. ring. Qed.
Lemma diag_times a v w : (forall d, w d = a * v d) -> forall i j, mdiag w i j = a * mdiag v i j.
Proof. intros H i j. unfold mdiag. destruct (Nat.eqb i j); [apply H|ring]. Qed.

Section Units.
  Variable u : units.
  Hypothesis Hu : positive_units u.
  Let L := u_length u.
  Let F := u_force u.
  Let W := u_freq u.
  Let HL : 0 < L. Proof. exact (proj1 Hu). Qed.
  Let HF : 0 < F. Proof. exact (proj1 (proj2 Hu)). Qed.
  Let HW : 0 < W. Proof. exact (proj2 (proj2 Hu)). Qed.
  Let kE : u_stiffness u = F / L. Proof. reflexivity. Qed.
  Let kP : 0 < u_stiffness u. Proof. rewrite kE. apply Rdiv_lt_0_compat; assumption. Qed.
  Let kL : u_stiffness u * L = F. Proof. rewrite kE. field. lra. Qed.

  Definition scaled3 (a b : vec * mat * vec) : Prop :=
    times F (fst (fst a)) (fst (fst b)) /\ mtimes (u_stiffness u) (snd (fst a)) (snd (fst b)) /\ times (F / W) (snd a) (snd b).
  Definition scaled2 (a b : vec * mat) : Prop := times F (fst a) (fst b) /\ mtimes (u_stiffness u) (snd a) (snd b).

  Lemma times_zero a : times a (fun _ => 0) (fun _ => 0).
  Proof. intros i. ring. Qed.
  Lemma mtimes_zero a : mtimes a (fun _ _ => 0) (fun _ _ => 0).
  Proof. intros i j. ring. Qed.

  (** ** forces without memory *)
  Definition law_in (a b : local_law) : Prop := forall d x v,
    law_f b d (L * x) (L * W * v) = F * law_f a d x v /\ law_du b d (L * x) (L * W * v) = u_stiffness u * law_du a d x v /\
    law_dv b d (L * x) (L * W * v) = F / (L * W) * law_dv a d x v.

  Lemma instantaneous_in N nnl Q T a b U V w h Nt : law_in a b -> times L U V ->
    same_result scaled3 (aft_instantaneous N nnl Q T a U w h Nt) (aft_instantaneous N nnl Q T b V (W * w) h Nt).
  Proof.
    intros Hl HV. unfold aft_instantaneous. cbv zeta.
    replace (fun d c => aft_Unl N Q V c d) with (fun d c => L * aft_Unl N Q U c d) by (extensionality d; extensionality c; symmetry; apply Unl_times, HV).
    rewrite !(ts_cols_scale Nt h (fun d c => aft_Unl N Q U c d) L).
    destruct (ts_cols Nt h (fun d c => aft_Unl N Q U c d) 0) as [[n x]|e]; [|reflexivity]. cbn [rmap bind fst snd].
    destruct (ts_cols Nt h (fun d c => aft_Unl N Q U c d) 1) as [[n1 x1]|e]; [|reflexivity]. cbn [rmap bind fst snd].
    assert (V1 : forall d t, W * w * (L * x1 d t) = L * W * (w * x1 d t)) by (intros; ring).
    replace (fun d t => law_f b d (L * x d t) (W * w * (L * x1 d t))) with (fun d t => F * law_f a d (x d t) (w * x1 d t))
      by (extensionality d; extensionality t; rewrite V1; symmetry; apply Hl).
    rewrite (gfc_cols_scale h n (fun d t => law_f a d (x d t) (w * x1 d t)) F). destruct (gfc_cols h n (fun d t => law_f a d (x d t) (w * x1 d t))) as [G|e]; [|reflexivity]. cbn [rmap bind].
    destruct (ts_cols Nt h eye_col 0) as [[n2 cst]|e]; [|reflexivity]. cbn [bind]. destruct (negb (Nat.eqb n Nt)); [reflexivity|].
    destruct (ts_cols Nt h eye_col 1) as [[n3 sct]|e]; [|reflexivity]. cbn [bind].
    match goal with |- same_result _ (bind (gfc_cols h n ?f) _) (bind (gfc_cols h n ?g) _) => replace g with (fun e t => u_stiffness u * f e t) end.
    2:{ extensionality e. extensionality t. destruct (Hl (e mod nnl)%nat (x (e mod nnl)%nat t) (w * x1 (e mod nnl)%nat t)) as (_ & H1 & H2). rewrite V1, H1, H2, kE. unfold law_du, law_dv. field. lra. }
    match goal with |- same_result _ (bind (gfc_cols h n ?f) _) _ => rewrite (gfc_cols_scale h n f (u_stiffness u)); destruct (gfc_cols h n f) as [dG|e]; [|reflexivity] end. cbn [rmap bind].
    assert (D : forall A B C D' : mat, (forall r s, D' r s = u_stiffness u * C r s) -> mtimes (u_stiffness u) (aft_dU N nnl (aft_Nhc h) Q T C) (aft_dU N nnl (aft_Nhc h) Q T D')) by (intros A B C D' HD; apply dU_times; intros r s _; apply HD).
    rewrite Reqb_scale0 by lra. destruct (Reqb w 0) eqn:E0.
    - split; [apply global_times; reflexivity|split; [|apply times_zero]]. apply (D mzero mzero). intros r s. destruct (Nat.eqb (r mod nnl) (s mod nnl)); ring.
    - assert (w <> 0) by (intros ->; unfold Reqb in E0; destruct (Req_EM_T 0 0); [discriminate|tauto]).
      match goal with |- same_result _ (bind (gfc_cols h n ?f) _) (bind (gfc_cols h n ?g) _) => replace g with (fun e t => F / W * f e t) end.
      2:{ extensionality e. extensionality t. destruct (Hl e (x e t) (w * x1 e t)) as (_ & _ & H2). rewrite V1, H2. unfold law_dv. field. lra. }
      match goal with |- same_result _ (bind (gfc_cols h n ?f) _) _ => rewrite (gfc_cols_scale h n f (F / W)); destruct (gfc_cols h n f) as [dw|e]; [|reflexivity] end. cbn [rmap bind same_result].
      split; [apply global_times; reflexivity|split; [|apply global_times; reflexivity]]. apply (D mzero mzero). intros r s. destruct (Nat.eqb (r mod nnl) (s mod nnl)); ring.
  Qed.

  Definition row_in (nnl : nat) (a b : vec -> vec * mat) : Prop := forall x, (forall d, fst (b (fun i => L * x i)) d = F * fst (a x) d) /\ forall d e, (e < nnl)%nat -> snd (b (fun i => L * x i)) d e = u_stiffness u * snd (a x) d e.

  Lemma coupled_in N nnl Q T a b U V w h Nt : (0 < nnl)%nat -> row_in nnl a b -> times L U V -> same_result scaled3 (aft_coupled N nnl Q T a U w h Nt) (aft_coupled N nnl Q T b V (W * w) h Nt).
  Proof.
    intros Hn Hr HV. unfold aft_coupled. cbv zeta.
    replace (fun d c => aft_Unl N Q V c d) with (fun d c => L * aft_Unl N Q U c d) by (extensionality d; extensionality c; symmetry; apply Unl_times, HV).
    rewrite !(ts_cols_scale Nt h (fun d c => aft_Unl N Q U c d) L).
    destruct (ts_cols Nt h (fun d c => aft_Unl N Q U c d) 0) as [[n x]|e]; [|reflexivity]. cbn [rmap bind fst snd].
    destruct (ts_cols Nt h (fun d c => aft_Unl N Q U c d) 1) as [[n1 x1]|e]; [|reflexivity]. cbn [rmap bind fst snd].
    match goal with |- same_result _ (bind (gfc_cols h n ?f) _) (bind (gfc_cols h n ?g) _) => replace g with (fun e t => F * f e t) by (extensionality e; extensionality t; symmetry; apply (proj1 (Hr (fun d => x d t)))) end.
    match goal with |- same_result _ (bind (gfc_cols h n ?f) _) _ => rewrite (gfc_cols_scale h n f F); destruct (gfc_cols h n f) as [G|e]; [|reflexivity] end. cbn [rmap bind].
    destruct (ts_cols Nt h eye_col 0) as [[n2 cst]|e]; [|reflexivity]. cbn [bind]. destruct (negb (Nat.eqb n Nt)); [reflexivity|].
    match goal with |- same_result _ (bind (gfc_cols h n ?f) _) (bind (gfc_cols h n ?g) _) => replace g with (fun e t => u_stiffness u * f e t) end.
    2:{ extensionality e. extensionality t. rewrite (proj2 (Hr (fun d => x d t))) by (apply Nat.mod_upper_bound; lia). ring. }
    match goal with |- same_result _ (bind (gfc_cols h n ?f) _) _ => rewrite (gfc_cols_scale h n f (u_stiffness u)); destruct (gfc_cols h n f) as [dG|e]; [|reflexivity] end. cbn [rmap bind same_result].
    split; [apply global_times; reflexivity|split; [|apply times_zero]]. apply dU_times. intros r s _. reflexivity.
  Qed.
End Units.
