From Coq Require Import Reals List Arith Bool ZArith Lia Lra Psatz FunctionalExtensionality.
From Verif.Lib Require Import RSum Calc LinAlg Py.
From Verif.Spec Require Import Calculus Harmonic System Continuation.
From Verif.Model Require Import VibSys Solver Continuation.
From Verif.Proofs Require Import HarmonicP VibSysP VibControlP VprnmP.
Import ListNotations.
Open Scope R_scope.

Lemma norm2_pow n v : norm2 n v ^ 2 = rsum n (fun i => v i ^ 2).
Proof. replace (norm2 n v ^ 2) with (norm2 n v * norm2 n v) by ring. rewrite norm2_sq. unfold dot. apply rsum_ext. intros; ring. Qed.

Lemma nonzero_pos n v : nonzero n v -> 0 < rsum n (fun i => v i ^ 2).
Proof.
  intros (k & Hk & Hv).
  assert (P : 0 <= rsum n (fun i => v i ^ 2)) by (apply rsum_nonneg; intros; nra).
  destruct P as [P|P]; [exact P|exfalso]. apply Hv.
  pose proof (rsum_eq_zero_nonneg n (fun i => v i ^ 2) (fun i _ => ltac:(nra)) (eq_sym P) k Hk) as E. cbv beta in E. nra.
Qed.

(** ---- predictor ---- *)
Lemma predict_spec W n k CtoP RPtoC b dyn X0 Xp dprev dirC RP Rr dX dl :
  w_fun W X0 true = Ok (Rr, Some (dX, dl)) ->
  (forall A r d, w_lin W k A r = Ok d -> solves (n + 1) A d r) ->
  0 < b < 1 -> (forall i, (i <= n)%nat -> CtoP i <> 0) -> nonzero n X0 ->
  predict W n k CtoP RPtoC b dyn X0 Xp dprev = Ok (dirC, RP) ->
  let XC0 := fun i => X0 i / CtoP i in
  (forall i, (i < n)%nat -> rsum (n + 1) (fun j => hcat n dX dl i j * (CtoP j * dirC j)) = 0) /\
  arc_dot n b XC0 dirC dirC = 1 /\
  0 <= arc_dot n b XC0 dirC (fun i => (X0 i - Xp i) / CtoP i) /\
  rsum (n + 1) (fun j => dprev j * dirC j) <> 0.
Proof.
  intros HF HL Hb HC HX HP XC0. unfold predict in HP. rewrite HF in HP. cbn [bind] in HP.
  set (A := predict_matrix n CtoP dX dl dprev) in *.
  destruct (w_lin W k A (fun i => if Nat.eqb i n then 1 else 0)) as [d|e] eqn:EL; [|discriminate]. cbn [bind] in HP.
  pose proof (HL _ _ _ EL) as HS. fold XC0 in HP.
  assert (NX : 0 < rsum n (fun i => XC0 i ^ 2)).
  { apply nonzero_pos. destruct HX as (i & Hi & Ne). exists i. split; [exact Hi|]. unfold XC0, Rdiv. apply Rmult_integral_contrapositive. split; [exact Ne|apply Rinv_neq_0_compat, HC; lia]. }
  set (c := (1 - b) / norm2 n XC0 ^ 2) in *. set (sq := c * norm2 n d ^ 2 + b * d n ^ 2) in *.
  assert (Cp : 0 < c) by (unfold c; rewrite norm2_pow; apply Rdiv_lt_0_compat; lra).
  assert (Sq : 0 < sq).
  { unfold sq. rewrite norm2_pow. assert (P : 0 <= rsum n (fun i => d i ^ 2)) by (apply rsum_nonneg; intros; nra).
    destruct (Req_dec (d n) 0) as [E0|E0]; [|assert (0 < d n ^ 2) by nra; nra].
    destruct P as [P|P]; [nra|]. exfalso.
    assert (Z : forall i, (i < n)%nat -> d i = 0).
    { intros i Hi. pose proof (rsum_eq_zero_nonneg n (fun i => d i ^ 2) (fun i _ => ltac:(nra)) (eq_sym P) i Hi) as E. cbv beta in E. nra. }
    pose proof (HS n ltac:(lia)) as L. cbv beta in L. rewrite Nat.eqb_refl in L. rewrite rsum_zero in L; [lra|].
    intros j Hj. destruct (Nat.eq_dec j n) as [->|Ne]; [rewrite E0; ring|rewrite Z by lia; ring]. }
  assert (S1 : 0 < sqrt sq) by (apply sqrt_lt_R0; exact Sq).
  set (d1 := fun i => d i / sqrt sq) in *. set (dp := fun i => (X0 i - Xp i) / CtoP i) in *.
  set (sa := c * dot n d1 dp + b * d1 n * dp n) in *.
  set (sg := if Req_EM_T (Rsign sa) 0 then 1 else Rsign sa) in *.
  assert (HD : dirC = (fun i => d1 i * sg)) by (symmetry; exact (f_equal (fun r => match r with Ok (a, _) => a | Err _ => dirC end) HP)).
  subst dirC. clear HP.
  assert (Sg : (sg = 1 /\ 0 <= sa) \/ (sg = -1 /\ sa < 0)).
  { unfold sg, Rsign. destruct (Rlt_dec 0 sa); [left|destruct (Rlt_dec sa 0); [right|left]].
    - destruct (Req_EM_T 1 0); split; lra.
    - destruct (Req_EM_T (-1) 0); split; lra.
    - destruct (Req_EM_T 0 0); split; lra. }
  assert (Sg2 : sg * sg = 1) by (destruct Sg as [[-> _]|[-> _]]; lra).
  split; [|split; [|split]].
  - intros i Hi. pose proof (HS i ltac:(lia)) as L. cbv beta in L. rewrite (proj2 (Nat.eqb_neq i n)) in L by lia.
    transitivity (sg / sqrt sq * rsum (n + 1) (fun j => A i j * d j)); [|rewrite L; ring].
    rewrite <- rsum_scal_l. apply rsum_ext. intros j Hj. unfold A, predict_matrix, hcat, d1. rewrite (proj2 (Nat.ltb_lt i n) Hi).
    destruct (Nat.ltb_spec j n); [|replace j with n by lia]; field; lra.
  - assert (E : arc_dot n b XC0 (fun i => d1 i * sg) (fun i => d1 i * sg) = (sg * sg) * (sq / (sqrt sq * sqrt sq))).
    { assert (Es : sq = (1 - b) / rsum n (fun i => XC0 i ^ 2) * rsum n (fun i => d i ^ 2) + b * d n ^ 2) by (unfold sq, c; rewrite !norm2_pow; reflexivity).
      unfold arc_dot.
      rewrite (rsum_ext n (fun i => d1 i * sg * (d1 i * sg)) (fun i => (sg * sg / (sqrt sq * sqrt sq)) * d i ^ 2)) by (intros; unfold d1; field; lra).
      rewrite rsum_scal_l. rewrite Es at 3. unfold d1. set (q := sqrt sq) in *. field. lra. }
    rewrite E, Sg2, sqrt_sqrt by lra. field. lra.
  - assert (E : arc_dot n b XC0 (fun i => d1 i * sg) dp = sg * sa).
    { unfold arc_dot, sa, c. rewrite norm2_pow. rewrite (rsum_ext n (fun i => d1 i * sg * dp i) (fun i => sg * (d1 i * dp i))) by (intros; ring).
      rewrite rsum_scal_l. unfold dot. ring. }
    rewrite E. destruct Sg as [[-> P]|[-> P]]; lra.
  - assert (E : rsum (n + 1) (fun j => dprev j * (d1 j * sg)) = sg / sqrt sq); [|rewrite E].
    2:{ unfold Rdiv. apply Rmult_integral_contrapositive. split; [destruct Sg as [[-> _]|[-> _]]; lra|apply Rinv_neq_0_compat; lra]. }
    pose proof (HS n ltac:(lia)) as L. cbv beta in L. rewrite Nat.eqb_refl in L. rewrite <- (Rmult_1_r (sg / sqrt sq)), <- L, <- rsum_scal_l.
      apply rsum_ext. intros j Hj. unfold A, predict_matrix, d1. rewrite ltb_f by lia. field. lra.
Qed.

(** ---- arc-length equations ---- *)
Lemma arc_c n b X0 : (1 - b) / norm2 n X0 ^ 2 = (1 - b) / rsum n (fun i => X0 i ^ 2).
Proof. rewrite norm2_pow. reflexivity. Qed.

Definition diff (X Y : vec) : vec := fun i => X i - Y i.

Lemma pseudo_zero n X X0 ds b : ds <> 0 ->
  (fst (pseudo_arc_res n X X0 ds b ((1 - b) / norm2 n X0 ^ 2)) = 0 <-> arc_dot n b X0 (fun i => X i - X0 i) (fun i => X i - X0 i) = ds ^ 2).
Proof.
  intros Hd. unfold pseudo_arc_res. cbn [fst]. rewrite !norm2_pow. unfold arc_dot.
  rewrite (rsum_ext n (fun i => (X i - X0 i) * (X i - X0 i)) (fun i => (X i - X0 i) ^ 2)) by (intros; ring).
  set (Q := (1 - b) / rsum n (fun i => X0 i ^ 2) * rsum n (fun i => (X i - X0 i) ^ 2)).
  assert (D : ds ^ 2 <> 0) by (apply pow_nonzero; exact Hd). split.
  - intros E. apply (Rmult_eq_compat_r (ds ^ 2)) in E. rewrite Rmult_0_l in E. unfold Rdiv in E. rewrite Rmult_assoc, Rinv_l, Rmult_1_r in E by exact D. lra.
  - intros E. replace (Q + b * (X n - X0 n) ^ 2 - ds ^ 2) with 0 by lra. unfold Rdiv. ring.
Qed.

Lemma ortho_zero n X X0 d ds b : ds <> 0 ->
  (fst (orthogonal_arc_res n X X0 d ds b ((1 - b) / norm2 n X0 ^ 2)) = 0 <-> arc_dot n b X0 (fun i => X i - (X0 i + d i * ds)) d = 0).
Proof.
  intros Hd. unfold orthogonal_arc_res. cbn [fst]. rewrite norm2_pow. unfold arc_dot, dot.
  set (Q := (1 - b) / rsum n (fun i => X0 i ^ 2) * rsum n (fun i => (X i - (X0 i + d i * ds)) * d i)). split.
  - intros E. apply (Rmult_eq_compat_r ds) in E. rewrite Rmult_0_l in E. unfold Rdiv in E. rewrite Rmult_assoc, Rinv_l, Rmult_1_r in E by exact Hd. lra.
  - intros E. replace (Q + b * (X n - (X0 n + d n * ds)) * d n) with 0 by lra. unfold Rdiv. ring.
Qed.

Lemma pseudo_gradient n X X0 ds b c : ds <> 0 -> is_gradient (n + 1) (fun X => fst (pseudo_arc_res n X X0 ds b c)) X (snd (pseudo_arc_res n X X0 ds b c)).
Proof.
  intros Hd g v t0 Hg Hv.
  apply (dlim_ext (fun t => (c * rsum n (fun i => (g t i - X0 i) ^ 2) + b * (g t n - X0 n) ^ 2 - ds ^ 2) * / ds ^ 2)).
  { intros t. unfold pseudo_arc_res. cbn [fst]. rewrite norm2_pow. reflexivity. }
  assert (D1 : forall j, (j <= n)%nat -> derivable_pt_lim (fun t => (g t j - X0 j) ^ 2) t0 (2 * (X j - X0 j) * v j)).
  { intros j Hj. eapply dlim_eq; [apply (dlim_pow (fun t => g t j - X0 j) t0 (v j)); eapply dlim_eq; [apply dlim_minus; [apply Hv; lia|apply dlim_const]|ring]|].
    rewrite Hg by lia. simpl. ring. }
  eapply dlim_eq.
  - apply dlim_scal_r. apply dlim_minus; [|apply dlim_const]. apply dlim_plus; [|apply dlim_scal; apply (D1 n); lia].
    apply dlim_scal. apply (dlim_rsum n (fun i t => (g t i - X0 i) ^ 2) t0 (fun i => 2 * (X i - X0 i) * v i)). intros i Hi. apply D1. lia.
  - unfold pseudo_arc_res. cbn [snd]. rewrite rsum_p1. rewrite ltb_f by lia.
    rewrite (rsum_ext n (fun i => (if Nat.ltb i n then 2 * c * (X i - X0 i) else 2 * b * (X n - X0 n)) / ds ^ 2 * v i) (fun i => c / ds ^ 2 * (2 * (X i - X0 i) * v i))).
    + rewrite rsum_scal_l. field. exact Hd.
    + intros i Hi. rewrite ltb_t by exact Hi. field. exact Hd.
Qed.

Lemma ortho_gradient n X X0 d ds b c : ds <> 0 -> is_gradient (n + 1) (fun X => fst (orthogonal_arc_res n X X0 d ds b c)) X (snd (orthogonal_arc_res n X X0 d ds b c)).
Proof.
  intros Hd g v t0 Hg Hv.
  apply (dlim_ext (fun t => (c * rsum n (fun i => (g t i - (X0 i + d i * ds)) * d i) + b * (g t n - (X0 n + d n * ds)) * d n) * / ds)).
  { intros t. reflexivity. }
  assert (D1 : forall j, (j <= n)%nat -> derivable_pt_lim (fun t => g t j - (X0 j + d j * ds)) t0 (v j)).
  { intros j Hj. eapply dlim_eq; [apply dlim_minus; [apply Hv; lia|apply dlim_const]|ring]. }
  eapply dlim_eq.
  - apply dlim_scal_r. apply dlim_plus; [|apply dlim_scal_r; apply dlim_scal; apply (D1 n); lia].
    apply dlim_scal. apply (dlim_rsum n (fun i t => (g t i - (X0 i + d i * ds)) * d i) t0 (fun i => v i * d i)). intros i Hi. apply dlim_scal_r. apply D1. lia.
  - unfold orthogonal_arc_res. cbn [snd]. rewrite rsum_p1. rewrite ltb_f by lia.
    rewrite (rsum_ext n (fun i => (if Nat.ltb i n then c * d i else b * d n) / ds * v i) (fun i => c / ds * (v i * d i))).
    + rewrite rsum_scal_l. field. exact Hd.
    + intros i Hi. rewrite ltb_t by exact Hi. field. exact Hd.
Qed.

(** ---- corrector ---- *)
Definition arc_eq (corr : corrector) n X X0 d ds b : R * vec :=
  let c := (1 - b) / norm2 n X0 ^ 2 in
  match corr with Ortho => orthogonal_arc_res n X X0 d ds b c | _ => pseudo_arc_res n X X0 ds b c end.

Lemma correct_unfold W n CtoP RP b corr X0 ds d X g : corr <> OtherCorrector ->
  correct_res W n CtoP RP b corr X0 ds d X g =
  do (Rr, G) <- w_fun W (fun i => X i * CtoP i) g;
  let Raug : vec := fun i => if Nat.ltb i n then RP * Rr i else fst (arc_eq corr n X X0 d ds b) in
  if g then match G with None => Err ValueError
    | Some (dRdXP, dRdlamP) => Ok (Raug, Some (fun i j => if Nat.ltb i n then RP * (if Nat.ltb j n then dRdXP i j * CtoP j else dRdlamP i * CtoP n) else snd (arc_eq corr n X X0 d ds b) j)) end
  else Ok (Raug, None).
Proof.
  intros Hc. unfold correct_res. destruct (w_fun W _ g) as [[Rr G]|e]; cbn [bind]; [|reflexivity].
  destruct corr; [| |contradiction]; cbn [bind arc_eq]; destruct (_ : R * vec) as [ra dra]; reflexivity.
Qed.

Lemma correct_value W n CtoP RP b corr X0 ds d X g Rr G : corr <> OtherCorrector ->
  w_fun W (fun i => X i * CtoP i) g = Ok (Rr, G) -> (g = true -> G <> None) ->
  exists Raug J, correct_res W n CtoP RP b corr X0 ds d X g = Ok (Raug, J) /\
    (forall i, (i < n)%nat -> Raug i = RP * Rr i) /\
    (forall i, (n <= i)%nat -> Raug i = fst (arc_eq corr n X X0 d ds b)).
Proof.
  intros Hc HF HG. rewrite correct_unfold by exact Hc. rewrite HF. cbn [bind].
  destruct g; [destruct G as [[dX dl]|]; [|exfalso; apply HG; reflexivity]|]; eexists _, _; (split; [reflexivity|]); (split; intros i Hi; [rewrite ltb_t|rewrite ltb_f]; [reflexivity|lia|reflexivity|lia]).
Qed.

Lemma arc_eq_gradient corr n X X0 d ds b : ds <> 0 -> is_gradient (n + 1) (fun X => fst (arc_eq corr n X X0 d ds b)) X (snd (arc_eq corr n X X0 d ds b)).
Proof. intros Hd. destruct corr; cbn [arc_eq]; [apply pseudo_gradient|apply ortho_gradient|apply pseudo_gradient]; exact Hd. Qed.

Lemma correct_exact W n CtoP RP b corr X0 ds d X : corr <> OtherCorrector -> ds <> 0 ->
  exact_residual n n (fun X => w_fun W X true) (fun i => X i * CtoP i) ->
  exact_square (n + 1) (fun X => correct_res W n CtoP RP b corr X0 ds d X) X.
Proof.
  intros Hc Hd (Rf & J & l & A & B & C).
  exists (fun X i => if Nat.ltb i n then RP * Rf (fun i => X i * CtoP i) i else fst (arc_eq corr n X X0 d ds b)),
    (fun i j => if Nat.ltb i n then RP * (if Nat.ltb j n then J i j * CtoP j else l i * CtoP n) else snd (arc_eq corr n X X0 d ds b) j).
  split; [|split].
  - intros X'. destruct (A (fun i => X' i * CtoP i)) as [[J' l'] E]. rewrite correct_unfold, E by exact Hc. eexists. reflexivity.
  - rewrite correct_unfold, B by exact Hc. reflexivity.
  - intros g v t0 Hg Hv i Hi. destruct (Nat.ltb_spec i n) as [L|L].
    + eapply dlim_eq.
      * apply dlim_scal. apply (C (fun t i => g t i * CtoP i) (fun j => v j * CtoP j) t0); [|intros j Hj; apply dlim_scal_r, Hv; exact Hj|exact L].
        intros j Hj. cbv beta. rewrite Hg by exact Hj. reflexivity.
      * rewrite <- rsum_scal_l. apply rsum_ext. intros j Hj. unfold hcat. destruct (Nat.ltb_spec j n); [ring|]. replace j with n by lia. ring.
    + apply (arc_eq_gradient corr n X X0 d ds b Hd g v t0 Hg Hv).
Qed.

(** ---- conditioning ---- *)
Lemma conditioned_value CtoP RPtoC fn X g Rr G : fn (fun i => X i * CtoP i) g = Ok (Rr, G) -> (g = true -> G <> None) ->
  exists J, conditioning_wrapper fn CtoP RPtoC X g = Ok (fun i => sc RPtoC i * Rr i, J).
Proof.
  intros HF HG. unfold conditioning_wrapper, conditioned_fun. destruct g; rewrite HF; cbn [bind].
  - destruct G as [J|]; [|exfalso; apply HG; reflexivity]. eexists. reflexivity.
  - eexists. reflexivity.
Qed.

Lemma conditioned_exact n CtoP r fn X : exact_square n fn (fun i => X i * CtoP i) -> exact_square n (conditioning_wrapper fn CtoP (Num r)) X.
Proof.
  intros (Rf & J & A & B & C). unfold conditioning_wrapper.
  exists (fun X i => r * Rf (fun i => X i * CtoP i) i), (fun i j => r * J i j * CtoP j). split; [|split].
  - intros X'. destruct (A (fun i => X' i * CtoP i)) as [J' E]. unfold conditioned_fun. rewrite E. eexists. reflexivity.
  - unfold conditioned_fun. rewrite B. reflexivity.
  - intros g v t0 Hg Hv i Hi. eapply dlim_eq.
    + apply dlim_scal. apply (C (fun t i => g t i * CtoP i) (fun j => v j * CtoP j) t0); [intros j Hj; cbv beta; rewrite Hg by exact Hj; reflexivity|intros j Hj; apply dlim_scal_r, Hv; exact Hj|exact Hi].
    + rewrite <- rsum_scal_l. apply rsum_ext. intros; ring.
Qed.

Lemma conditioned_root n CtoP RPtoC fn Xp Rr : (forall i, (i < n)%nat -> sc RPtoC i <> 0) -> (forall i, CtoP i <> 0) ->
  fn Xp false = Ok (Rr, None) ->
  exists Rc, conditioning_wrapper fn CtoP RPtoC (fun i => Xp i / CtoP i) false = Ok (Rc, None) /\
    ((forall i, (i < n)%nat -> Rc i = 0) <-> forall i, (i < n)%nat -> Rr i = 0).
Proof.
  intros HR HC HF. unfold conditioning_wrapper, conditioned_fun.
  replace (fun i => Xp i / CtoP i * CtoP i) with Xp by (apply functional_extensionality; intros i; field; apply HC).
  rewrite HF. cbn [bind]. eexists. split; [reflexivity|]. split; intros H i Hi.
  - destruct (Rmult_integral _ _ (H i Hi)) as [E|E]; [contradiction (HR i Hi)|exact E].
  - rewrite H by exact Hi. ring.
Qed.

(** vector RPtoC: the returned matrix is not the Jacobian *)
Lemma conditioned_vector_wrong : exists n CtoP v fn X Rf J,
  (forall i, 0 < CtoP i) /\ (forall i, 0 < v i) /\ exact_square n fn (fun i => X i * CtoP i) /\
  (forall X', exists G, conditioning_wrapper fn CtoP (Vec v) X' true = Ok (Rf X', Some G)) /\
  conditioning_wrapper fn CtoP (Vec v) X true = Ok (Rf X, Some J) /\ ~ is_jacobian n n Rf X J.
Proof.
  set (fn := fun (X : vec) (g : bool) => Ok ((fun i => X 0%nat : R), if g then Some (fun i j : nat => if Nat.eqb j 0 then 1 else 0) else None) : result (vec * option mat)).
  exists 2%nat, (fun _ => 1), (fun i => match i with O => 1 | _ => 2 end), fn, vzero,
    (fun X i => match i with O => 1 | _ => 2 end * (X 0%nat * 1)), (fun i j => match j with O => 1 | _ => 2 end * (if Nat.eqb j 0 then 1 else 0) * 1).
  split; [intros; lra|]. split; [intros [|i]; lra|]. split; [|split; [|split]].
  - exists (fun X i => X 0%nat), (fun i j => if Nat.eqb j 0 then 1 else 0). split; [intros X'; eexists; reflexivity|]. split; [reflexivity|].
    intros g v t0 Hg Hv i Hi. eapply dlim_eq; [apply Hv; lia|]. cbn. ring.
  - intros X'. eexists. reflexivity.
  - reflexivity.
  - intros H. specialize (H (fun t i => match i with O => t | _ => 0 end) (fun i => match i with O => 1 | _ => 0 end) 0).
    specialize (H ltac:(intros [|j] Hj; reflexivity) ltac:(intros [|j] Hj; [apply dlim_id|apply dlim_const]) 1%nat ltac:(lia)).
    cbn in H. assert (H' : derivable_pt_lim (fun t => 2 * (t * 1)) 0 2) by (eapply dlim_eq; [apply dlim_scal, dlim_scal_r, dlim_id|ring]).
    pose proof (uniqueness_limite _ _ _ _ H H'). lra.
Qed.

(** ---- eigs ---- *)
Lemma eigs_history_wrong : exists (eigh : mat -> mat -> nat -> nat -> nat) N K M before,
  last (eigs_calls eigh eigs_default (before ++ [(N, K, M, None)])) O <> eigh K M O (Nat.min 2 (N - 1)).
Proof.
  exists (fun _ _ _ hi => hi), 5%nat, mid, mid, [(1%nat, mid, mid, None)]. cbn. lia.
Qed.

Lemma eigs_calls_app {A} (eigh : mat -> mat -> nat -> nat -> A) : forall before d call,
  Forall (fun c => match c with (N, _, _, None) => (3 <= N)%nat | _ => True end) before -> d = eigs_default ->
  eigs_calls eigh d (before ++ [call]) = eigs_calls eigh d before ++ eigs_calls eigh eigs_default [call].
Proof.
  induction before as [|[[[N K] M] sub] before IH]; intros d call H ->; [reflexivity|]. inversion_clear H as [|? ? H1 H2].
  cbn [app eigs_calls eigs_call]. destruct sub as [p|].
  - cbn. f_equal. apply IH; [exact H2|reflexivity].
  - unfold eigs_call. cbn [fst snd]. cbv zeta. rewrite IH; [reflexivity|exact H2|].
    unfold eigs_default. cbn [fst snd]. f_equal. apply Nat.min_l. lia.
Qed.

Lemma eigs_value {A} (eigh : mat -> mat -> nat -> nat -> A) before N K M d0 :
  Forall (fun c => match c with (N, _, _, None) => (3 <= N)%nat | _ => True end) before ->
  last (eigs_calls eigh eigs_default (before ++ [(N, K, M, None)])) d0 = eigh K M O (Nat.min 2 (N - 1)).
Proof. intros H. rewrite eigs_calls_app by (try exact H; reflexivity). cbn [eigs_calls eigs_call]. cbv zeta. rewrite last_last. reflexivity. Qed.

Lemma eigs_explicit {A} (eigh : mat -> mat -> nat -> nat -> A) : forall before d N K M lo hi d0,
  last (eigs_calls eigh d (before ++ [(N, K, M, Some (lo, hi))])) d0 = eigh K M lo (Nat.min hi (N - 1)).
Proof.
  induction before as [|[[[N' K'] M'] sub] before IH]; intros d N K M lo hi d0; [reflexivity|].
  cbn [app eigs_calls]. destruct (eigs_call eigh d N' K' M' sub) as [[r d'] o].
  rewrite <- (IH d' N K M lo hi d0). destruct (eigs_calls eigh d' (before ++ _)) eqn:E; [|reflexivity].
  exfalso. destruct before as [|[[[a b] c] e] before]; cbn [app eigs_calls] in E; [discriminate|]. destruct (eigs_call eigh d' a b c e) as [[? ?] ?]. discriminate.
Qed.
