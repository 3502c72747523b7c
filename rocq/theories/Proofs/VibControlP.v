From Coq Require Import Reals List Arith Bool ZArith Lia Lra Psatz FunctionalExtensionality.
From Verif.Lib Require Import RSum Calc Py.
From Verif.Spec Require Import Calculus Harmonic Elements System.
From Verif.Model Require Import Jenkins Harmonic LocalForces Aft VibSys.
From Verif.Proofs Require Import HarmonicP FourierP HarmonicOpsP AftP ElementsP VibSysP.
Import ListNotations.
Open Scope R_scope.

(** ---- blocks ---- *)
Lemma in_block_true a b i : (a <= i)%nat -> (i < b)%nat -> in_block a b i = true.
Proof. intros H1 H2. unfold in_block. apply andb_true_intro. split; [apply Nat.leb_le|apply Nat.ltb_lt]; assumption. Qed.
Lemma in_block_false a b i : (i < a \/ b <= i)%nat -> in_block a b i = false.
Proof.
  intros H. unfold in_block. destruct (Nat.leb_spec a i), (Nat.ltb_spec i b); try reflexivity. lia.
Qed.

Lemma rsum_in_block n a N f : (a + N <= n)%nat ->
  rsum n (fun j => if in_block a (a + N) j then f (j - a)%nat else 0) = rsum N f.
Proof.
  intros H. replace n with (a + (N + (n - a - N)))%nat by lia. rewrite !rsum_split.
  rewrite (rsum_zero a). 2: intros j Hj; rewrite in_block_false by lia; reflexivity.
  rewrite (rsum_zero (n - a - N)). 2: intros j Hj; rewrite in_block_false by lia; reflexivity.
  rewrite Rplus_0_l, Rplus_0_r. apply rsum_ext. intros j Hj. rewrite in_block_true by lia. f_equal. lia.
Qed.

Lemma rsum_two_blocks n a N (f g : nat -> R) (v : vec) : (a + N + N <= n)%nat ->
  rsum n (fun j => (if in_block a (a + N) j then f (j - a)%nat else if in_block (a + N) (a + N + N) j then g (j - (a + N))%nat else 0) * v j)
  = rsum N (fun k => f k * v (a + k)%nat) + rsum N (fun k => g k * v (a + N + k)%nat).
Proof.
  intros H. rewrite <- (rsum_in_block n a N (fun k => f k * v (a + k)%nat)) by lia.
  rewrite <- (rsum_in_block n (a + N) N (fun k => g k * v (a + N + k)%nat)) by lia.
  rewrite <- rsum_plus. apply rsum_ext. intros j Hj.
  destruct (in_block a (a + N) j) eqn:E1.
  - unfold in_block in E1. apply andb_prop in E1. destruct E1 as [A B]. apply Nat.leb_le in A. apply Nat.ltb_lt in B.
    rewrite in_block_false by lia. replace (a + (j - a))%nat with j by lia. ring.
  - destruct (in_block (a + N) (a + N + N) j) eqn:E2; [|ring].
    unfold in_block in E2. apply andb_prop in E2. destruct E2 as [A B]. apply Nat.leb_le in A. apply Nat.ltb_lt in B.
    replace (a + N + (j - (a + N)))%nat with j by lia. ring.
Qed.

Lemma rsum_one_block n a N (f : nat -> R) (v : vec) : (a + N <= n)%nat ->
  rsum n (fun j => (if in_block a (a + N) j then f (j - a)%nat else 0) * v j) = rsum N (fun k => f k * v (a + k)%nat).
Proof.
  intros H. rewrite <- (rsum_in_block n a N (fun k => f k * v (a + k)%nat)) by lia.
  apply rsum_ext. intros j Hj. destruct (in_block a (a + N) j) eqn:E1; [|ring].
  unfold in_block in E1. apply andb_prop in E1. destruct E1 as [A B]. apply Nat.leb_le in A. apply Nat.ltb_lt in B.
  replace (a + (j - a))%nat with j by lia. reflexivity.
Qed.

(** ---- the first harmonic ---- *)
Lemma in_comp_harm h c : In c (components h) -> In (match c with Cos m | Sin m => m end) h.
Proof.
  unfold components. intros H. apply in_flat_map in H. destruct H as [k [Hk Hc]].
  destruct k; cbn in Hc; [destruct Hc as [<-|[]]|destruct Hc as [<-|[<-|[]]]]; exact Hk.
Qed.

Lemma zi_starts h : starts_with_1 h -> (zi h + 2 <= length (components h))%nat.
Proof. intros [r [->| ->]]; cbn; lia. Qed.

Lemma rest_zero rest (U : nat -> R) (B : nat -> R) : ~ In 1%nat rest ->
  rsum (length (components rest)) (fun c => match nth c (components rest) (Cos 0) with
     Cos m | Sin m => if Nat.eqb m 1 then U c * B c else 0 end) = 0.
Proof.
  intros H. apply rsum_zero. intros c Hc. pose proof (in_comp_harm rest _ (nth_In _ (Cos O) Hc)) as I.
  destruct (nth c (components rest) (Cos 0)) as [m|m]; (destruct (Nat.eqb_spec m 1) as [->|]; [contradiction|reflexivity]).
Qed.

Lemma harmonic_part_1 N h U w j t : admissible h -> starts_with_1 h ->
  harmonic_part 1 N h U w j t = U (zi h * N + j)%nat * cos (w * t) + U ((zi h + 1) * N + j)%nat * sin (w * t).
Proof.
  intros [Hne [Hd Hz]] [rest [->| ->]]; unfold harmonic_part; cbn [components flat_map app length zi hd Nat.eqb].
  - inversion Hd as [|? ? Hn _]; subst. rewrite !rsum_S_l. cbn [nth].
    rewrite (rsum_ext _ _ (fun c => match nth c (components rest) (Cos 0) with
     Cos m | Sin m => if Nat.eqb m 1 then U (S (S c) * N + j)%nat * basis (1%nat :: rest) (S (S c)) (w * t) else 0 end)) by reflexivity.
    rewrite (rest_zero rest (fun c => U (S (S c) * N + j)%nat)) by exact Hn. unfold basis. cbn [nth components flat_map app comp_fun Nat.eqb].
    change (INR 1) with 1. rewrite !Rmult_1_l. cbn. rewrite !Rplus_0_r. reflexivity.
  - inversion Hd as [|? ? _ Hd']; subst. inversion Hd' as [|? ? Hn _]; subst. rewrite !rsum_S_l. cbn [nth].
    rewrite (rsum_ext _ _ (fun c => match nth c (components rest) (Cos 0) with
     Cos m | Sin m => if Nat.eqb m 1 then U (S (S (S c)) * N + j)%nat * basis (0%nat :: 1%nat :: rest) (S (S (S c))) (w * t) else 0 end)) by reflexivity.
    rewrite (rest_zero rest (fun c => U (S (S (S c)) * N + j)%nat)) by exact Hn. unfold basis. cbn [nth components flat_map app comp_fun Nat.eqb].
    change (INR 1) with 1. rewrite !Rmult_1_l. rewrite Rplus_0_r, Rplus_0_l. cbn. rewrite !Nat.add_0_r. reflexivity.
Qed.

Lemma recovered_form N h recov U w t : admissible h -> starts_with_1 h ->
  recovered N h recov U w t = dot N recov (fun i => U (zi h * N + i)%nat) * cos (w * t)
     + dot N recov (fun i => U ((zi h + 1) * N + i)%nat) * sin (w * t).
Proof.
  intros Ha H1. unfold recovered, dot. rewrite <- !rsum_scal_r, <- rsum_plus. apply rsum_ext. intros j Hj.
  rewrite harmonic_part_1 by assumption. ring.
Qed.

Lemma first_cos_eq N h U j : admissible h -> starts_with_1 h -> first_cos N h U j = U (zi h * N + j)%nat.
Proof. intros Ha H1. unfold first_cos. rewrite harmonic_part_1 by assumption. rewrite Rmult_0_r, cos_0, sin_0. ring. Qed.
Lemma first_sin_eq N h U j : admissible h -> starts_with_1 h -> first_sin N h U j = U ((zi h + 1) * N + j)%nat.
Proof. intros Ha H1. unfold first_sin. rewrite harmonic_part_1 by assumption. rewrite Rmult_1_l, cos_PI2, sin_PI2. ring. Qed.

(** ---- harmonic signals ---- *)
Lemma polar x y A : x ^ 2 + y ^ 2 = A ^ 2 -> exists phi, x = A * cos phi /\ y = A * sin phi.
Proof.
  intros H. destruct (Req_dec A 0) as [->|HA].
  - exists 0. assert (x = 0 /\ y = 0) as [-> ->]; [|split; ring].
    split; nra.
  - set (c := x / A). set (s := y / A).
    assert (Hcs : c ^ 2 + s ^ 2 = 1) by (unfold c, s; replace ((x / A) ^ 2 + (y / A) ^ 2) with ((x ^ 2 + y ^ 2) / A ^ 2) by (field; exact HA); rewrite H; field; exact HA).
    assert (Hc : -1 <= c <= 1) by nra.
    assert (Ec : x = A * c) by (unfold c; field; exact HA). assert (Es : y = A * s) by (unfold s; field; exact HA).
    assert (Hs : sin (acos c) = Rabs s).
    { rewrite sin_acos by exact Hc. replace (1 - c²) with (Rsqr s) by (unfold Rsqr; nra). apply sqrt_Rsqr_abs. }
    destruct (Rle_dec 0 s) as [Hp|Hp].
    + exists (acos c). rewrite cos_acos by exact Hc. rewrite Hs, Rabs_right by lra. auto.
    + exists (- acos c). rewrite cos_neg, sin_neg, cos_acos by exact Hc. rewrite Hs, Rabs_left by lra. split; [exact Ec|lra].
Qed.

Lemma nth_derivative_unique k : forall f f' g g', (forall t, f t = f' t) -> nth_derivative k f g -> nth_derivative k f' g' -> forall t, g t = g' t.
Proof.
  induction k as [|k IH]; intros f f' g g' E H H' t; cbn in H, H'.
  - rewrite <- H, <- H'. apply E.
  - destruct H as [d [Hd Hk]]. destruct H' as [d' [Hd' Hk']]. apply (IH d d'); auto.
    intros s. eapply uniqueness_limite; [apply Hd|]. eapply dlim_ext; [|apply Hd']. intros; symmetry; apply E.
Qed.

Lemma nth_derivative_ext k : forall f f' g, (forall t, f t = f' t) -> nth_derivative k f g -> nth_derivative k f' g.
Proof.
  destruct k as [|k]; intros f f' g E H; cbn in *.
  - intros t. rewrite <- E. apply H.
  - destruct H as [d [Hd Hk]]. exists d. split; [|exact Hk]. intros t. eapply dlim_ext; [|apply Hd]. exact E.
Qed.

Lemma harmonic_derivative w k : forall A a b, exists a' b', a' ^ 2 + b' ^ 2 = a ^ 2 + b ^ 2 /\
  nth_derivative k (fun t => A * (a * cos (w * t) + b * sin (w * t))) (fun t => A * w ^ k * (a' * cos (w * t) + b' * sin (w * t))).
Proof.
  induction k as [|k IH]; intros A a b.
  - exists a, b. split; [reflexivity|]. cbn. intros t. ring.
  - destruct (IH (A * w) b (- a)) as [a' [b' [E H]]]. exists a', b'. split; [rewrite E; ring|].
    cbn [nth_derivative]. exists (fun t => A * w * (b * cos (w * t) + - a * sin (w * t))). split.
    + intros t. eapply dlim_eq; [apply dlim_scal; apply dlim_plus; apply dlim_scal; [apply dlim_cos_lin|apply dlim_sin_lin]|]. ring.
    + replace (A * w ^ S k) with (A * w * w ^ k) by (cbn; ring). exact H.
Qed.

Lemma amplitude_iff w k a b amp y : w <> 0 -> (forall t, y t = a * cos (w * t) + b * sin (w * t)) ->
  w ^ (2 * k) * (a ^ 2 + b ^ 2) = amp ^ 2 <->
  exists yk phi, nth_derivative k y yk /\ forall t, yk t = amp * cos (w * t + phi).
Proof.
  intros Hw Hy. destruct (harmonic_derivative w k 1 a b) as [a' [b' [E H]]].
  assert (H' : nth_derivative k y (fun t => 1 * w ^ k * (a' * cos (w * t) + b' * sin (w * t)))).
  { eapply nth_derivative_ext; [|exact H]. intros t. rewrite Hy. ring. }
  replace (2 * k)%nat with (k + k)%nat by lia. rewrite pow_add. rewrite <- E. split.
  - intros Q. destruct (polar (w ^ k * a') (- (w ^ k * b')) amp) as [phi [P1 P2]]; [rewrite <- Q; ring|].
    eexists _, phi. split; [exact H'|]. intros t. cbv beta. rewrite cos_plus.
    replace (1 * w ^ k * (a' * cos (w * t) + b' * sin (w * t))) with ((w ^ k * a') * cos (w * t) - (- (w ^ k * b')) * sin (w * t)) by ring.
    rewrite P1, P2. ring.
  - intros (yk & phi & Hk & Hp).
    assert (Q : forall t, w ^ k * (a' * cos (w * t) + b' * sin (w * t)) = amp * cos (w * t + phi)).
    { intros t. rewrite <- Hp. rewrite (nth_derivative_unique k y y yk _ (fun _ => eq_refl) Hk H' t). ring. }
    pose proof (Q 0) as Q0. rewrite Rmult_0_r, cos_0, sin_0, Rplus_0_l in Q0.
    pose proof (Q (PI / 2 / w)) as Q1. replace (w * (PI / 2 / w)) with (PI / 2) in Q1 by (field; exact Hw).
    rewrite cos_PI2, sin_PI2, cos_plus, cos_PI2, sin_PI2 in Q1.
    assert (S1 : w ^ k * a' = amp * cos phi) by lra. assert (S2 : w ^ k * b' = - amp * sin phi) by lra.
    replace (w ^ k * w ^ k * (a' ^ 2 + b' ^ 2)) with ((w ^ k * a') ^ 2 + (w ^ k * b') ^ 2) by ring.
    rewrite S1, S2. pose proof (sin2_cos2 phi) as T. unfold Rsqr in T. nra.
Qed.

Lemma phase_iff w k a b amp y : w <> 0 -> (forall t, y t = a * cos (w * t) + b * sin (w * t)) ->
  w ^ k * a - amp = 0 /\ w ^ k * b = 0 <-> forall t, w ^ k * y t = amp * cos (w * t).
Proof.
  intros Hw Hy. split.
  - intros [H1 H2] t. rewrite Hy. replace (w ^ k * (a * cos (w * t) + b * sin (w * t))) with (w ^ k * a * cos (w * t) + w ^ k * b * sin (w * t)) by ring.
    rewrite H2. replace (w ^ k * a) with amp by lra. ring.
  - intros H. pose proof (H 0) as Q0. rewrite Hy, Rmult_0_r, cos_0, sin_0 in Q0.
    pose proof (H (PI / 2 / w)) as Q1. rewrite Hy in Q1. replace (w * (PI / 2 / w)) with (PI / 2) in Q1 by (field; exact Hw).
    rewrite cos_PI2, sin_PI2 in Q1. split; lra.
Qed.

(** ---- the harmonic balance rows at an arbitrary frequency ---- *)
Lemma hbm_shape_at s h Nt X w : admissible h ->
  let n := (length (components h) * vs_N s)%nat in
  Forall (aft_smooth n h Nt (take n X) w) (vs_forces s) ->
  exists (E dE : R -> mat) (F : vec -> R -> vec) dU dw,
    (forall r c w, derivable_pt_lim (fun t => E t r c) w (dE w r c)) /\
    is_joint_jacobian n n F X w dU dw /\
    (forall X' w' Fl', exists G, hbm_res s (with_entry n X' w') Fl' h Nt true = Ok (fun i => matvec n (E w') X' i + F X' w' i - Fl' i, Some G)) /\
    (forall Fl', hbm_res s (with_entry n X w) Fl' h Nt true = Ok (fun i => matvec n (E w) X i + F X w i - Fl' i,
       Some (madd (E w) dU, fun i => matvec n (dE w) X i + dw i))) /\
    (forall X' X'' w', take n X' = take n X'' -> F X' w' = F X'' w').
Proof.
  intros Ha n H. destruct (hbm_shape s h Nt X w Ha H) as (E & dE & F & dU & dw & _ & HE & HF & A & B & Fe).
  exists E, dE, F, dU, dw. split; [exact HE|]. split; [exact HF|]. fold n in A, B, Fe. cut ((forall X' w' Fl', exists G, hbm_res s (with_entry n X' w') Fl' h Nt true = Ok (fun i => matvec n (E w') X' i + F X' w' i - Fl' i, Some G)) /\
    (forall Fl', hbm_res s (with_entry n X w) Fl' h Nt true = Ok (fun i => matvec n (E w) X i + F X w i - Fl' i,
       Some (madd (E w) dU, fun i => matvec n (dE w) X i + dw i)))).
  { intros [P Q]. split; [exact P|]. split; [exact Q|exact Fe]. }
  assert (V : forall X' A i, matvec n A (with_entry n X' w) i = matvec n A X' i)
    by (intros X' A' i; apply matvec_ext; intros j Hj; apply with_entry_lt; exact Hj).
  split.
  - intros X' w' Fl'. destruct (A (with_entry n X' w') Fl') as [G HG]. exists G. rewrite HG. f_equal. f_equal. apply vec_ext. intros i.
    rewrite with_entry_n. rewrite (Fe (with_entry n X' w') X' w' (take_with n X' w')). f_equal. f_equal.
    apply matvec_ext; intros j Hj; apply with_entry_lt; exact Hj.
  - intros Fl'. rewrite (B (with_entry n X w) Fl' (take_with n X w) (with_entry_n n X w)). f_equal. f_equal.
    + apply vec_ext. intros i. rewrite V, (Fe (with_entry n X w) X w (take_with n X w)). reflexivity.
    + f_equal. f_equal. apply vec_ext. intros i. rewrite V. reflexivity.
Qed.

Lemma ltb_t a b : (a < b)%nat -> Nat.ltb a b = true. Proof. apply Nat.ltb_lt. Qed.
Lemma ltb_f a b : (b <= a)%nat -> Nat.ltb a b = false. Proof. apply Nat.ltb_ge. Qed.

Lemma rsum_p1 n f : rsum (n + 1) f = rsum n f + f n.
Proof. rewrite Nat.add_1_r. apply rsum_S. Qed.

Lemma dlim_pow_even (f : R -> R) t a k : derivable_pt_lim f t a ->
  derivable_pt_lim (fun s => f s ^ (2 * k)) t (INR (2 * k) * powerRZ (f t) (Z.of_nat (2 * k) - 1) * a).
Proof.
  intros H. eapply dlim_eq; [apply dlim_pow; exact H|].
  destruct k as [|k]; [cbn; ring|].
  replace (Z.of_nat (2 * S k) - 1)%Z with (Z.of_nat (2 * S k - 1)) by lia. rewrite <- pow_powerRZ. set (m := (2 * S k)%nat). rewrite ?Nat.sub_1_r. set (q := f t ^ pred m). set (p := INR m). ring.
Qed.

Lemma dlim_dot_l n (r : vec) (g : R -> vec) (v : vec) t0 : (forall j, (j < n)%nat -> derivable_pt_lim (fun t => g t j) t0 (v j)) ->
  derivable_pt_lim (fun t => dot n r (g t)) t0 (dot n r v).
Proof.
  intros H. unfold dot. apply (dlim_rsum n (fun j t => r j * g t j) t0 (fun j => r j * v j)). intros j Hj.
  apply dlim_scal. apply H. exact Hj.
Qed.

Lemma amp_exact s h Nt X Fl recov amp order : admissible h -> starts_with_1 h ->
  let n := (length (components h) * vs_N s)%nat in
  Forall (aft_smooth n h Nt (take n X) (X (n + 1)%nat)) (vs_forces s) ->
  exact_residual (n + 1) (n + 1) (fun X => hbm_amp_control_res s X Fl h recov amp order Nt true) X.
Proof.
  intros Ha H1 n H. destruct (hbm_shape_at s h Nt X (X (n + 1)%nat) Ha H) as (E & dE & F & dU & dw & HE & HF & A & B & _).
  fold n in A, B, HF. set (N := vs_N s) in *. set (w := X (n + 1)%nat) in *.
  set (Fs := clear_from (zi h * N) Fl). set (Fd := clear_to (zi h * N) Fl).
  set (uc := fun X' : vec => dot N recov (fun i => X' (zi h * N + i)%nat)).
  set (us := fun X' : vec => dot N recov (fun i => X' ((zi h + 1) * N + i)%nat)).
  assert (Hn : (zi h * N + N + N <= n)%nat) by (unfold n; pose proof (zi_starts h H1); nia).
  eexists (fun X' i => if Nat.ltb i n then matvec n (E (X' (n + 1)%nat)) X' i + F X' (X' (n + 1)%nat) i - (Fs i + Fd i * X' n)
                      else X' (n + 1)%nat ^ (2 * order) * (uc X' ^ 2 + us X' ^ 2) - amp ^ 2), _, _.
  split; [|split].
  - intros X'. unfold hbm_amp_control_res. rewrite nhc_aft, (nonempty_match h _ _ (proj1 Ha)). cbv zeta. fold N. fold n. fold Fs Fd.
    destruct (A X' (X' (n + 1)%nat) (fun i => Fs i + Fd i * X' n)) as [[J l] HG]. rewrite HG. cbn [bind]. eexists. reflexivity.
  - unfold hbm_amp_control_res. rewrite nhc_aft, (nonempty_match h _ _ (proj1 Ha)). cbv zeta. fold N. fold n. fold Fs Fd.
    fold w. rewrite B. cbn [bind]. reflexivity.
  - intros g v t0 Hg Hv i Hi.
    rewrite rsum_hcat, rsum_p1.
    destruct (Nat.ltb_spec i n) as [Hin|Hin].
    + rewrite (ltb_f n n) by lia.
      rewrite (rsum_ext n _ (fun j => madd (E w) dU i j * v j)) by (intros j Hj; rewrite ltb_t by exact Hj; reflexivity).
      eapply dlim_eq; [apply (hbm_along n E dE F X w dU dw HE HF g v (fun t => g t (n + 1)%nat) (v (n + 1)%nat) (fun t => Fs i + Fd i * g t n) (Fd i * v n) t0 i)|].
      * intros j Hj. apply Hg. lia.
      * apply Hg. lia.
      * intros j Hj. apply Hv. lia.
      * apply Hv. lia.
      * eapply dlim_eq; [apply dlim_plus; [apply dlim_const|apply dlim_scal; apply Hv; lia]|ring].
      * exact Hin.
      * ring.
    + replace ((zi h + 1) * N)%nat with (zi h * N + N)%nat by lia. replace ((zi h + 2) * N)%nat with (zi h * N + N + N)%nat by lia.
      pose (us' := dot N recov (fun i => X (zi h * N + N + i)%nat)).
      rewrite (rsum_ext n _ (fun j => (if in_block (zi h * N) (zi h * N + N) j then (fun k => w ^ (2 * order) * (2 * uc X * recov k)) (j - zi h * N)%nat
         else if in_block (zi h * N + N) (zi h * N + N + N) j then (fun k => w ^ (2 * order) * (2 * us' * recov k)) (j - (zi h * N + N))%nat else 0) * v j))
        by (intros j Hj; reflexivity).
      rewrite (rsum_two_blocks n (zi h * N) N (fun k => w ^ (2 * order) * (2 * uc X * recov k)) (fun k => w ^ (2 * order) * (2 * us' * recov k)) v Hn). unfold us'.
      rewrite !in_block_false by lia.
      assert (Duc : derivable_pt_lim (fun t => uc (g t)) t0 (dot N recov (fun k => v (zi h * N + k)%nat))).
      { unfold uc. apply (dlim_dot_l N recov (fun t k => g t (zi h * N + k)%nat) (fun k => v (zi h * N + k)%nat)). intros k Hk. apply Hv. lia. }
      assert (Dus : derivable_pt_lim (fun t => us (g t)) t0 (dot N recov (fun k => v (zi h * N + N + k)%nat))).
      { unfold us. replace ((zi h + 1) * N)%nat with (zi h * N + N)%nat by lia.
        apply (dlim_dot_l N recov (fun t k => g t (zi h * N + N + k)%nat) (fun k => v (zi h * N + N + k)%nat)). intros k Hk. apply Hv. lia. }
      eapply dlim_eq.
      * apply dlim_minus; [|apply dlim_const].
        apply (dlim_mult (fun t => g t (n + 1)%nat ^ (2 * order)) (fun t => uc (g t) ^ 2 + us (g t) ^ 2)).
        -- apply dlim_pow_even. apply (Hv (n + 1)%nat). lia.
        -- apply dlim_plus; apply dlim_pow; [exact Duc|exact Dus].
      * assert (G1 : g t0 (n + 1)%nat = w) by (apply Hg; lia).
        assert (Guc : uc (g t0) = uc X) by (unfold uc, dot; apply rsum_ext; intros k Hk; rewrite Hg by lia; reflexivity).
        assert (Gus : us (g t0) = us X) by (unfold us, dot; apply rsum_ext; intros k Hk; rewrite Hg by lia; reflexivity).
        rewrite G1, Guc, Gus.
        change (dot N recov (fun i => X (zi h * N + i)%nat)) with (uc X).
        replace (dot N recov (fun i => X (zi h * N + N + i)%nat)) with (us X)
          by (unfold us; replace ((zi h + 1) * N)%nat with (zi h * N + N)%nat by lia; reflexivity).
        rewrite (rsum_ext N _ (fun k => (w ^ (2 * order) * 2 * uc X) * (recov k * v (zi h * N + k)%nat))) by (intros; ring).
        rewrite (rsum_ext N (fun k => w ^ (2 * order) * (2 * us X * recov k) * v (zi h * N + N + k)%nat) (fun k => (w ^ (2 * order) * 2 * us X) * (recov k * v (zi h * N + N + k)%nat))) by (intros; ring).
        rewrite !rsum_scal_l. unfold dot. cbv beta. rewrite ?G1. cbn [Nat.sub INR pow]. ring.
Qed.

Lemma amp_zero s h Nt X Fl recov amp order outs : admissible h -> starts_with_1 h ->
  let n := (length (components h) * vs_N s)%nat in
  let w := X (n + 1)%nat in
  w <> 0 ->
  Forall2 (fun f o => nl_aft f (take n X) w h Nt = Ok o) (vs_forces s) outs ->
  exists Rr G, hbm_amp_control_res s X Fl h recov amp order Nt true = Ok (Rr, Some G) /\
    ((forall i, (i < n + 1)%nat -> Rr i = 0) <->
     equation_of_motion (vs_N s) h (vs_M s) (vs_C s) (vs_K s) X w (total_motion (vs_N s) h outs w)
       (fun i t => static_part h Fl i + X n * (motion (vs_N s) h Fl w i t - static_part h Fl i)) /\
     exists y phi, nth_derivative order (recovered (vs_N s) h recov X w) y /\ forall t, y t = amp * cos (w * t + phi)).
Proof.
  intros Ha H1 n w Hw H.
  set (Fs := clear_from (zi h * vs_N s) Fl). set (Fd := clear_to (zi h * vs_N s) Fl).
  destruct (hbm_zero_at s h Nt X w (fun i => Fs i + Fd i * X n) outs
     (fun i t => static_part h Fl i + X n * (motion (vs_N s) h Fl w i t - static_part h Fl i)) Ha Hw H) as (Rr & [J l] & HR & HZ).
  - intros i t Hi. rewrite <- (Rmult_1_l (static_part h Fl i)) at 1. rewrite <- static_split by assumption.
    unfold motion. f_equal. unfold dof_coefs. apply vec_ext. intros c. unfold Fs, Fd. ring.
  - unfold hbm_amp_control_res. rewrite nhc_aft, (nonempty_match h _ _ (proj1 Ha)). cbv zeta. fold n. fold w. fold n in HR, HZ. fold Fs Fd. rewrite HR. cbn [bind].
    eexists _, _. split; [reflexivity|]. cbv beta.
    rewrite <- (amplitude_iff w order _ _ amp _ Hw (fun t => recovered_form (vs_N s) h recov X w t Ha H1)).
    split.
    + intros Q. split.
      * apply HZ. intros i Hi. specialize (Q i ltac:(lia)). rewrite ltb_t in Q by exact Hi. exact Q.
      * specialize (Q n ltac:(lia)). rewrite ltb_f in Q by lia. lra.
    + intros [Q1 Q2] i Hi. destruct (Nat.ltb_spec i n) as [Hin|Hin].
      * apply HZ; assumption.
      * rewrite Q2. ring.
Qed.

(** ---- amplitude and phase control ---- *)
Definition ap_force (N n : nat) (h : list nat) (Fl X : vec) : vec := fun i =>
  if Nat.ltb i (zi h * N) then Fl i
  else if Nat.ltb i ((zi h + 1) * N) then X n * Fl i
  else if Nat.ltb i ((zi h + 2) * N) then X (n + 1)%nat * Fl (i - N)%nat else 0.

Lemma ap_force_motion N n h Fl X w i t : admissible h -> starts_with_1 h -> (i < N)%nat ->
  motion N h (ap_force N n h Fl X) w i t
  = static_part h Fl i + (X n * cos (w * t) + X (n + 1)%nat * sin (w * t)) * first_cos N h Fl i.
Proof.
  intros Ha H1 Hi. rewrite first_cos_eq by assumption. destruct Ha as [Hne [Hd Hz]].
  destruct H1 as [rest [->| ->]]; unfold motion, series, dof_coefs, static_part, ap_force; cbn [components flat_map app length zi hd Nat.eqb].
  - destruct (in_dec Nat.eq_dec O (1%nat :: rest)) as [[E|I0]|_]; [discriminate|exfalso; apply Hz; exact I0|].
    rewrite !rsum_S_l.
    rewrite rsum_zero.
    2:{ intros c Hc. rewrite (ltb_f _ (0 * N)), (ltb_f _ ((0 + 1) * N)), (ltb_f _ ((0 + 2) * N)) by nia. ring. }
    rewrite !(ltb_f _ (0 * N)) by lia. rewrite (ltb_t (0 * N + i) ((0 + 1) * N)) by lia.
    rewrite (ltb_f (1 * N + i) ((0 + 1) * N)) by lia. rewrite (ltb_t (1 * N + i) ((0 + 2) * N)) by lia.
    unfold basis. cbn [nth components flat_map app comp_fun]. change (INR 1) with 1. rewrite !Rmult_1_l.
    replace (1 * N + i - N)%nat with (0 * N + i)%nat by lia. ring.
  - destruct (in_dec Nat.eq_dec O (0%nat :: 1%nat :: rest)) as [_|N0]; [|exfalso; apply N0; left; reflexivity].
    rewrite !rsum_S_l.
    rewrite rsum_zero.
    2:{ intros c Hc. rewrite (ltb_f _ (1 * N)), (ltb_f _ ((1 + 1) * N)), (ltb_f _ ((1 + 2) * N)) by nia. ring. }
    rewrite (ltb_t (0 * N + i) (1 * N)) by lia. rewrite !(ltb_f _ (1 * N)) by lia.
    rewrite (ltb_t (1 * N + i) ((1 + 1) * N)) by lia.
    rewrite (ltb_f (2 * N + i) ((1 + 1) * N)) by lia. rewrite (ltb_t (2 * N + i) ((1 + 2) * N)) by lia.
    unfold basis. cbn [nth components flat_map app comp_fun]. change (INR 1) with 1. change (INR 0) with 0. rewrite !Rmult_1_l, Rmult_0_l, cos_0.
    replace (2 * N + i - N)%nat with (1 * N + i)%nat by lia. rewrite Nat.mul_0_l, Nat.add_0_l. ring.
Qed.

Lemma ap_force_deriv N n h Fl (g : R -> vec) (v : vec) t0 i :
  derivable_pt_lim (fun t => g t n) t0 (v n) -> derivable_pt_lim (fun t => g t (n + 1)%nat) t0 (v (n + 1)%nat) ->
  derivable_pt_lim (fun t => ap_force N n h Fl (g t) i) t0
    ((if in_block (zi h * N) ((zi h + 1) * N) i then Fl i else 0) * v n
     + (if in_block ((zi h + 1) * N) ((zi h + 2) * N) i then Fl (i - N)%nat else 0) * v (n + 1)%nat).
Proof.
  intros D1 D2. unfold ap_force.
  destruct (Nat.ltb_spec i (zi h * N)) as [A|A].
  { rewrite !in_block_false by lia. eapply dlim_eq; [apply dlim_const|ring]. }
  destruct (Nat.ltb_spec i ((zi h + 1) * N)) as [B|B].
  { rewrite in_block_true, in_block_false by lia. eapply dlim_eq; [apply dlim_scal_r; exact D1|ring]. }
  destruct (Nat.ltb_spec i ((zi h + 2) * N)) as [D|D].
  { rewrite in_block_false, in_block_true by lia. eapply dlim_eq; [apply dlim_scal_r; exact D2|ring]. }
  rewrite !in_block_false by lia. eapply dlim_eq; [apply dlim_const|ring].
Qed.


Definition ap_fun (N n : nat) (h : list nat) (E : R -> mat) (F : vec -> R -> vec) (Fl recov : vec) (order : nat) (X : vec) (w amp : R) : vec :=
  fun i => if Nat.ltb i n then matvec n (E w) X i + F X w i - ap_force N n h Fl X i
    else if Nat.eqb i n then w ^ order * dot N recov (fun i => X (zi h * N + i)%nat) - amp
    else w ^ order * dot N recov (fun i => X ((zi h + 1) * N + i)%nat).

Lemma amp_phase_shape s h Nt X w Fl recov order : admissible h -> starts_with_1 h ->
  let N := vs_N s in
  let n := (length (components h) * N)%nat in
  w <> 0 ->
  Forall (aft_smooth n h Nt (take n X) w) (vs_forces s) ->
  exists (E : R -> mat) (F : vec -> R -> vec) (J : mat) (l : vec),
    (forall X' amp', exists G, hbm_amp_phase_control_res s X' Fl h recov amp' order Nt true
        = Ok (ap_fun N n h E F Fl recov order X' (X' (n + 2)%nat) amp', Some G)) /\
    (forall X' amp, (forall i, (i < n + 2)%nat -> X' i = X i) -> X' (n + 2)%nat = w ->
      hbm_amp_phase_control_res s X' Fl h recov amp order Nt true
        = Ok (ap_fun N n h E F Fl recov order X' w amp, Some (J, l))) /\
    (forall X' X'' w' a, (forall i, (i < n + 2)%nat -> X' i = X'' i) ->
      ap_fun N n h E F Fl recov order X' w' a = ap_fun N n h E F Fl recov order X'' w' a) /\
    forall (g : R -> vec) (v : vec) (om al : R -> R) (dom dal t0 : R) i,
      (forall j, (j < n + 2)%nat -> g t0 j = X j) -> om t0 = w ->
      (forall j, (j < n + 2)%nat -> derivable_pt_lim (fun t => g t j) t0 (v j)) ->
      derivable_pt_lim om t0 dom -> derivable_pt_lim al t0 dal -> (i < n + 2)%nat ->
      derivable_pt_lim (fun t => ap_fun N n h E F Fl recov order (g t) (om t) (al t) i) t0
        (rsum (n + 2) (fun j => J i j * v j) + l i * dom + (if Nat.eqb i n then - dal else 0)).
Proof.
  intros Ha H1 N n Hw H. destruct (hbm_shape_at s h Nt X w Ha H) as (E & dE & F & dU & dw & HE & HF & A & B & Fe).
  fold N n in A, B, HF, Fe.
  assert (Hn : (zi h * N + N + N <= n)%nat) by (unfold n; pose proof (zi_starts h H1); nia).
  assert (EXT : forall X' X'' w' a, (forall i, (i < n + 2)%nat -> X' i = X'' i) ->
      ap_fun N n h E F Fl recov order X' w' a = ap_fun N n h E F Fl recov order X'' w' a).
  { intros X' X'' w' a HX. apply vec_ext. intros i. unfold ap_fun.
    rewrite (Fe X' X'' w') by (apply take_ext; intros j Hj; apply HX; lia).
    rewrite (matvec_ext n (E w') X' X'' i) by (intros j Hj; apply HX; lia).
    unfold ap_force. rewrite (HX n), (HX (n + 1)%nat) by lia.
    destruct (Nat.ltb i n); [reflexivity|]. unfold dot.
    rewrite (rsum_ext N (fun i0 => recov i0 * X' (zi h * N + i0)%nat) (fun i0 => recov i0 * X'' (zi h * N + i0)%nat)) by (intros k Hk; rewrite HX by lia; reflexivity).
    rewrite (rsum_ext N (fun i0 => recov i0 * X' ((zi h + 1) * N + i0)%nat) (fun i0 => recov i0 * X'' ((zi h + 1) * N + i0)%nat)) by (intros k Hk; rewrite HX by lia; reflexivity).
    reflexivity. }
  exists E, F. eexists _, _. split; [|split; [|split; [exact EXT|]]].
  - intros X' amp'. unfold hbm_amp_phase_control_res. rewrite nhc_aft, (nonempty_match h _ _ (proj1 Ha)). cbv zeta. fold N. fold n.
    destruct (A X' (X' (n + 2)%nat) (ap_force N n h Fl X')) as [[J l] HG]. unfold ap_force in HG at 1. rewrite HG. cbn [bind]. eexists. reflexivity.
  - intros X' amp HX HXw. unfold hbm_amp_phase_control_res. rewrite nhc_aft, (nonempty_match h _ _ (proj1 Ha)). cbv zeta. fold N. fold n. rewrite HXw.
    assert (EQ : with_entry n X' w = with_entry n X w).
    { apply vec_ext. intros i. unfold with_entry. destruct (Nat.ltb_spec i n); [apply HX; lia|reflexivity]. }
    rewrite EQ. rewrite B. cbn [bind]. f_equal. f_equal.
    + rewrite (EXT X' X) by exact HX. unfold ap_fun, ap_force. rewrite (HX n), (HX (n + 1)%nat) by lia.
      apply vec_ext. intros i. destruct (Nat.ltb i n); [reflexivity|]. unfold dot.
      rewrite (rsum_ext N (fun i0 => recov i0 * X' (zi h * N + i0)%nat) (fun i0 => recov i0 * X (zi h * N + i0)%nat)) by (intros k Hk; rewrite HX by lia; reflexivity).
      rewrite (rsum_ext N (fun i0 => recov i0 * X' ((zi h + 1) * N + i0)%nat) (fun i0 => recov i0 * X ((zi h + 1) * N + i0)%nat)) by (intros k Hk; rewrite HX by lia; reflexivity).
      reflexivity.
    + unfold dot.
      rewrite (rsum_ext N (fun i0 => recov i0 * X' (zi h * N + i0)%nat) (fun i0 => recov i0 * X (zi h * N + i0)%nat)) by (intros k Hk; rewrite HX by lia; reflexivity).
      rewrite (rsum_ext N (fun i0 => recov i0 * X' ((zi h + 1) * N + i0)%nat) (fun i0 => recov i0 * X ((zi h + 1) * N + i0)%nat)) by (intros k Hk; rewrite HX by lia; reflexivity).
      reflexivity.
  - intros g v om al dom dal t0 i Hg Ho Hv Hd Ha' Hi.
    replace (n + 2)%nat with (n + 1 + 1)%nat by lia. rewrite !rsum_p1. unfold ap_fun.
    rewrite (ltb_f n n), (ltb_f (n + 1) n), Nat.eqb_refl, (proj2 (Nat.eqb_neq (n + 1) n)) by lia.
    destruct (Nat.ltb_spec i n) as [Hin|Hin].
    + rewrite (proj2 (Nat.eqb_neq i n)) by lia.
      rewrite (rsum_ext n _ (fun j => madd (E w) dU i j * v j)) by (intros j Hj; rewrite ltb_t by exact Hj; reflexivity).
      eapply dlim_eq; [apply (hbm_along n E dE F X w dU dw HE HF g v om dom (fun t => ap_force N n h Fl (g t) i)
        ((if in_block (zi h * N) ((zi h + 1) * N) i then Fl i else 0) * v n + (if in_block ((zi h + 1) * N) ((zi h + 2) * N) i then Fl (i - N)%nat else 0) * v (n + 1)%nat) t0 i)|].
      * intros j Hj. apply Hg. lia.
      * exact Ho.
      * intros j Hj. apply Hv. lia.
      * exact Hd.
      * apply (ap_force_deriv N n h Fl g v t0 i); apply Hv; lia.
      * exact Hin.
      * destruct (in_block (zi h * N) ((zi h + 1) * N) i), (in_block ((zi h + 1) * N) ((zi h + 2) * N) i); ring.
    + destruct (Nat.eqb_spec i n) as [->|Hne].
      * replace ((zi h + 1) * N)%nat with (zi h * N + N)%nat by lia.
        rewrite (rsum_one_block n (zi h * N) N (fun k => w ^ order * recov k) v) by lia. rewrite !in_block_false by lia.
        eapply dlim_eq.
        -- apply dlim_minus; [|exact Ha']. apply (dlim_mult (fun t => om t ^ order) (fun t => dot N recov (fun i => g t (zi h * N + i)%nat))).
           ++ apply dlim_pow. exact Hd.
           ++ apply (dlim_dot_l N recov (fun t k => g t (zi h * N + k)%nat) (fun k => v (zi h * N + k)%nat)). intros k Hk. apply Hv. lia.
        -- cbv beta. rewrite Ho. replace (dot N recov (fun i => g t0 (zi h * N + i)%nat)) with (dot N recov (fun i => X (zi h * N + i)%nat))
             by (unfold dot; apply rsum_ext; intros k Hk; rewrite Hg by lia; reflexivity).
           rewrite (rsum_ext N _ (fun k => w ^ order * (recov k * v (zi h * N + k)%nat))) by (intros; ring). rewrite rsum_scal_l.
           unfold dot. destruct order as [|k]; [cbn; field; exact Hw|]. replace (S k - 1)%nat with k by lia.
           set (q := INR (S k)). cbn [pow]. field. exact Hw.
      * replace ((zi h + 2) * N)%nat with ((zi h + 1) * N + N)%nat by lia.
        rewrite (rsum_one_block n ((zi h + 1) * N) N (fun k => w ^ order * recov k) v) by lia. rewrite !in_block_false by lia.
        eapply dlim_eq.
        -- apply (dlim_mult (fun t => om t ^ order) (fun t => dot N recov (fun i => g t ((zi h + 1) * N + i)%nat))).
           ++ apply dlim_pow. exact Hd.
           ++ apply (dlim_dot_l N recov (fun t k => g t ((zi h + 1) * N + k)%nat) (fun k => v ((zi h + 1) * N + k)%nat)). intros k Hk. apply Hv. lia.
        -- cbv beta. rewrite Ho. replace (dot N recov (fun i => g t0 ((zi h + 1) * N + i)%nat)) with (dot N recov (fun i => X ((zi h + 1) * N + i)%nat))
             by (unfold dot; apply rsum_ext; intros k Hk; rewrite Hg by lia; reflexivity).
           rewrite (rsum_ext N _ (fun k => w ^ order * (recov k * v ((zi h + 1) * N + k)%nat))) by (intros; ring). rewrite rsum_scal_l.
           unfold dot. destruct order as [|k]; [cbn; field; exact Hw|]. replace (S k - 1)%nat with k by lia.
           set (q := INR (S k)). cbn [pow]. field. exact Hw.
Qed.

Lemma amp_phase_exact s h Nt X Fl recov amp order : admissible h -> starts_with_1 h ->
  let n := (length (components h) * vs_N s)%nat in
  X (n + 2)%nat <> 0 ->
  Forall (aft_smooth n h Nt (take n X) (X (n + 2)%nat)) (vs_forces s) ->
  exact_residual (n + 2) (n + 2) (fun X => hbm_amp_phase_control_res s X Fl h recov amp order Nt true) X.
Proof.
  intros Ha H1 n Hw H. destruct (amp_phase_shape s h Nt X (X (n + 2)%nat) Fl recov order Ha H1 Hw H) as (E & F & J & l & A & B & _ & D).
  fold n in A, B, D. exists (fun X' => ap_fun (vs_N s) n h E F Fl recov order X' (X' (n + 2)%nat) amp), J, l.
  split; [intros X'; apply A|]. split; [apply B; auto|].
  intros g v t0 Hg Hv i Hi. rewrite rsum_hcat.
  eapply dlim_eq; [apply (D g v (fun t => g t (n + 2)%nat) (fun _ => amp) (v (n + 2)%nat) 0 t0 i)|].
  - intros j Hj. apply Hg. lia.
  - apply Hg. lia.
  - intros j Hj. apply Hv. lia.
  - apply Hv. lia.
  - apply dlim_const.
  - exact Hi.
  - destruct (Nat.eqb i n); ring.
Qed.

Lemma with_entry_id m (X : vec) x : forall i, (i < m)%nat -> with_entry m X x i = X i.
Proof. intros i Hi. apply with_entry_lt. exact Hi. Qed.

Lemma amp_phase_dA_exact s h Nt X Fl recov w order : admissible h -> starts_with_1 h ->
  let n := (length (components h) * vs_N s)%nat in
  w <> 0 ->
  Forall (aft_smooth n h Nt (take n X) w) (vs_forces s) ->
  exact_residual (n + 2) (n + 2) (fun X => hbm_amp_phase_control_dA_res s X Fl h recov w order Nt true) X.
Proof.
  intros Ha H1 n Hw H. destruct (amp_phase_shape s h Nt X w Fl recov order Ha H1 Hw H) as (E & F & J & l & A & B & EXT & D).
  fold n in A, B, D, EXT. exists (fun X' => ap_fun (vs_N s) n h E F Fl recov order X' w (X' (n + 2)%nat)), J, (fun i => if Nat.eqb i n then -1 else 0).
  split; [|split].
  - intros X'. unfold hbm_amp_phase_control_dA_res. rewrite nhc_aft. fold n.
    destruct (A (with_entry (n + 2) X' w) (X' (n + 2)%nat)) as [[J' l'] HG]. rewrite HG. cbn [bind]. rewrite with_entry_n.
    rewrite (EXT (with_entry (n + 2) X' w) X') by apply with_entry_id. eexists. reflexivity.
  - unfold hbm_amp_phase_control_dA_res. rewrite nhc_aft. fold n.
    rewrite (B (with_entry (n + 2) X w) (X (n + 2)%nat)) by (apply with_entry_id || apply with_entry_n). cbn [bind].
    rewrite (EXT (with_entry (n + 2) X w) X) by apply with_entry_id. reflexivity.
  - intros g v t0 Hg Hv i Hi. rewrite rsum_hcat.
    eapply dlim_eq; [apply (D g v (fun _ => w) (fun t => g t (n + 2)%nat) 0 (v (n + 2)%nat) t0 i)|].
    + intros j Hj. apply Hg. lia.
    + reflexivity.
    + intros j Hj. apply Hv. lia.
    + apply dlim_const.
    + apply Hv. lia.
    + exact Hi.
    + destruct (Nat.eqb i n); ring.
Qed.

Lemma amp_phase_zero s h Nt X Fl recov amp order outs : admissible h -> starts_with_1 h ->
  let n := (length (components h) * vs_N s)%nat in
  let w := X (n + 2)%nat in
  w <> 0 ->
  Forall2 (fun f o => nl_aft f (take n X) w h Nt = Ok o) (vs_forces s) outs ->
  exists Rr G, hbm_amp_phase_control_res s X Fl h recov amp order Nt true = Ok (Rr, Some G) /\
    ((forall i, (i < n + 2)%nat -> Rr i = 0) <->
     equation_of_motion (vs_N s) h (vs_M s) (vs_C s) (vs_K s) X w (total_motion (vs_N s) h outs w)
       (fun i t => static_part h Fl i + (X n * cos (w * t) + X (n + 1)%nat * sin (w * t)) * first_cos (vs_N s) h Fl i) /\
     forall t, w ^ order * recovered (vs_N s) h recov X w t = amp * cos (w * t)).
Proof.
  intros Ha H1 n w Hw H.
  destruct (hbm_zero_at s h Nt X w (ap_force (vs_N s) n h Fl X) outs
     (fun i t => static_part h Fl i + (X n * cos (w * t) + X (n + 1)%nat * sin (w * t)) * first_cos (vs_N s) h Fl i) Ha Hw H) as (Rr & [J l] & HR & HZ).
  - intros i t Hi. apply ap_force_motion; assumption.
  - unfold hbm_amp_phase_control_res. rewrite nhc_aft, (nonempty_match h _ _ (proj1 Ha)). cbv zeta. fold n. fold w. fold n in HR, HZ.
    unfold ap_force in HR. rewrite HR. cbn [bind].
    eexists _, _. split; [reflexivity|]. cbv beta.
    rewrite <- (phase_iff w order _ _ amp _ Hw (fun t => recovered_form (vs_N s) h recov X w t Ha H1)).
    split.
    + intros Q. split; [|split].
      * apply HZ. intros i Hi. specialize (Q i ltac:(lia)). rewrite ltb_t in Q by exact Hi. exact Q.
      * specialize (Q n ltac:(lia)). rewrite ltb_f, Nat.eqb_refl in Q by lia. exact Q.
      * specialize (Q (n + 1)%nat ltac:(lia)). rewrite ltb_f, (proj2 (Nat.eqb_neq (n + 1) n)) in Q by lia. exact Q.
    + intros [Q1 [Q2 Q3]] i Hi. destruct (Nat.ltb_spec i n) as [Hin|Hin].
      * apply HZ; assumption.
      * destruct (Nat.eqb i n); assumption.
Qed.

Lemma amp_phase_dA_zero s h Nt X Fl recov w order outs : admissible h -> starts_with_1 h ->
  let n := (length (components h) * vs_N s)%nat in
  w <> 0 ->
  Forall2 (fun f o => nl_aft f (take n X) w h Nt = Ok o) (vs_forces s) outs ->
  exists Rr G, hbm_amp_phase_control_dA_res s X Fl h recov w order Nt true = Ok (Rr, Some G) /\
    ((forall i, (i < n + 2)%nat -> Rr i = 0) <->
     equation_of_motion (vs_N s) h (vs_M s) (vs_C s) (vs_K s) X w (total_motion (vs_N s) h outs w)
       (fun i t => static_part h Fl i + (X n * cos (w * t) + X (n + 1)%nat * sin (w * t)) * first_cos (vs_N s) h Fl i) /\
     forall t, w ^ order * recovered (vs_N s) h recov X w t = X (n + 2)%nat * cos (w * t)).
Proof.
  intros Ha H1 n Hw H. set (Y := with_entry (n + 2) X w).
  assert (HY : forall i, (i < n + 2)%nat -> Y i = X i) by apply with_entry_id.
  assert (Yw : Y (n + 2)%nat = w) by apply with_entry_n.
  destruct (amp_phase_zero s h Nt Y Fl recov (X (n + 2)%nat) order outs Ha H1) as (Rr & [J l] & HR & HZ).
  - fold n. rewrite Yw. exact Hw.
  - fold n. rewrite Yw. rewrite (take_ext n Y X) by (intros; apply HY; lia). exact H.
  - fold n in HZ. rewrite Yw in HZ. unfold hbm_amp_phase_control_dA_res. rewrite nhc_aft. fold n. fold Y. rewrite HR. cbn [bind].
    eexists _, _. split; [reflexivity|]. rewrite HZ. rewrite (HY n), (HY (n + 1)%nat) by lia.
    rewrite (eom_U_ext _ _ _ _ _ Y X) by (intros r Hr; apply HY; unfold n; lia).
    assert (RE : forall t, recovered (vs_N s) h recov Y w t = recovered (vs_N s) h recov X w t).
    { intros t. rewrite !recovered_form by assumption. pose proof (zi_starts h H1) as Z. unfold dot. f_equal; f_equal; apply rsum_ext; intros k Hk; rewrite HY by (unfold n; nia); reflexivity. }
    split; intros [Q1 Q2]; (split; [exact Q1|]); intros t; [rewrite <- RE|rewrite RE]; apply Q2.
Qed.
