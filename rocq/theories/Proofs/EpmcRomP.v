(** Proofs for the EPMC reduced order models. *)
From Coq Require Import Reals List Arith Bool Lia Lra Sorted Permutation.
From Verif.Lib Require Import RSum Calc LinAlg Py.
From Verif.Spec Require Import Calculus Harmonic System Postprocess Rom.
From Verif.Model Require Import Harmonic Postprocess EpmcRom.
From Verif.Proofs Require Import HarmonicP HarmonicOpsP VibSysP VibControlP EpmcP PostP.
Import ListNotations.
Open Scope R_scope.

Lemma sq_pos x : x <> 0 -> 0 < x ^ 2.
Proof. intros H. rewrite <- Rsqr_pow2. apply Rsqr_pos_lt. exact H. Qed.

(** ---- arctan2 ---- *)
Lemma sqrt_scaled x y : x <> 0 -> sqrt (x ^ 2 + y ^ 2) = Rabs x * sqrt (1 + (y / x)²).
Proof.
  intros Hx. rewrite <- (sqrt_Rsqr_abs x), <- sqrt_mult; try (unfold Rsqr; nra).
  f_equal. unfold Rsqr. field. exact Hx.
Qed.

Lemma sqrt_one_pos z : 0 < sqrt (1 + z²).
Proof. apply sqrt_lt_R0. pose proof (Rle_0_sqr z). lra. Qed.

Lemma atan2_polar y x : let r := sqrt (x ^ 2 + y ^ 2) in r * cos (atan2 y x) = x /\ r * sin (atan2 y x) = y.
Proof.
  cbv zeta. unfold atan2. pose proof (sqrt_one_pos (y / x)) as Hp.
  destruct (Rltb 0 x) eqn:E1; [apply Rltb_true in E1|apply Rltb_false in E1].
  { rewrite sqrt_scaled by lra. rewrite cos_atan, sin_atan, Rabs_right by lra. split; field; lra. }
  destruct (Rltb x 0) eqn:E2; [apply Rltb_true in E2|apply Rltb_false in E2].
  { rewrite sqrt_scaled by lra. rewrite Rabs_left by lra.
    destruct (Rleb 0 y); [rewrite neg_cos, neg_sin|
      replace (atan (y / x) - PI) with (- (PI - atan (y / x))) by ring; rewrite cos_neg, sin_neg, Rtrigo_facts.cos_pi_minus, Rtrigo_facts.sin_pi_minus];
    rewrite cos_atan, sin_atan; split; field; lra. }
  assert (x = 0) by lra. subst x. replace (0 ^ 2 + y ^ 2) with (Rsqr y) by (unfold Rsqr; ring). rewrite sqrt_Rsqr_abs.
  destruct (Rltb 0 y) eqn:E3; [apply Rltb_true in E3|apply Rltb_false in E3].
  { rewrite cos_PI2, sin_PI2, Rabs_right by lra. split; ring. }
  destruct (Rltb y 0) eqn:E4; [apply Rltb_true in E4|apply Rltb_false in E4].
  { rewrite cos_neg, sin_neg, cos_PI2, sin_PI2, Rabs_left by lra. split; ring. }
  assert (y = 0) by lra. subst y. rewrite Rabs_R0. split; ring.
Qed.

Lemma atan2_range y x : - PI < atan2 y x <= PI.
Proof.
  unfold atan2. pose proof PI_RGT_0 as Hpi. pose proof (atan_bound (y / x)) as Ha.
  destruct (Rltb 0 x) eqn:E1; [lra|apply Rltb_false in E1].
  destruct (Rltb x 0) eqn:E2; [apply Rltb_true in E2|].
  { assert (Hi : / x < 0) by (apply Rinv_lt_0_compat; exact E2).
    destruct (Rleb 0 y) eqn:E3; [apply Rleb_true in E3|apply Rleb_false in E3].
    - assert (atan (y / x) <= 0); [|lra]. rewrite <- atan_0. destruct (Req_dec y 0) as [->|].
      + unfold Rdiv. rewrite Rmult_0_l. lra.
      + left. apply atan_increasing. unfold Rdiv. nra.
    - assert (0 < atan (y / x)); [|lra]. rewrite <- atan_0. apply atan_increasing. unfold Rdiv. nra. }
  destruct (Rltb 0 y); [lra|]. destruct (Rltb y 0); lra.
Qed.

(** ---- masks and elementwise operations on one index list ---- *)
Lemma bmask_map {I A} (m : I -> bool) (f : I -> A) l : bmask (map m l) (map f l) = map f (filter m l).
Proof.
  unfold bmask. induction l as [|i l IH]; [reflexivity|]. cbn. destruct (m i); cbn; rewrite IH; reflexivity.
Qed.
Lemma map2_map {I A B C} (f : A -> B -> C) (a : I -> A) (b : I -> B) l : map2 f (map a l) (map b l) = map (fun i => f (a i) (b i)) l.
Proof. unfold map2. induction l as [|i l IH]; [reflexivity|]. cbn. rewrite IH. reflexivity. Qed.

Definition tags (M : nat) : list (nat * bool) := map (fun j => (j, true)) (seq 0 M) ++ rev (map (fun j => (j, false)) (seq 0 M)).
Lemma two_halves {A} M (f g : nat -> A) : map f (seq 0 M) ++ rev (map g (seq 0 M)) = map (fun t : nat * bool => if snd t then f (fst t) else g (fst t)) (tags M).
Proof. unfold tags. rewrite map_app, map_rev, !map_map. reflexivity. Qed.
Lemma two_same {A} M (f : nat -> A) : map f (seq 0 M) ++ rev (map f (seq 0 M)) = map (fun t : nat * bool => f (fst t)) (tags M).
Proof. rewrite two_halves. apply map_ext. intros [j []]; reflexivity. Qed.

(** ---- the modal equation ---- *)
Lemma steady_algebra w z fr fi Om q p : Om <> 0 ->
  (steady_response w z fr fi Om q p <->
   q * ((w ^ 2 - Om ^ 2) * cos p + 2 * z * w * Om * sin p) = fr /\ q * (2 * z * w * Om * cos p - (w ^ 2 - Om ^ 2) * sin p) = fi).
Proof.
  intros HO.
  assert (L : forall t, derivable_pt_lim (fun t => Om * t - p) t Om).
  { intros t. apply (dlim_eq _ _ (Om * 1 - 0)); [|ring]. apply dlim_minus; [apply dlim_scal, dlim_id|apply dlim_const]. }
  assert (D1 : forall t, derivable_pt_lim (fun t => q * cos (Om * t - p)) t (- q * Om * sin (Om * t - p))).
  { intros t. apply (dlim_eq _ _ (q * (- sin (Om * t - p) * Om))); [|ring]. apply dlim_scal.
    apply (dlim_comp (fun t => Om * t - p) cos); [apply L|apply derivable_pt_lim_cos]. }
  assert (D2 : forall t, derivable_pt_lim (fun t => - q * Om * sin (Om * t - p)) t (- q * Om ^ 2 * cos (Om * t - p))).
  { intros t. apply (dlim_eq _ _ (- q * Om * (cos (Om * t - p) * Om))); [|ring]. apply dlim_scal.
    apply (dlim_comp (fun t => Om * t - p) sin); [apply L|apply derivable_pt_lim_sin]. }
  split.
  - intros [v [a [Hv [Ha E]]]].
    assert (Ev : forall t, v t = - q * Om * sin (Om * t - p)) by (intros t; exact (uniqueness_limite _ _ _ _ (Hv t) (D1 t))).
    assert (Ea : forall t, a t = - q * Om ^ 2 * cos (Om * t - p)).
    { intros t. apply (uniqueness_limite v t _ _ (Ha t)). apply (dlim_ext (fun t => - q * Om * sin (Om * t - p))); [intros s; symmetry; apply Ev|apply D2]. }
    pose proof (E 0) as E0. pose proof (E (PI / 2 / Om)) as E1. rewrite Ev, Ea in E0, E1.
    replace (Om * (PI / 2 / Om)) with (PI / 2) in E1 by (field; exact HO).
    replace (Om * 0) with 0 in E0 by ring. rewrite cos_minus, sin_minus, cos_0, sin_0 in E0. rewrite cos_minus, sin_minus, cos_PI2, sin_PI2 in E1.
    split; lra.
  - intros [E1 E2]. exists (fun t => - q * Om * sin (Om * t - p)), (fun t => - q * Om ^ 2 * cos (Om * t - p)).
    split; [exact D1|split; [exact D2|]]. intros t. rewrite cos_minus, sin_minus, <- E1, <- E2. ring.
Qed.

(** amplitude equation and phase *)
Section one_point.
Variables w z fr fi q : R.
Hypothesis q_pos : 0 < q.
Let p2 := w ^ 2 - 2 * (z * w) ^ 2.
Let root := p2 ^ 2 - w ^ 4 + sqrt (fr ^ 2 + fi ^ 2) ^ 2 / q ^ 2.

Lemma root_value : root = p2 ^ 2 - w ^ 4 + (fr ^ 2 + fi ^ 2) / q ^ 2.
Proof. unfold root. rewrite pow2_sqrt by nra. reflexivity. Qed.

Lemma amplitude_root Om : (w ^ 2 - Om ^ 2) ^ 2 + (2 * z * w * Om) ^ 2 = (Om ^ 2 - p2) ^ 2 - p2 ^ 2 + w ^ 4.
Proof. unfold p2. ring. Qed.

Lemma branch_amplitude Om : (Om ^ 2 - p2) ^ 2 = root <-> q ^ 2 * ((w ^ 2 - Om ^ 2) ^ 2 + (2 * z * w * Om) ^ 2) = fr ^ 2 + fi ^ 2.
Proof.
  rewrite amplitude_root, root_value. split; intros H.
  - rewrite H. field. lra.
  - rewrite <- H. field. lra.
Qed.

Lemma phase_of_branch Om : (Om ^ 2 - p2) ^ 2 = root ->
  let D := w ^ 2 - Om ^ 2 in let E := 2 * Om * w * z in
  let p := atan2 (fr * E - fi * D) (fr * D + fi * E) in
  q * (D * cos p + 2 * z * w * Om * sin p) = fr /\ q * (2 * z * w * Om * cos p - D * sin p) = fi.
Proof.
  intros H. cbv zeta. apply branch_amplitude in H. set (D := w ^ 2 - Om ^ 2) in *.
  replace (2 * Om * w * z) with (2 * z * w * Om) by ring. set (E := 2 * z * w * Om) in *.
  destruct (atan2_polar (fr * E - fi * D) (fr * D + fi * E)) as [C S].
  set (p := atan2 _ _) in *. clearbody p.
  replace ((fr * D + fi * E) ^ 2 + (fr * E - fi * D) ^ 2) with ((q * (D ^ 2 + E ^ 2))²) in C, S.
  2:{ unfold Rsqr. replace ((fr * D + fi * E) ^ 2 + (fr * E - fi * D) ^ 2) with ((fr ^ 2 + fi ^ 2) * (D ^ 2 + E ^ 2)) by ring. rewrite <- H. ring. }
  rewrite sqrt_Rsqr in C, S by (apply Rmult_le_pos; nra).
  destruct (Req_dec (D ^ 2 + E ^ 2) 0) as [Z|NZ].
  - assert (D = 0) by nra. assert (E = 0) by nra. assert (fr = 0) by nra. assert (fi = 0) by nra.
    replace D with 0 by auto. replace E with 0 by auto. lra.
  - split; apply (Rmult_eq_reg_r (D ^ 2 + E ^ 2)); try exact NZ.
    + transitivity (D * (q * (D ^ 2 + E ^ 2) * cos p) + E * (q * (D ^ 2 + E ^ 2) * sin p)); [ring|]. rewrite C, S. ring.
    + transitivity (E * (q * (D ^ 2 + E ^ 2) * cos p) - D * (q * (D ^ 2 + E ^ 2) * sin p)); [ring|]. rewrite C, S. ring.
Qed.

Lemma algebra_amplitude Om p :
  q * ((w ^ 2 - Om ^ 2) * cos p + 2 * z * w * Om * sin p) = fr /\ q * (2 * z * w * Om * cos p - (w ^ 2 - Om ^ 2) * sin p) = fi ->
  (Om ^ 2 - p2) ^ 2 = root.
Proof.
  intros [A B]. apply branch_amplitude. rewrite <- A, <- B. pose proof (sin2_cos2 p) as T. unfold Rsqr in T.
  set (D := w ^ 2 - Om ^ 2). set (E := 2 * z * w * Om).
  transitivity (q ^ 2 * (D ^ 2 + E ^ 2) * (sin p * sin p + cos p * cos p)); [rewrite T|]; ring.
Qed.

Lemma phase_unique Om p p' : (fr <> 0 \/ fi <> 0) ->
  q * ((w ^ 2 - Om ^ 2) * cos p + 2 * z * w * Om * sin p) = fr /\ q * (2 * z * w * Om * cos p - (w ^ 2 - Om ^ 2) * sin p) = fi ->
  q * ((w ^ 2 - Om ^ 2) * cos p' + 2 * z * w * Om * sin p') = fr /\ q * (2 * z * w * Om * cos p' - (w ^ 2 - Om ^ 2) * sin p') = fi ->
  cos p = cos p' /\ sin p = sin p'.
Proof.
  set (D := w ^ 2 - Om ^ 2). set (E := 2 * z * w * Om). clearbody D E. intros Hn [A B] [A' B'].
  assert (N : q * (D ^ 2 + E ^ 2) <> 0).
  { intros Z. apply Rmult_integral in Z. destruct Z as [Z|Z]; [lra|]. assert (D = 0) by nra. assert (E = 0) by nra.
    subst D E. destruct Hn as [Hn|Hn]; apply Hn; [rewrite <- A|rewrite <- B]; ring. }
  split; apply (Rmult_eq_reg_l (q * (D ^ 2 + E ^ 2))); try exact N.
  - transitivity (D * (q * (D * cos p + E * sin p)) + E * (q * (E * cos p - D * sin p))); [ring|]. rewrite A, B, <- A', <- B'. ring.
  - transitivity (E * (q * (D * cos p + E * sin p)) - D * (q * (E * cos p - D * sin p))); [ring|]. rewrite A, B, <- A', <- B'. ring.
Qed.
End one_point.

(** ---- constant_force as maps over one list of points ---- *)
Definition cf_p2 (w z : nat -> R) (j : nat) : R := w j ^ 2 - 2 * (z j * w j) ^ 2.
Definition cf_root (w z fr fi q : nat -> R) (j : nat) : R :=
  cf_p2 w z j ^ 2 - w j ^ 4 + sqrt (fr j ^ 2 + fi j ^ 2) ^ 2 / q j ^ 2.
Definition cf_osq (w z fr fi q : nat -> R) (t : nat * bool) : R :=
  let ro := if Rleb 0 (cf_root w z fr fi q (fst t)) then cf_root w z fr fi q (fst t) else 0 in
  if snd t then cf_p2 w z (fst t) + 1 * sqrt ro else cf_p2 w z (fst t) + (-1) * sqrt ro.
Definition cf_keep (w z fr fi q : nat -> R) (t : nat * bool) : bool :=
  (Rltb 0 (cf_osq w z fr fi q t) && Rleb 0 (cf_root w z fr fi q (fst t)))%bool.
Definition cf_omega (w z fr fi q : nat -> R) (t : nat * bool) : R := sqrt (cf_osq w z fr fi q t).
Definition cf_phase (w z fr fi q : nat -> R) (t : nat * bool) : R :=
  let j := fst t in let Om := cf_omega w z fr fi q t in
  atan2 (fr j * (2 * Om * w j * z j) - fi j * (w j ^ 2 - Om ^ 2)) (fr j * (w j ^ 2 - Om ^ 2) + fi j * (2 * Om * w j * z j)).
Definition cf_row (N n : nat) (h : list nat) (bb : list vec) (w z fr fi q : nat -> R) (t : nat * bool) : vec :=
  rotate_subtract_phase (fun c => if Nat.eqb c n then cf_omega w z fr fi q t
     else if Nat.ltb c n then (if Nat.leb (zi h * N) c then row bb (fst t) c * q (fst t) else row bb (fst t) c) else 0) N h (cf_phase w z fr fi q t) 1.
Definition cf_points (M : nat) (w z fr fi q : nat -> R) : list (nat * bool) := rev (filter (cf_keep w z fr fi q) (tags M)).

Lemma filter_rev {A} (f : A -> bool) l : filter f (rev l) = rev (filter f l).
Proof.
  induction l as [|a l IH]; [reflexivity|]. cbn. rewrite filter_app, IH. cbn. destruct (f a); cbn; [reflexivity|apply app_nil_r].
Qed.

Lemma cf_points_split M w z fr fi q :
  cf_points M w z fr fi q = map (fun j => (j, false)) (filter (fun j => cf_keep w z fr fi q (j, false)) (seq 0 M))
                         ++ rev (map (fun j => (j, true)) (filter (fun j => cf_keep w z fr fi q (j, true)) (seq 0 M))).
Proof.
  assert (F : forall b l, filter (cf_keep w z fr fi q) (map (fun j => (j, b)) l) = map (fun j => (j, b)) (filter (fun j => cf_keep w z fr fi q (j, b)) l)).
  { intros b l. induction l as [|j l IH]; [reflexivity|]. cbn. destruct (cf_keep w z fr fi q (j, b)); cbn; rewrite IH; reflexivity. }
  unfold cf_points, tags. rewrite filter_app, rev_app_distr, <- map_rev, !F, filter_rev, map_rev, rev_involutive. reflexivity.
Qed.

Lemma nonempty_match {A} (h : list nat) (a b : A) : h <> [] -> match h with [] => a | _ :: _ => b end = b.
Proof. destruct h; [contradiction|reflexivity]. Qed.

Section cf.
Variables (N : nat) (h : list nat) (bb : list vec) (Fl w_in z_in re im : option vec).
Hypothesis adm : admissible h.
Hypothesis first : starts_with_1 h.
Let n := bb_size N h.
Let w := rom_frequency N h bb w_in.
Let z := rom_damping N h bb w_in z_in.
Let fr := rom_force (force_re N h) bb Fl re.
Let fi := rom_force (force_im N h) bb Fl im.
Let q := fun j => bb_amp N h (nth j bb vzero).

Lemma constant_force_eq rows amps phases : constant_force N h bb Fl w_in z_in re im = Ok (rows, amps, phases) ->
  let pts := cf_points (length bb) w z fr fi q in
  rows = map (cf_row N n h bb w z fr fi q) pts /\ amps = map (fun t => q (fst t)) pts /\ phases = map (cf_phase w z fr fi q) pts.
Proof.
  unfold constant_force. rewrite (nonempty_match h) by exact (proj1 adm).
  rewrite (proj1 (Nhc_spec h) (proj1 (proj2 adm))). cbn [bind].
  fold (bb_size N h). fold n.
  assert (EF : forall F j, dot N (fun i => F (zi h * N + i)%nat) (fun i => row bb j (zi h * N + i)%nat)
                          + dot N (fun i => F ((1 + zi h) * N + i)%nat) (fun i => row bb j ((1 + zi h) * N + i)%nat) = force_re N h F (nth j bb vzero)).
  { intros F j. unfold dot, force_re. rewrite <- rsum_plus. apply rsum_ext. intros d Hd. rewrite !first_cos_eq, !first_sin_eq by assumption.
    rewrite (Nat.add_comm 1). unfold row. ring. }
  assert (EG : forall F j, dot N (fun i => F (zi h * N + i)%nat) (fun i => row bb j ((1 + zi h) * N + i)%nat)
                          - dot N (fun i => F ((1 + zi h) * N + i)%nat) (fun i => row bb j (zi h * N + i)%nat) = force_im N h F (nth j bb vzero)).
  { intros F j. unfold dot, force_im. rewrite <- rsum_minus. apply rsum_ext. intros d Hd. rewrite !first_cos_eq, !first_sin_eq by assumption.
    rewrite (Nat.add_comm 1). unfold row. ring. }
  set (FF := match re with None => _ | Some _ => _ end).
  assert (HF : forall P, FF = Ok P -> (forall j, fst P j = fr j) /\ (forall j, snd P j = fi j)).
  { intros P. unfold FF, fr, fi, rom_force. destruct re as [re'|], im as [im'|], Fl as [F|]; try discriminate; intros E; inversion E; subst P; cbn [fst snd]; auto. }
  destruct FF as [[P1 P2]|]; [|discriminate]. destruct (HF _ eq_refl) as [H1 H2]. cbn [fst snd] in H1, H2.
  assert (P1 = fr) by (apply vec_ext; exact H1). assert (P2 = fi) by (apply vec_ext; exact H2). subst P1 P2.
  cbn [bind fst snd]. intros E. cbv zeta in E.
  set (wm := match w_in with Some _ => _ | None => _ end) in E.
  assert (wm = w) by (unfold wm, w, rom_frequency, bb_frequency; destruct w_in; reflexivity). clearbody wm. subst wm.
  set (zm := match z_in with Some _ => _ | None => _ end) in E.
  assert (zm = z) by (unfold zm, z, rom_damping; destruct z_in; reflexivity). clearbody zm. subst zm.
  set (qm := fun j => Rpower 10 _) in E.
  assert (qm = q) by reflexivity. clearbody qm. subst qm.
  rewrite !two_same, !two_halves in E. rewrite !map_map in E. rewrite !map2_map in E. rewrite !bmask_map in E. rewrite !map_map in E.
  rewrite !map2_map in E. inversion E as [[E1 E2 E3]]. clear E.
  unfold cf_points. rewrite !map_rev. split; [|split]; f_equal.
Qed.

Lemma q_pos j : 0 < q j.
Proof. unfold q, bb_amp, Rpower. apply exp_pos. Qed.

(** kept points are exactly the positive frequencies of the amplitude equation *)
Lemma keep_sound t : cf_keep w z fr fi q t = true ->
  0 < cf_omega w z fr fi q t /\ cf_omega w z fr fi q t ^ 2 = cf_osq w z fr fi q t /\
  (cf_omega w z fr fi q t ^ 2 - cf_p2 w z (fst t)) ^ 2 = cf_root w z fr fi q (fst t) /\
  (if snd t then cf_p2 w z (fst t) <= cf_omega w z fr fi q t ^ 2 else cf_omega w z fr fi q t ^ 2 <= cf_p2 w z (fst t)).
Proof.
  unfold cf_keep. intros H. apply andb_prop in H. destruct H as [H1 H2]. apply Rltb_true in H1.
  assert (Es : cf_omega w z fr fi q t ^ 2 = cf_osq w z fr fi q t) by (unfold cf_omega; apply pow2_sqrt; lra).
  split; [apply sqrt_lt_R0; exact H1|]. split; [exact Es|]. rewrite Es. unfold cf_osq. rewrite H2. apply Rleb_true in H2.
  pose proof (sqrt_pos (cf_root w z fr fi q (fst t))) as Hp. pose proof (pow2_sqrt _ H2) as E2.
  destruct (snd t); (split; [etransitivity; [|exact E2]; ring|lra]).
Qed.

Lemma keep_complete j Om : 0 < Om -> (Om ^ 2 - cf_p2 w z j) ^ 2 = cf_root w z fr fi q j ->
  exists b, cf_keep w z fr fi q (j, b) = true /\ cf_omega w z fr fi q (j, b) = Om.
Proof.
  intros HO HE. assert (Hr : 0 <= cf_root w z fr fi q j) by (rewrite <- HE; apply pow2_ge_0).
  assert (Hs : sqrt (cf_root w z fr fi q j) = Rabs (Om ^ 2 - cf_p2 w z j)).
  { rewrite <- HE, <- sqrt_Rsqr_abs. f_equal. unfold Rsqr. ring. }
  assert (Hb : exists b, cf_osq w z fr fi q (j, b) = Om ^ 2).
  { destruct (Rle_dec 0 (Om ^ 2 - cf_p2 w z j)) as [H|H].
    - exists true. unfold cf_osq. cbn [fst snd]. rewrite (proj2 (Rleb_true _ _) Hr), Hs, Rabs_right by lra. ring.
    - exists false. unfold cf_osq. cbn [fst snd]. rewrite (proj2 (Rleb_true _ _) Hr), Hs, Rabs_left by lra. ring. }
  destruct Hb as [b Eb]. exists b. unfold cf_keep, cf_omega. rewrite Eb. cbn [fst]. split.
  - apply andb_true_intro. split; [apply Rltb_true; nra|apply Rleb_true; exact Hr].
  - rewrite <- Rsqr_pow2. apply sqrt_Rsqr. lra.
Qed.

Lemma cf_row_point t : cf_keep w z fr fi q t = true ->
  let r := cf_row N n h bb w z fr fi q t in let j := fst t in
  bb_frequency N h r = cf_omega w z fr fi q t /\
  rom_point N h (nth j bb vzero) (w j) (z j) (fr j) (fi j) r (q j) (cf_phase w z fr fi q t).
Proof.
  intros Hk. cbv zeta. destruct (keep_sound t Hk) as (Hp & _ & He & _).
  assert (Ef : bb_frequency N h (cf_row N n h bb w z fr fi q t) = cf_omega w z fr fi q t).
  { unfold bb_frequency, cf_row. fold n. rewrite rotate_extra by (try exact (proj2 (proj2 adm)); unfold n, bb_size; lia).
    rewrite Nat.eqb_refl. reflexivity. }
  split; [exact Ef|]. unfold rom_point. rewrite Ef. split; [exact Hp|]. split; [reflexivity|].
  split; [apply atan2_range|]. split.
  - apply steady_algebra; [lra|]. exact (phase_of_branch (w (fst t)) (z (fst t)) (fr (fst t)) (fi (fst t)) (q (fst t)) (q_pos _) _ He).
  - intros d tau Hd. unfold cf_row. rewrite rotate_series by (try exact (proj2 (proj2 adm)); exact Hd).
    change (INR 1) with 1. replace (cf_phase w z fr fi q t / 1) with (cf_phase w z fr fi q t) by field. unfold series. apply rsum_ext. intros c Hc. f_equal. unfold dof_coefs.
    assert (Hn : (c * N + d < n)%nat) by (unfold n, bb_size; nia).
    rewrite (proj2 (Nat.eqb_neq _ _)) by lia. rewrite (proj2 (Nat.ltb_lt _ _) Hn). unfold amplitude_scaled, row.
    rewrite <- (zi_in h adm). destruct (in_dec Nat.eq_dec O h) as [_|_].
    + rewrite Nat.mul_1_l. destruct (Nat.leb_spec N (c * N + d)); destruct (Nat.ltb_spec (c * N + d) N); try lia; [|reflexivity].
      unfold q, bb_amp. apply Rmult_comm.
    + rewrite Nat.mul_0_l. cbn [Nat.leb]. unfold q, bb_amp. apply Rmult_comm.
Qed.

Lemma filter_seq_increasing (f : nat -> bool) M : increasing_indices (filter f (seq 0 M)).
Proof.
  assert (S : StronglySorted lt (filter f (seq 0 M))).
  { generalize 0%nat. induction M as [|M IH]; intros a; cbn; [constructor|]. destruct (f a); [|apply IH]. constructor; [apply IH|].
    apply Forall_forall. intros x Hx. apply filter_In in Hx. destruct Hx as [Hx _]. apply in_seq in Hx. lia. }
  induction S as [|x l S IH Hf]; intros a b [Hab Hb]; [cbn in Hb; lia|].
  destruct b as [|b]; [lia|]. destruct a as [|a]; cbn in *.
  - rewrite Forall_forall in Hf. apply Hf. apply nth_In. lia.
  - apply IH. lia.
Qed.

Lemma constant_force_spec rows amps phases : constant_force N h bb Fl w_in z_in re im = Ok (rows, amps, phases) ->
  exists lower upper : list nat, let pts := lower ++ rev upper in
    increasing_indices lower /\ increasing_indices upper /\ (forall j, In j pts -> (j < length bb)%nat) /\
    length rows = length pts /\ length amps = length pts /\ length phases = length pts /\
    (forall k, (k < length pts)%nat -> let j := nth k pts O in let r := nth k rows vzero in
       rom_point N h (nth j bb vzero) (w j) (z j) (fr j) (fi j) r (nth k amps 0) (nth k phases 0) /\
       ((k < length lower)%nat -> bb_frequency N h r ^ 2 <= w j ^ 2 * (1 - 2 * z j ^ 2)) /\
       ((length lower <= k)%nat -> w j ^ 2 * (1 - 2 * z j ^ 2) <= bb_frequency N h r ^ 2)) /\
    (forall j Om p, (j < length bb)%nat -> 0 < Om -> steady_response (w j) (z j) (fr j) (fi j) Om (q j) p ->
       exists k, (k < length pts)%nat /\ nth k pts O = j /\ bb_frequency N h (nth k rows vzero) = Om /\
         (fr j <> 0 \/ fi j <> 0 -> cos (nth k phases 0) = cos p /\ sin (nth k phases 0) = sin p)).
Proof.
  intros E. destruct (constant_force_eq _ _ _ E) as (-> & -> & ->). clear E.
  set (K := cf_keep w z fr fi q). set (M := length bb).
  set (lower := filter (fun j => K (j, false)) (seq 0 M)). set (upper := filter (fun j => K (j, true)) (seq 0 M)).
  set (P := cf_points M w z fr fi q).
  assert (EP : P = map (fun j => (j, false)) lower ++ map (fun j => (j, true)) (rev upper)) by (unfold P; rewrite cf_points_split, map_rev; reflexivity).
  assert (Ef : lower ++ rev upper = map fst P) by (rewrite EP, map_app, !map_map; cbn [fst]; rewrite !map_id; reflexivity).
  assert (LP : length P = length (lower ++ rev upper)) by (rewrite Ef, map_length; reflexivity).
  assert (KP : forall t, In t P -> K t = true /\ (fst t < M)%nat).
  { intros [j b] Ht. unfold P, cf_points in Ht. rewrite <- in_rev in Ht. apply filter_In in Ht. destruct Ht as [Ht Hk]. split; [exact Hk|].
    unfold tags in Ht. apply in_app_or in Ht. rewrite <- in_rev in Ht.
    destruct Ht as [Ht|Ht]; apply in_map_iff in Ht; destruct Ht as [i [Ei Hi]]; inversion Ei; subst; apply in_seq in Hi; cbn; lia. }
  exists lower, upper. cbv zeta. split; [apply filter_seq_increasing|]. split; [apply filter_seq_increasing|]. split.
  { intros j Hj. rewrite Ef in Hj. apply in_map_iff in Hj. destruct Hj as [t [<- Ht]]. apply KP. exact Ht. }
  rewrite !map_length. split; [exact LP|]. split; [exact LP|]. split; [exact LP|]. rewrite <- LP. split.
  - intros k Hk. set (t := nth k P (O, false)).
    assert (Ht : In t P) by (apply nth_In; exact Hk). destruct (KP t Ht) as [Hkeep HM].
    assert (Ej : nth k (lower ++ rev upper) O = fst t) by (rewrite Ef; exact (map_nth fst P (O, false) k)).
    rewrite Ej. rewrite (nth_indep (map (cf_row N n h bb w z fr fi q) P) vzero (cf_row N n h bb w z fr fi q (O, false))) by (rewrite map_length; exact Hk). rewrite map_nth. fold t.
    rewrite (nth_indep (map (fun t => q (fst t)) P) 0 (q (fst (O, false)))) by (rewrite map_length; exact Hk). rewrite (map_nth (fun t => q (fst t))). fold t.
    rewrite (nth_indep (map (cf_phase w z fr fi q) P) 0 (cf_phase w z fr fi q (O, false))) by (rewrite map_length; exact Hk). rewrite map_nth. fold t.
    destruct (cf_row_point t Hkeep) as [Efr Hpt]. split; [exact Hpt|]. rewrite Efr. destruct (keep_sound t Hkeep) as (_ & _ & _ & Hb).
    assert (Ep : cf_p2 w z (fst t) = w (fst t) ^ 2 * (1 - 2 * z (fst t) ^ 2)) by (unfold cf_p2; ring). rewrite <- Ep.
    assert (Sn : snd t = negb (Nat.ltb k (length lower))).
    { unfold t. rewrite EP. destruct (Nat.ltb_spec k (length lower)) as [L|L].
      - rewrite app_nth1 by (rewrite map_length; exact L).
        rewrite (map_nth (fun j => (j, false)) lower O k). reflexivity.
      - rewrite app_nth2 by (rewrite map_length; exact L). rewrite map_length.
        assert (L2 : (k - length lower < length (rev upper))%nat) by (rewrite LP, app_length in Hk; lia).
        rewrite (nth_indep _ _ (O, true)) by (rewrite map_length; exact L2). rewrite (map_nth (fun j => (j, true)) (rev upper) O). reflexivity. }
    rewrite Sn in Hb. split; intros L.
    + rewrite (proj2 (Nat.ltb_lt _ _) L) in Hb. exact Hb.
    + rewrite (proj2 (Nat.ltb_ge _ _) L) in Hb. exact Hb.
  - intros j Om p Hj HO HS. apply steady_algebra in HS; [|lra].
    pose proof (algebra_amplitude _ _ _ _ _ (q_pos j) _ _ HS) as HE.
    destruct (keep_complete j Om HO HE) as [b [Hk Eo]].
    assert (Hin : In (j, b) P).
    { unfold P, cf_points. rewrite <- in_rev. apply filter_In. split; [|exact Hk]. unfold tags. apply in_or_app. rewrite <- in_rev.
      destruct b; [left|right]; apply in_map_iff; exists j; (split; [reflexivity|apply in_seq; lia]). }
    destruct (In_nth P (j, b) (O, false) Hin) as [k [Lk Ek]]. exists k. split; [exact Lk|].
    split; [rewrite Ef; etransitivity; [exact (map_nth fst P (O, false) k)|rewrite Ek; reflexivity]|].
    rewrite (nth_indep (map (cf_row N n h bb w z fr fi q) P) vzero (cf_row N n h bb w z fr fi q (O, false))) by (rewrite map_length; exact Lk). rewrite map_nth, Ek.
    rewrite (nth_indep (map (cf_phase w z fr fi q) P) 0 (cf_phase w z fr fi q (O, false))) by (rewrite map_length; exact Lk). rewrite map_nth, Ek.
    destruct (cf_row_point (j, b) Hk) as [Efr Hpt]. cbn [fst] in Hpt. split; [rewrite Efr; exact Eo|].
    intros Hn. unfold rom_point in Hpt. destruct Hpt as (_ & _ & _ & Hst & _). rewrite Efr, Eo in Hst. apply steady_algebra in Hst; [|lra].
    exact (phase_unique _ _ _ _ _ (q_pos j) _ _ _ Hn Hst HS).
Qed.

(** with the same modal properties at all points and increasing amplitudes the frequencies are in increasing order *)
Lemma constant_force_linear rows amps phases : constant_force N h bb Fl w_in z_in re im = Ok (rows, amps, phases) ->
  (forall i j, (i < length bb)%nat -> (j < length bb)%nat -> w i = w j /\ z i = z j /\ fr i = fr j /\ fi i = fi j) ->
  (forall i j, (i < j < length bb)%nat -> q i <= q j) ->
  forall a b, (a < b < length rows)%nat -> bb_frequency N h (nth a rows vzero) <= bb_frequency N h (nth b rows vzero).
Proof.
  intros E Hc Hq a b [Hab Hb]. destruct (constant_force_spec _ _ _ E) as (lower & upper & H). cbv zeta in H.
  destruct H as (Hl & Hu & Hin & Lr & _ & _ & Hpt & _). set (pts := lower ++ rev upper) in *.
  assert (La : (a < length pts)%nat) by lia. assert (Lb : (b < length pts)%nat) by lia.
  assert (Ia : (nth a pts O < length bb)%nat) by (apply Hin, nth_In; exact La).
  assert (Ib : (nth b pts O < length bb)%nat) by (apply Hin, nth_In; exact Lb).
  destruct (Hpt a La) as (Pa & LOa & UPa). destruct (Hpt b Lb) as (Pb & LOb & UPb).
  destruct Pa as (Fa & Aa & _ & Sa & _). destruct Pb as (Fb & Ab & _ & Sb & _).
  rewrite Aa in Sa. rewrite Ab in Sb.
  set (ja := nth a pts O) in *. set (jb := nth b pts O) in *.
  set (Oa := bb_frequency N h (nth a rows vzero)) in *. set (Ob := bb_frequency N h (nth b rows vzero)) in *.
  apply steady_algebra in Sa; [|lra]. apply steady_algebra in Sb; [|lra].
  apply (algebra_amplitude _ _ _ _ _ (q_pos ja)) in Sa. apply (algebra_amplitude _ _ _ _ _ (q_pos jb)) in Sb.
  rewrite pow2_sqrt in Sa by nra. rewrite pow2_sqrt in Sb by nra.
  destruct (Hc ja jb Ia Ib) as (Ew & Ez & Er & Ei). rewrite <- Ew, <- Ez in Sb, LOb, UPb. rewrite <- Er, <- Ei in Sb.
  set (W := w ja) in *. set (Z := z ja) in *. set (G := fr ja ^ 2 + fi ja ^ 2) in *.
  assert (HG : 0 <= G) by (unfold G; nra).
  replace (W ^ 2 - 2 * (Z * W) ^ 2) with (W ^ 2 * (1 - 2 * Z ^ 2)) in Sa, Sb by ring.
  set (p2 := W ^ 2 * (1 - 2 * Z ^ 2)) in *.
  assert (Hsq : Oa ^ 2 <= Ob ^ 2 -> Oa <= Ob) by (intros; nra).
  apply Hsq.
  assert (Mono : forall i j, (i <= j)%nat -> (j < length bb)%nat -> G / q j ^ 2 <= G / q i ^ 2).
  { intros i j Hij Hj. assert (Hqq : q i <= q j) by (destruct (Nat.eq_dec i j) as [->|]; [lra|apply Hq; lia]).
    pose proof (q_pos i) as Qi. pose proof (q_pos j) as Qj. apply Rmult_le_compat_l; [exact HG|]. apply Rinv_le_contravar; nra. }
  destruct (le_lt_dec (length lower) b) as [Ub|Ub].
  - specialize (UPb Ub). destruct (le_lt_dec (length lower) a) as [Ua|Ua]; [|specialize (LOa Ua); lra].
    specialize (UPa Ua).
    assert (Hj : (jb <= ja)%nat).
    { assert (Lu : length pts = (length lower + length upper)%nat) by (unfold pts; rewrite app_length, rev_length; reflexivity).
      unfold ja, jb, pts. rewrite !app_nth2 by lia. rewrite !rev_nth by lia. apply Nat.lt_le_incl, Hu. lia. }
    pose proof (Mono jb ja Hj Ia) as Hm. fold (q jb) in Sb. fold (q ja) in Sa. nra.
  - specialize (LOb Ub). assert (Ua : (a < length lower)%nat) by lia. specialize (LOa Ua).
    assert (Hj : (ja <= jb)%nat).
    { unfold ja, jb, pts. rewrite !app_nth1 by lia. apply Nat.lt_le_incl, Hl. lia. }
    pose proof (Mono ja jb Hj Ib) as Hm. nra.
Qed.

Lemma constant_force_inputs :
  (exists out, constant_force N h bb Fl w_in z_in re im = Ok out) <->
  ((Fl <> None /\ re = None /\ im = None) \/ (Fl = None /\ re <> None /\ im <> None)).
Proof.
  unfold constant_force. rewrite (nonempty_match h) by exact (proj1 adm). rewrite (proj1 (Nhc_spec h) (proj1 (proj2 adm))). cbn [bind].
  destruct re as [re'|], im as [im'|], Fl as [F|]; cbn [bind]; split;
    try (intros [out E]; discriminate);
    try (intros [(A & B & C)|(A & B & C)]; congruence);
    try (intros _; eexists; reflexivity);
    intros _; try (left; repeat split; congruence); right; repeat split; congruence.
Qed.

Lemma constant_force_raises :
  ~ ((Fl <> None /\ re = None /\ im = None) \/ (Fl = None /\ re <> None /\ im <> None)) ->
  constant_force N h bb Fl w_in z_in re im = Err AssertionError.
Proof.
  intros H. unfold constant_force. rewrite (nonempty_match h) by exact (proj1 adm). rewrite (proj1 (Nhc_spec h) (proj1 (proj2 adm))). cbn [bind].
  destruct re as [re'|], im as [im'|], Fl as [F|]; cbn [bind]; try reflexivity;
    exfalso; apply H; (left; repeat split; congruence) || (right; repeat split; congruence).
Qed.

(** control amplitude of a returned row *)
Lemma first_rotated U p d : (d < N)%nat ->
  let V := rotate_subtract_phase U N h p 1 in
  first_cos N h V d = first_cos N h U d * cos p - first_sin N h U d * sin p /\
  first_sin N h V d = first_cos N h U d * sin p + first_sin N h U d * cos p.
Proof.
  intros Hd. cbv zeta. rewrite !first_cos_eq, !first_sin_eq by assumption. unfold rotate_subtract_phase.
  pose proof (fun a => rot_inv N h a) as RI.
  destruct (rot_inv N h (proj2 (proj2 adm)) U (p / INR 1) _ (le_n _)) as [A _]. cbv zeta in A.
  assert (Lh : (0 < length h - zi h)%nat) by (destruct first as [r [->| ->]]; cbn; lia).
  assert (K1 : nth (0 + zi h) h O = 1%nat) by (destruct first as [r [->| ->]]; reflexivity).
  specialize (A O d Lh Hd). rewrite K1 in A. change (INR 1) with 1 in A. rewrite Rmult_1_l in A. replace (p / 1) with p in A by field.
  replace (2 * 0 + zi h)%nat with (zi h) in A by lia. replace (2 * 0 + 1 + zi h)%nat with (zi h + 1)%nat in A by lia.
  change (INR 1) with 1. replace (p / 1) with p by field. exact A.
Qed.

Lemma control_rotated recov U p : control_amp N h recov (rotate_subtract_phase U N h p 1) = control_amp N h recov U.
Proof.
  unfold control_amp. f_equal.
  rewrite (rsum_ext N (fun d => recov d * first_cos N h (rotate_subtract_phase U N h p 1) d) (fun d => cos p * (recov d * first_cos N h U d) - sin p * (recov d * first_sin N h U d)))
    by (intros d Hd; destruct (first_rotated U p d Hd) as [-> _]; ring).
  rewrite (rsum_ext N (fun d => recov d * first_sin N h (rotate_subtract_phase U N h p 1) d) (fun d => sin p * (recov d * first_cos N h U d) + cos p * (recov d * first_sin N h U d)))
    by (intros d Hd; destruct (first_rotated U p d Hd) as [_ ->]; ring).
  rewrite rsum_minus, rsum_plus, !rsum_scal_l.
  set (a := rsum N (fun d => recov d * first_cos N h U d)). set (b := rsum N (fun d => recov d * first_sin N h U d)).
  pose proof (sin2_cos2 p) as T. unfold Rsqr in T.
  transitivity ((a ^ 2 + b ^ 2) * (sin p * sin p + cos p * cos p)); [ring|rewrite T; ring].
Qed.

Lemma control_row recov t : control_amp N h recov (cf_row N n h bb w z fr fi q t) = control_amp N h recov (nth (fst t) bb vzero) * q (fst t).
Proof.
  unfold cf_row. rewrite control_rotated. pose proof (q_pos (fst t)) as Hq.
  pose proof (zi_starts h first) as Hz.
  assert (A : forall d, (d < N)%nat ->
     (fun c => if Nat.eqb c n then cf_omega w z fr fi q t else if Nat.ltb c n then (if Nat.leb (zi h * N) c then row bb (fst t) c * q (fst t) else row bb (fst t) c) else 0) (zi h * N + d)%nat
       = nth (fst t) bb vzero (zi h * N + d)%nat * q (fst t)).
  { intros d Hd. cbv beta. assert (zi h * N + d < n)%nat by (unfold n, bb_size; nia).
    rewrite (proj2 (Nat.eqb_neq _ _)), (proj2 (Nat.ltb_lt _ _)), (proj2 (Nat.leb_le _ _)) by lia. reflexivity. }
  assert (B : forall d, (d < N)%nat ->
     (fun c => if Nat.eqb c n then cf_omega w z fr fi q t else if Nat.ltb c n then (if Nat.leb (zi h * N) c then row bb (fst t) c * q (fst t) else row bb (fst t) c) else 0) ((zi h + 1) * N + d)%nat
       = nth (fst t) bb vzero ((zi h + 1) * N + d)%nat * q (fst t)).
  { intros d Hd. cbv beta. assert ((zi h + 1) * N + d < n)%nat by (unfold n, bb_size; nia).
    rewrite (proj2 (Nat.eqb_neq _ _)), (proj2 (Nat.ltb_lt _ _)), (proj2 (Nat.leb_le _ _)) by nia. reflexivity. }
  set (V := fun c : nat => if Nat.eqb c n then _ else _) in *. clearbody V. cbv beta in A, B.
  unfold control_amp.
  rewrite (rsum_ext N (fun d => recov d * first_cos N h V d) (fun d => q (fst t) * (recov d * first_cos N h (nth (fst t) bb vzero) d)))
    by (intros d Hd; rewrite !first_cos_eq, A by assumption; ring).
  rewrite (rsum_ext N (fun d => recov d * first_sin N h V d) (fun d => q (fst t) * (recov d * first_sin N h (nth (fst t) bb vzero) d)))
    by (intros d Hd; rewrite !first_sin_eq, B by assumption; ring).
  rewrite !rsum_scal_l. set (a := rsum N _). set (b := rsum N _).
  replace ((q (fst t) * a) ^ 2 + (q (fst t) * b) ^ 2) with ((a ^ 2 + b ^ 2) * (q (fst t))²) by (unfold Rsqr; ring).
  rewrite sqrt_mult by (unfold Rsqr; nra). rewrite sqrt_Rsqr by lra. reflexivity.
Qed.

Lemma constant_force_control recov rows amps phases : constant_force N h bb Fl w_in z_in re im = Ok (rows, amps, phases) ->
  forall k, (k < length rows)%nat -> exists j, (j < length bb)%nat /\ let r := nth k rows vzero in let Om := bb_frequency N h r in
    0 < Om /\ control_amp N h recov r = control_amp N h recov (nth j bb vzero) * q j /\
    q j ^ 2 * ((w j ^ 2 - Om ^ 2) ^ 2 + (2 * z j * w j * Om) ^ 2) = fr j ^ 2 + fi j ^ 2.
Proof.
  intros E k Hk. destruct (constant_force_eq _ _ _ E) as (-> & _ & _). cbv zeta in Hk |- *. set (P := cf_points _ _ _ _ _ _) in *.
  rewrite map_length in Hk. set (t := nth k P (O, false)). assert (Ht : In t P) by (apply nth_In; exact Hk).
  rewrite (nth_indep (map (cf_row N n h bb w z fr fi q) P) vzero (cf_row N n h bb w z fr fi q (O, false))) by (rewrite map_length; exact Hk).
  rewrite map_nth. fold t. exists (fst t).
  unfold P, cf_points in Ht. rewrite <- in_rev in Ht. apply filter_In in Ht. destruct Ht as [Ht Hkeep].
  destruct (cf_row_point t Hkeep) as [Efr _]. destruct (keep_sound t Hkeep) as (Hp & _ & He & _). rewrite Efr.
  split; [|split; [exact Hp|split; [apply control_row|]]].
  - unfold tags in Ht. apply in_app_or in Ht. rewrite <- in_rev in Ht.
    destruct Ht as [Ht|Ht]; apply in_map_iff in Ht; destruct Ht as [i [Ei Hi]]; rewrite <- Ei; apply in_seq in Hi; cbn; lia.
  - apply (branch_amplitude (w (fst t)) (z (fst t)) (fr (fst t)) (fi (fst t)) (q (fst t)) (q_pos _)). exact He.
Qed.
End cf.

(** ---- constant_displacement ---- *)
Section cd.
Variables (N : nat) (h : list nat) (bb : list vec) (w_in z_in : option vec) (recov Fcos : vec) (ca : R).
Hypothesis adm : admissible h.
Hypothesis first : starts_with_1 h.
Let n := bb_size N h.
Let lin := linear_row N h bb w_in z_in.
Let amps := backbone_control N h recov bb.

Definition cd_force (P : vec) (Om : R) : R :=
  let W := P n in let Z := P (n + 1)%nat / (2 * W) in
  P (n + 2)%nat * sqrt (Om ^ 4 - 2 * Om ^ 2 * (W ^ 2 - 2 * (W * Z) ^ 2) + W ^ 4) / sqrt (cos_re N h Fcos P ^ 2 + cos_im N h Fcos P ^ 2).

Lemma size_eq : ((2 * count_nonzero h + count_zero h) * N)%nat = n.
Proof. unfold n, bb_size. rewrite length_components. reflexivity. Qed.

Lemma lin_first j d : (d < N)%nat -> lin j (zi h * N + d)%nat = first_cos N h (nth j bb vzero) d /\ lin j ((zi h + 1) * N + d)%nat = first_sin N h (nth j bb vzero) d.
Proof.
  intros Hd. rewrite first_cos_eq, first_sin_eq by assumption. pose proof (zi_starts h first) as Hz.
  assert ((zi h + 1) * N + d < n)%nat by (unfold n, bb_size; nia).
  unfold lin, linear_row. fold n. cbv zeta.
  rewrite !(proj2 (Nat.eqb_neq (zi h * N + d) _)) by nia. rewrite !(proj2 (Nat.eqb_neq ((zi h + 1) * N + d) _)) by nia. split; reflexivity.
Qed.

Lemma displacement_unfold Omega : 
  constant_displacement bb h N Fcos Omega recov ca w_in z_in =
  (do points <- linear_interp (n + 3) (map lin (seq 0 (length bb))) [ca] (Some amps);
   match hd None points with
   | None => Ok (map (fun _ => None) Omega, None)
   | Some P => Ok (map (fun Om => Some (cd_force P Om)) Omega, Some (fun c => if Nat.eqb c (n + 2) then log10 (P c) else P c))
   end).
Proof.
  unfold constant_displacement. rewrite (nonempty_match h) by exact (proj1 adm). cbv zeta. rewrite size_eq.
  set (B := map _ (seq 0 (length bb))) at 1 2.
  assert (EB : B = map lin (seq 0 (length bb))).
  { unfold B. apply map_ext. intros j. apply vec_ext. intros c. unfold lin, linear_row. fold n. cbv zeta.
    unfold rom_frequency, bb_frequency, bb_amp, bb_log_amp, row. fold n.
    destruct (Nat.eqb_spec c (n + 2)) as [->|_]; [reflexivity|]. destruct (Nat.eqb_spec c n) as [->|_]; [reflexivity|].
    destruct (Nat.eqb_spec c (n + 1)) as [->|_]; [|reflexivity]. destruct z_in; [ring|reflexivity]. }
  clearbody B. subst B.
  assert (EA : forall l, map (fun r : vec => sqrt (dot N (fun i => r (zi h * N + i)%nat) recov ^ 2 + dot N (fun i => r ((zi h + 1) * N + i)%nat) recov ^ 2) * r (n + 2)%nat) (map lin l)
               = map (fun j => control_amp N h recov (nth j bb vzero) * bb_amp N h (nth j bb vzero)) l).
  { intros l. rewrite map_map. apply map_ext. intros j. unfold control_amp, dot.
    rewrite (rsum_ext N (fun i => lin j (zi h * N + i)%nat * recov i) (fun d => recov d * first_cos N h (nth j bb vzero) d))
      by (intros d Hd; destruct (lin_first j d Hd) as [-> _]; ring).
    rewrite (rsum_ext N (fun i => lin j ((zi h + 1) * N + i)%nat * recov i) (fun d => recov d * first_sin N h (nth j bb vzero) d))
      by (intros d Hd; destruct (lin_first j d Hd) as [_ ->]; ring).
    f_equal. unfold lin, linear_row. fold n. cbv zeta. rewrite Nat.eqb_refl. reflexivity. }
  rewrite EA.
  assert (EM : map (fun j => control_amp N h recov (nth j bb vzero) * bb_amp N h (nth j bb vzero)) (seq 0 (length bb)) = amps).
  { unfold amps, backbone_control. rewrite <- (map_map (fun j => nth j bb vzero) (fun u => control_amp N h recov u * bb_amp N h u)).
    f_equal. clear. induction bb as [|u l IH]; [reflexivity|]. cbn [length seq map nth]. rewrite <- seq_shift, map_map. f_equal. exact IH. }
  rewrite EM. destruct (linear_interp _ _ _ _) as [points|e]; [|reflexivity]. cbn [bind].
  destruct (hd None points) as [P|]; [|reflexivity]. f_equal. f_equal. apply map_ext. intros Om. f_equal. unfold cd_force. f_equal. f_equal.
  unfold cos_re, cos_im, dot.
  rewrite (rsum_ext N (fun i => - P ((zi h + 1) * N + i)%nat * Fcos i) (fun i => (-1) * (P ((zi h + 1) * N + i)%nat * Fcos i))) by (intros; ring).
  rewrite rsum_scal_l.
  rewrite (rsum_ext N (fun d => first_cos N h P d * Fcos d) (fun i => P (zi h * N + i)%nat * Fcos i)) by (intros; rewrite first_cos_eq by assumption; reflexivity).
  rewrite (rsum_ext N (fun d => first_sin N h P d * Fcos d) (fun i => P ((zi h + 1) * N + i)%nat * Fcos i)) by (intros; rewrite first_sin_eq by assumption; reflexivity).
  f_equal. ring.
Qed.

Lemma bracket (l : list R) x : l <> [] -> nth 0 l 0 <= x <= nth (length l - 1) l 0 ->
  (exists j, (j < length l)%nat /\ x = nth j l 0) \/ (exists j, (S j < length l)%nat /\ nth j l 0 <= x <= nth (S j) l 0).
Proof.
  intros Hl [Ha Hb]. destruct l as [|y l]; [contradiction|]. set (L := y :: l) in *.
  assert (G : forall m, (m < length L)%nat -> x <= nth m L 0 ->
     (exists j, (j < length L)%nat /\ x = nth j L 0) \/ (exists j, (S j < length L)%nat /\ nth j L 0 <= x <= nth (S j) L 0)).
  { induction m as [|m IH]; intros Hm Hx.
    - left. exists O. split; [exact Hm|]. lra.
    - destruct (Rle_dec x (nth m L 0)) as [H|H]; [apply IH; [lia|exact H]|]. right. exists m. split; [exact Hm|]. lra. }
  apply (G (length L - 1)%nat); [cbn; lia|exact Hb].
Qed.

Lemma line_pos x0 x1 x a b y : x0 < x1 -> x0 <= x <= x1 -> 0 < a -> 0 < b -> (x1 - x0) * y = (x1 - x) * a + (x - x0) * b -> 0 < y.
Proof.
  intros Hlt [H0 H1] Ha Hb E. apply (Rmult_lt_reg_l (x1 - x0)); [lra|]. rewrite E, Rmult_0_r.
  assert (0 <= (x1 - x) * a) by (apply Rmult_le_pos; lra). assert (0 <= (x - x0) * b) by (apply Rmult_le_pos; lra).
  destruct (Rlt_dec x0 x) as [L|L].
  - assert (0 < (x - x0) * b) by (apply Rmult_lt_0_compat; lra). lra.
  - assert (0 < (x1 - x) * a) by (apply Rmult_lt_0_compat; lra). lra.
Qed.

Lemma log10_back x : 0 < x -> Rpower 10 (log10 x) = x.
Proof.
  intros Hx. unfold Rpower, log10. replace (ln x / ln 10 * ln 10) with (ln x); [apply exp_ln; exact Hx|].
  field. assert (ln 1 < ln 10) by (apply ln_increasing; lra). rewrite ln_1 in H. lra.
Qed.

Lemma lin_amp j : lin j (n + 2)%nat = bb_amp N h (nth j bb vzero).
Proof. unfold lin, linear_row. fold n. cbv zeta. rewrite Nat.eqb_refl. reflexivity. Qed.
Lemma bb_amp_pos u : 0 < bb_amp N h u.
Proof. unfold bb_amp, Rpower. apply exp_pos. Qed.

Lemma amps_length : length amps = length bb.
Proof. unfold amps, backbone_control. apply map_length. Qed.
Lemma lins_nth j : (j < length bb)%nat -> row (map lin (seq 0 (length bb))) j = lin j.
Proof.
  intros Hj. unfold row. rewrite (nth_indep _ vzero (lin O)) by (rewrite map_length, seq_length; exact Hj). rewrite map_nth, seq_nth by exact Hj. reflexivity.
Qed.

Lemma cd_force_nonneg P Om : 0 < P (n + 2)%nat -> 0 <= cd_force P Om.
Proof.
  intros Hq. unfold cd_force. cbv zeta. apply Rmult_le_pos; [apply Rmult_le_pos; [lra|apply sqrt_pos]|].
  set (D := sqrt (cos_re N h Fcos P ^ 2 + cos_im N h Fcos P ^ 2)). pose proof (sqrt_pos (cos_re N h Fcos P ^ 2 + cos_im N h Fcos P ^ 2)) as H. fold D in H.
  destruct (Req_dec D 0) as [E|E]; [rewrite E, Rinv_0; lra|left; apply Rinv_0_lt_compat; lra].
Qed.

Lemma cd_force_square P Om : (cos_re N h Fcos P <> 0 \/ cos_im N h Fcos P <> 0) ->
  let W := P n in let Z := P (n + 1)%nat / (2 * W) in
  cd_force P Om ^ 2 * (cos_re N h Fcos P ^ 2 + cos_im N h Fcos P ^ 2) = P (n + 2)%nat ^ 2 * ((W ^ 2 - Om ^ 2) ^ 2 + (2 * Z * W * Om) ^ 2).
Proof.
  intros Hn. cbv zeta. unfold cd_force. cbv zeta. set (W := P n). set (Z := P (n + 1)%nat / (2 * W)). set (a := cos_re N h Fcos P) in *. set (b := cos_im N h Fcos P) in *.
  replace (Om ^ 4 - 2 * Om ^ 2 * (W ^ 2 - 2 * (W * Z) ^ 2) + W ^ 4) with ((W ^ 2 - Om ^ 2) ^ 2 + (2 * Z * W * Om) ^ 2) by ring.
  set (G := (W ^ 2 - Om ^ 2) ^ 2 + (2 * Z * W * Om) ^ 2).
  assert (HG : 0 <= G) by (unfold G; pose proof (pow2_ge_0 (W ^ 2 - Om ^ 2)); pose proof (pow2_ge_0 (2 * Z * W * Om)); lra).
  assert (Hab : 0 < a ^ 2 + b ^ 2) by (destruct Hn as [H|H]; [assert (0 < a ^ 2) by (apply sq_pos; exact H)|assert (0 < b ^ 2) by (apply sq_pos; exact H)]; pose proof (pow2_ge_0 a); pose proof (pow2_ge_0 b); lra).
  pose proof (pow2_sqrt _ HG) as E1. pose proof (pow2_sqrt (a ^ 2 + b ^ 2) ltac:(lra)) as E2.
  assert (S : sqrt (a ^ 2 + b ^ 2) <> 0) by (apply Rgt_not_eq, sqrt_lt_R0; exact Hab).
  set (s1 := sqrt G) in *. set (s2 := sqrt (a ^ 2 + b ^ 2)) in *.
  transitivity ((P (n + 2)%nat * s1 / s2) ^ 2 * s2 ^ 2); [rewrite E2; reflexivity|].
  transitivity (P (n + 2)%nat ^ 2 * s1 ^ 2); [field; exact S|rewrite E1; reflexivity].
Qed.

Lemma displacement_spec Omega forces pt : constant_displacement bb h N Fcos Omega recov ca w_in z_in = Ok (forces, pt) ->
  increasing amps /\ length forces = length Omega /\
  (ca < nth 0 amps 0 \/ nth (length amps - 1) amps 0 < ca -> pt = None /\ forall k, nth k forces None = None) /\
  (nth 0 amps 0 <= ca <= nth (length amps - 1) amps 0 -> exists P, pt = Some P /\
     ((exists j, (j < length bb)%nat /\ ca = nth j amps 0 /\ forall c, delog N h P c = lin j c) \/
      (exists j, (S j < length bb)%nat /\ nth j amps 0 <= ca <= nth (S j) amps 0 /\ on_line (nth j amps 0) (nth (S j) amps 0) (lin j) (lin (S j)) ca (delog N h P))) /\
     (bb_frequency N h P <> 0 -> cos_re N h Fcos P <> 0 \/ cos_im N h Fcos P <> 0 ->
      forall k, (k < length Omega)%nat -> exists f, nth k forces None = Some f /\ 0 <= f /\
        (0 < nth k Omega 0 -> exists p, steady_response (bb_frequency N h P) (bb_damping N h P) (f * cos_re N h Fcos P) (f * cos_im N h Fcos P) (nth k Omega 0) (bb_amp N h P) p) /\
        (forall f' p', 0 < nth k Omega 0 ->
           steady_response (bb_frequency N h P) (bb_damping N h P) (f' * cos_re N h Fcos P) (f' * cos_im N h Fcos P) (nth k Omega 0) (bb_amp N h P) p' -> Rabs f' = f))).
Proof.
  rewrite displacement_unfold. intros E. destruct (linear_interp _ _ _ _) as [points|] eqn:EL; [|discriminate]. cbn [bind] in E.
  destruct (linear_interp_spec _ _ _ _ _ EL) as (Lp & Hinc & Hsp). specialize (Hsp O ltac:(cbn; lia)). cbn [nth] in Hsp. destruct Hsp as (Hout & Hnode & Hin).
  assert (Hh : nth 0 points None = hd None points) by (destruct points; reflexivity). rewrite Hh in *.
  assert (Hne : bb <> []).
  { intros Eb. unfold linear_interp in EL. destruct (increasingb amps); [|discriminate]. unfold amps, backbone_control in EL. rewrite Eb in EL. discriminate. }
  split; [exact Hinc|]. rewrite amps_length in *.
  assert (LF : length forces = length Omega) by (destruct (hd None points); inversion E; subst; apply map_length).
  split; [exact LF|]. split.
  { intros Ho. rewrite (Hout Ho) in E. inversion E; subst. split; [reflexivity|]. intros k.
    clear. revert k. induction Omega as [|o l IH]; intros [|k]; cbn; auto. }
  intros Hr. assert (Hna : amps <> []) by (intros Ea; apply Hne, length_zero_iff_nil; rewrite <- amps_length, Ea; reflexivity).
  rewrite <- amps_length in Hr.
  assert (HP : exists L, hd None points = Some L /\
     ((exists j, (j < length bb)%nat /\ ca = nth j amps 0 /\ forall c, L c = lin j c) \/
      (exists j, (S j < length bb)%nat /\ nth j amps 0 <= ca <= nth (S j) amps 0 /\ on_line (nth j amps 0) (nth (S j) amps 0) (lin j) (lin (S j)) ca L))).
  { destruct (bracket amps ca Hna Hr) as [[j [Hj Ej]]|[j [Hj Ej]]]; rewrite amps_length in Hj.
    - destruct (Hnode j Hj Ej) as [L [EqL HL]]. exists L. split; [exact EqL|]. left. exists j. split; [exact Hj|]. split; [exact Ej|].
      intros c. rewrite HL, lins_nth by exact Hj. reflexivity.
    - destruct (Hin j Hj Ej) as [L [EqL HL]]. exists L. split; [exact EqL|]. right. exists j. split; [exact Hj|]. split; [exact Ej|].
      rewrite !lins_nth in HL by lia. exact HL. }
  destruct HP as [L [EqL HL]]. rewrite EqL in E. inversion E as [[Ef Ep]]. clear E.
  set (P := fun c => if Nat.eqb c (n + 2) then log10 (L c) else L c) in *. exists P. split; [reflexivity|].
  assert (HQ : 0 < L (n + 2)%nat).
  { destruct HL as [[j [Hj [_ HL]]]|[j [Hj [Hx HL]]]].
    - rewrite HL, lin_amp. apply bb_amp_pos.
    - specialize (HL (n + 2)%nat). rewrite !lin_amp in HL. pose proof (bb_amp_pos (nth j bb vzero)) as A. pose proof (bb_amp_pos (nth (S j) bb vzero)) as B.
      assert (Hlt : nth j amps 0 < nth (S j) amps 0) by (apply Hinc; rewrite amps_length; lia).
      apply (line_pos _ _ _ _ _ _ Hlt Hx A B HL). }
  assert (EA : bb_amp N h P = L (n + 2)%nat).
  { unfold bb_amp, bb_log_amp. fold n. unfold P. rewrite Nat.eqb_refl. apply log10_back. exact HQ. }
  assert (ED : forall c, delog N h P c = L c).
  { intros c. unfold delog. fold n. rewrite EA. unfold P. destruct (Nat.eqb_spec c (n + 2)) as [->|]; reflexivity. }
  assert (EF : bb_frequency N h P = L n).
  { unfold bb_frequency. fold n. unfold P. rewrite (proj2 (Nat.eqb_neq n (n + 2))) by lia. reflexivity. }
  assert (EZ : bb_damping N h P = L (n + 1)%nat / (2 * L n)).
  { unfold bb_damping. rewrite EF. fold n. unfold P. rewrite (proj2 (Nat.eqb_neq (n + 1) (n + 2))) by lia. reflexivity. }
  assert (Hfirst : forall d, (d < N)%nat -> first_cos N h P d = first_cos N h L d /\ first_sin N h P d = first_sin N h L d).
  { intros d Hd. rewrite !first_cos_eq, !first_sin_eq by assumption. pose proof (zi_starts h first) as Hz.
    assert ((zi h + 1) * N + d < n)%nat by (unfold n, bb_size; nia). unfold P.
    rewrite (proj2 (Nat.eqb_neq (zi h * N + d) (n + 2))), (proj2 (Nat.eqb_neq ((zi h + 1) * N + d) (n + 2))) by nia. split; reflexivity. }
  assert (EC : cos_re N h Fcos P = cos_re N h Fcos L) by (apply rsum_ext; intros d Hd; rewrite (proj1 (Hfirst d Hd)); reflexivity).
  assert (ES : cos_im N h Fcos P = cos_im N h Fcos L) by (apply rsum_ext; intros d Hd; rewrite (proj2 (Hfirst d Hd)); reflexivity).
  split.
  { destruct HL as [[j [Hj [Hx HL]]]|[j [Hj [Hx HL]]]]; [left|right]; exists j; split; try exact Hj; split; try exact Hx.
    - intros c. rewrite ED. apply HL.
    - intros c. rewrite ED. apply HL. }
  rewrite EF, EZ, EA, EC, ES. intros HW Hn k Hk. exists (cd_force L (nth k Omega 0)). split.
  { rewrite (nth_indep _ None (Some (cd_force L 0))) by (rewrite map_length; exact Hk). apply (map_nth (fun Om => Some (cd_force L Om))). }
  pose proof (cd_force_nonneg L (nth k Omega 0) HQ) as Hf. pose proof (cd_force_square L (nth k Omega 0) Hn) as HS. cbv zeta in HS.
  split; [exact Hf|]. set (Om := nth k Omega 0) in *. set (f := cd_force L Om) in *. split.
  - intros HO. eexists. apply steady_algebra; [lra|]. apply (phase_of_branch (L n) (L (n + 1)%nat / (2 * L n)) _ _ (L (n + 2)%nat) HQ).
    apply branch_amplitude; [exact HQ|]. rewrite <- HS. ring.
  - intros f' p' HO HSR. apply steady_algebra in HSR; [|lra]. apply algebra_amplitude in HSR; [|exact HQ]. apply branch_amplitude in HSR; [|exact HQ].
    set (a := cos_re N h Fcos L) in *. set (b := cos_im N h Fcos L) in *.
    assert (Hab : a ^ 2 + b ^ 2 <> 0) by (pose proof (pow2_ge_0 a); pose proof (pow2_ge_0 b); destruct Hn as [H'|H']; pose proof (sq_pos _ H'); lra).
    assert (E2 : f' ^ 2 = f ^ 2).
    { apply (Rmult_eq_reg_r (a ^ 2 + b ^ 2)); [|exact Hab]. rewrite HS, HSR. ring. }
    rewrite <- (Rabs_pos_eq f Hf). rewrite <- !sqrt_Rsqr_abs. f_equal. unfold Rsqr. lra.
Qed.
End cd.

(** ---- the two models together ---- *)
Lemma force_re_scaled N h Fl Fcos F u : cosine_force N h Fl (fun d => F * Fcos d) -> force_re N h Fl u = F * cos_re N h Fcos u.
Proof.
  intros H. unfold force_re, cos_re. rewrite <- rsum_scal_l. apply rsum_ext. intros d Hd. destruct (H d Hd) as [-> ->]. ring.
Qed.
Lemma force_im_scaled N h Fl Fcos F u : cosine_force N h Fl (fun d => F * Fcos d) -> force_im N h Fl u = F * cos_im N h Fcos u.
Proof.
  intros H. unfold force_im, cos_im. rewrite <- rsum_scal_l. apply rsum_ext. intros d Hd. destruct (H d Hd) as [-> ->]. ring.
Qed.

Lemma roundtrip N h bb Fl F Fcos w z recov rows amps phases : admissible h -> starts_with_1 h ->
  cosine_force N h Fl (fun d => F * Fcos d) ->
  constant_force N h bb (Some Fl) w z None None = Ok (rows, amps, phases) ->
  increasing (backbone_control N h recov bb) ->
  (forall j, (j < length bb)%nat -> rom_frequency N h bb w j <> 0 /\ (cos_re N h Fcos (nth j bb vzero) <> 0 \/ cos_im N h Fcos (nth j bb vzero) <> 0)) ->
  forall k, (k < length rows)%nat -> let r := nth k rows vzero in
    exists P, constant_displacement bb h N Fcos [bb_frequency N h r] recov (control_amp N h recov r) w z = Ok ([Some (Rabs F)], Some P) /\
      bb_amp N h P = nth k amps 0.
Proof.
  intros Ha H1 HF E Hinc Hnz k Hk. cbv zeta.
  destruct (constant_force_spec _ _ _ _ _ _ _ _ Ha H1 _ _ _ E) as (lower & upper & Hs). cbv zeta in Hs.
  destruct Hs as (_ & _ & Hin & Lr & La & _ & Hpt & _). set (pts := lower ++ rev upper) in *.
  assert (Lk : (k < length pts)%nat) by lia. destruct (Hpt k Lk) as ((HO & Ea & _) & _).
  destruct (constant_force_eq _ _ _ _ _ _ _ _ Ha H1 _ _ _ E) as (Er & Ea' & _).
  set (w' := rom_frequency N h bb w) in *. set (z' := rom_damping N h bb w z) in *.
  set (fr := rom_force (force_re N h) bb (Some Fl) None) in *. set (fi := rom_force (force_im N h) bb (Some Fl) None) in *.
  set (q := fun j => bb_amp N h (nth j bb vzero)) in *.
  set (P := cf_points (length bb) w' z' fr fi q) in *.
  assert (LP : (k < length P)%nat) by (rewrite Er, map_length in Hk; exact Hk).
  set (t := nth k P (O, false)). assert (Ht : In t P) by (apply nth_In; exact LP).
  assert (Erow : nth k rows vzero = cf_row N (bb_size N h) h bb w' z' fr fi q t).
  { rewrite Er. rewrite (nth_indep _ vzero (cf_row N (bb_size N h) h bb w' z' fr fi q (O, false))) by (rewrite map_length; exact LP). rewrite map_nth. reflexivity. }
  assert (Eamp : nth k amps 0 = q (fst t)).
  { rewrite Ea'. transitivity (nth k (map (fun t : nat * bool => q (fst t)) P) (q (fst (O, false)))).
    - apply nth_indep. rewrite map_length. exact LP.
    - exact (map_nth (fun t : nat * bool => q (fst t)) P (O, false) k). }
  unfold P, cf_points in Ht. rewrite <- in_rev in Ht. apply filter_In in Ht. destruct Ht as [Ht Hkeep].
  assert (Hj : (fst t < length bb)%nat).
  { unfold tags in Ht. apply in_app_or in Ht. rewrite <- in_rev in Ht.
    destruct Ht as [Ht|Ht]; apply in_map_iff in Ht; destruct Ht as [i [Ei Hi]]; rewrite <- Ei; apply in_seq in Hi; cbn; lia. }
  destruct (cf_row_point N h bb (Some Fl) w z None None Ha t Hkeep) as [Efr _].
  destruct (keep_sound N h bb (Some Fl) w z None None t Hkeep) as (Hp & _ & He & _).
  pose proof (control_row N h bb (Some Fl) w z None None Ha H1 recov t) as Ec.
  fold w' z' fr fi in Efr, Hp, He, Ec. change (fun j : nat => bb_amp N h (nth j bb vzero)) with q in Efr, Hp, He, Ec.
  rewrite Erow, Efr, Ec. set (j := fst t) in *. set (Om := cf_omega w' z' fr fi q t) in *.
  assert (Q : 0 < q j) by apply bb_amp_pos.
  apply (branch_amplitude (w' j) (z' j) (fr j) (fi j) (q j) Q) in He.
  rewrite (displacement_unfold N h bb w z recov Fcos _ Ha H1).
  assert (Hne : backbone_control N h recov bb <> []).
  { unfold backbone_control. destruct bb; [cbn in Hj; lia|discriminate]. }
  destruct (linear_interp_ok (bb_size N h + 3) (map (linear_row N h bb w z) (seq 0 (length bb))) [control_amp N h recov (nth j bb vzero) * q j] (Some (backbone_control N h recov bb)) Hinc Hne) as [out EL].
  rewrite EL. cbn [bind]. destruct (linear_interp_spec _ _ _ _ _ EL) as (_ & _ & Hsp). specialize (Hsp O ltac:(cbn; lia)). cbn [nth] in Hsp. destruct Hsp as (_ & Hnode & _).
  assert (Hh : nth 0 out None = hd None out) by (destruct out; reflexivity). rewrite Hh in Hnode.
  destruct (Hnode j) as [L [EqL HL]].
  { unfold backbone_control. rewrite map_length. exact Hj. }
  { unfold backbone_control. rewrite (nth_indep _ 0 ((fun u => control_amp N h recov u * bb_amp N h u) vzero)) by (rewrite map_length; exact Hj).
    rewrite (map_nth (fun u => control_amp N h recov u * bb_amp N h u)). reflexivity. }
  rewrite EqL. eexists. split.
  - f_equal. f_equal. cbn [map]. f_equal. f_equal.
    assert (HLj : forall c, L c = linear_row N h bb w z j c) by (intros c; rewrite HL, lins_nth by exact Hj; reflexivity).
    destruct (Hnz j Hj) as [HW Hn].
    assert (E0 : L (bb_size N h) = w' j).
    { rewrite HLj. unfold linear_row. cbv zeta. rewrite Nat.eqb_refl, (proj2 (Nat.eqb_neq (bb_size N h) (bb_size N h + 2))) by lia. reflexivity. }
    assert (E1 : L (bb_size N h + 1)%nat / (2 * L (bb_size N h)) = z' j).
    { rewrite E0, HLj. unfold linear_row. cbv zeta. rewrite Nat.eqb_refl, !(proj2 (Nat.eqb_neq (bb_size N h + 1) _)) by lia.
      unfold z', rom_damping. fold w'. destruct z; [|reflexivity]. fold w' in HW. fold (w' j). field. exact HW. }
    assert (E2 : L (bb_size N h + 2)%nat = q j) by (rewrite HLj; apply lin_amp).
    assert (EL1 : forall d, (d < N)%nat -> first_cos N h L d = first_cos N h (nth j bb vzero) d /\ first_sin N h L d = first_sin N h (nth j bb vzero) d).
    { intros d Hd. destruct (lin_first N h bb w z Ha H1 j d Hd) as [A B]. rewrite (first_cos_eq N h L), (first_sin_eq N h L) by assumption.
      rewrite !HLj. auto. }
    assert (EC : cos_re N h Fcos L = cos_re N h Fcos (nth j bb vzero)) by (apply rsum_ext; intros d Hd; rewrite (proj1 (EL1 d Hd)); reflexivity).
    assert (ES : cos_im N h Fcos L = cos_im N h Fcos (nth j bb vzero)) by (apply rsum_ext; intros d Hd; rewrite (proj2 (EL1 d Hd)); reflexivity).
    rewrite <- EC, <- ES in Hn. pose proof (cd_force_square N h Fcos L Om Hn) as HS. cbv zeta in HS. rewrite E1, E2, E0 in HS.
    pose proof (cd_force_nonneg N h Fcos L Om ltac:(rewrite E2; exact Q)) as Hf.
    set (f := cd_force N h Fcos L Om) in *.
    assert (Hfr : fr j = F * cos_re N h Fcos L) by (rewrite EC; apply force_re_scaled; exact HF).
    assert (Hfi : fi j = F * cos_im N h Fcos L) by (rewrite ES; apply force_im_scaled; exact HF).
    rewrite Hfr, Hfi in He.
    set (a := cos_re N h Fcos L) in *. set (b := cos_im N h Fcos L) in *.
    assert (Hab : a ^ 2 + b ^ 2 <> 0) by (pose proof (pow2_ge_0 a); pose proof (pow2_ge_0 b); destruct Hn as [H'|H']; pose proof (sq_pos _ H'); lra).
    assert (E3 : f ^ 2 = F ^ 2).
    { apply (Rmult_eq_reg_r (a ^ 2 + b ^ 2)); [|exact Hab]. rewrite HS, He. ring. }
    rewrite <- (Rabs_pos_eq f Hf). rewrite <- !sqrt_Rsqr_abs. f_equal. unfold Rsqr. lra.
  - rewrite Eamp. unfold bb_amp, bb_log_amp. rewrite Nat.eqb_refl, HL, lins_nth, lin_amp by exact Hj. apply log10_back. exact Q.
Qed.

(** a force returned by constant_displacement makes constant_force return the requested frequency *)
Lemma displacement_inverse N h bb w z recov Fcos ca Omega forces P : admissible h -> starts_with_1 h ->
  constant_displacement bb h N Fcos Omega recov ca w z = Ok (forces, Some P) ->
  bb_frequency N h P <> 0 -> (cos_re N h Fcos P <> 0 \/ cos_im N h Fcos P <> 0) ->
  forall k f Fl, (k < length Omega)%nat -> 0 < nth k Omega 0 -> nth k forces None = Some f -> cosine_force N h Fl (fun d => f * Fcos d) ->
  exists rows amps phases i, constant_force N h [P] (Some Fl) None None None None = Ok (rows, amps, phases) /\ (i < length rows)%nat /\
    bb_frequency N h (nth i rows vzero) = nth k Omega 0 /\ nth i amps 0 = bb_amp N h P.
Proof.
  intros Ha H1 E HW Hn k f Fl Hk HO Ef HF.
  destruct (displacement_spec N h bb w z recov Fcos ca Ha H1 Omega forces (Some P) E) as (_ & _ & Hout & Hin).
  set (A := backbone_control N h recov bb) in *.
  assert (Hr : nth 0 A 0 <= ca <= nth (length A - 1) A 0).
  { destruct (Rlt_dec ca (nth 0 A 0)) as [L|L]; [destruct (Hout (or_introl L)); discriminate|].
    destruct (Rlt_dec (nth (length A - 1) A 0) ca) as [L'|L']; [destruct (Hout (or_intror L')); discriminate|]. lra. }
  destruct (Hin Hr) as (P' & EP & _ & HFo). inversion EP; subst P'. clear EP.
  destruct (HFo HW Hn k Hk) as (f' & Ef' & _ & Hst & _). rewrite Ef in Ef'. inversion Ef'; subst f'.
  destruct (Hst HO) as [p Hp].
  destruct (proj2 (constant_force_inputs N h [P] (Some Fl) None None None None Ha)) as [[[rows amps] phases] EC].
  { left. repeat split; congruence. }
  destruct (constant_force_spec N h [P] (Some Fl) None None None None Ha H1 rows amps phases EC) as (lower & upper & Hs). cbv zeta in Hs.
  destruct Hs as (_ & _ & _ & Lr & La & _ & Hpt & Hcomp).
  destruct (Hcomp O (nth k Omega 0) p) as (i & Li & Ei & Ei2 & _); [cbn; lia|exact HO| |].
  { cbn [rom_force rom_frequency rom_damping nth]. rewrite (force_re_scaled _ _ _ _ _ _ HF), (force_im_scaled _ _ _ _ _ _ HF). exact Hp. }
  exists rows, amps, phases, i. split; [exact EC|]. split; [lia|]. split; [exact Ei2|].
  destruct (Hpt i Li) as ((_ & Ea & _) & _). rewrite Ea, Ei. reflexivity.
Qed.

(** the control point of the interpolated row *)
Lemma displacement_control N h bb w z recov Fcos ca Omega forces P : admissible h -> starts_with_1 h ->
  constant_displacement bb h N Fcos Omega recov ca w z = Ok (forces, Some P) ->
  (forall i j d, (i < length bb)%nat -> (j < length bb)%nat -> (d < N)%nat ->
     first_cos N h (nth i bb vzero) d = first_cos N h (nth j bb vzero) d /\ first_sin N h (nth i bb vzero) d = first_sin N h (nth j bb vzero) d)
  \/ In ca (backbone_control N h recov bb) ->
  control_amp N h recov P * bb_amp N h P = ca.
Proof.
  intros Ha H1 E Hs.
  destruct (displacement_spec N h bb w z recov Fcos ca Ha H1 Omega forces (Some P) E) as (Hinc & _ & Hout & Hin).
  set (A := backbone_control N h recov bb) in *.
  assert (LA : length A = length bb) by apply map_length.
  assert (Hr : nth 0 A 0 <= ca <= nth (length A - 1) A 0).
  { destruct (Rlt_dec ca (nth 0 A 0)) as [L|L]; [destruct (Hout (or_introl L)); discriminate|].
    destruct (Rlt_dec (nth (length A - 1) A 0) ca) as [L'|L']; [destruct (Hout (or_intror L')); discriminate|]. lra. }
  destruct (Hin Hr) as (P' & EP & HP & _). inversion EP; subst P'. clear EP.
  assert (NA : forall j, (j < length bb)%nat -> nth j A 0 = control_amp N h recov (nth j bb vzero) * bb_amp N h (nth j bb vzero)).
  { intros j Hj. unfold A, backbone_control. rewrite (nth_indep _ 0 ((fun u => control_amp N h recov u * bb_amp N h u) vzero)) by (rewrite map_length; exact Hj).
    rewrite (map_nth (fun u => control_amp N h recov u * bb_amp N h u)). reflexivity. }
  assert (DA : delog N h P (bb_size N h + 2)%nat = bb_amp N h P) by (unfold delog; rewrite Nat.eqb_refl; reflexivity).
  pose proof (zi_starts h H1) as Hz.
  assert (DF : forall d, (d < N)%nat -> first_cos N h P d = delog N h P (zi h * N + d)%nat /\ first_sin N h P d = delog N h P ((zi h + 1) * N + d)%nat).
  { intros d Hd. rewrite first_cos_eq, first_sin_eq by assumption. assert ((zi h + 1) * N + d < bb_size N h)%nat by (unfold bb_size; nia).
    unfold delog. rewrite !(proj2 (Nat.eqb_neq _ (bb_size N h + 2))) by nia. split; reflexivity. }
  assert (CE : forall u, (forall d, (d < N)%nat -> first_cos N h P d = first_cos N h u d /\ first_sin N h P d = first_sin N h u d) -> control_amp N h recov P = control_amp N h recov u).
  { intros u Hu. unfold control_amp. rewrite (rsum_ext N (fun d => recov d * first_cos N h P d) (fun d => recov d * first_cos N h u d)) by (intros d Hd; rewrite (proj1 (Hu d Hd)); reflexivity).
    rewrite (rsum_ext N (fun d => recov d * first_sin N h P d) (fun d => recov d * first_sin N h u d)) by (intros d Hd; rewrite (proj2 (Hu d Hd)); reflexivity). reflexivity. }
  assert (NODE : forall j, (j < length bb)%nat -> (forall c, delog N h P c = linear_row N h bb w z j c) -> control_amp N h recov P * bb_amp N h P = nth j A 0).
  { intros j Hj HL. rewrite (NA j Hj). rewrite <- DA, HL, lin_amp. f_equal. apply CE. intros d Hd.
    destruct (DF d Hd) as [-> ->]. rewrite !HL. exact (lin_first N h bb w z Ha H1 j d Hd). }
  destruct HP as [(j & Hj & Ej & HL)|(j & Hj & Ej & HL)]; [rewrite Ej; apply NODE; assumption|].
  assert (Hlt : nth j A 0 < nth (S j) A 0) by (apply Hinc; lia).
  destruct Hs as [Hs|Hs].
  - assert (EC : control_amp N h recov P = control_amp N h recov (nth j bb vzero)).
    { apply CE. intros d Hd. destruct (DF d Hd) as [-> ->]. destruct (lin_first N h bb w z Ha H1 j d Hd) as [A1 A2]. destruct (lin_first N h bb w z Ha H1 (S j) d Hd) as [B1 B2].
      pose proof (HL (zi h * N + d)%nat) as L1. pose proof (HL ((zi h + 1) * N + d)%nat) as L2. rewrite A1, B1 in L1. rewrite A2, B2 in L2.
      destruct (Hs j (S j) d ltac:(lia) Hj Hd) as [S1 S2]. rewrite <- S1 in L1. rewrite <- S2 in L2.
      split; apply (Rmult_eq_reg_l (nth (S j) A 0 - nth j A 0)); try lra. }
    assert (EC2 : control_amp N h recov (nth (S j) bb vzero) = control_amp N h recov (nth j bb vzero)).
    { unfold control_amp. rewrite (rsum_ext N (fun d => recov d * first_cos N h (nth (S j) bb vzero) d) (fun d => recov d * first_cos N h (nth j bb vzero) d)) by (intros d Hd; rewrite (proj1 (Hs (S j) j d Hj ltac:(lia) Hd)); reflexivity).
      rewrite (rsum_ext N (fun d => recov d * first_sin N h (nth (S j) bb vzero) d) (fun d => recov d * first_sin N h (nth j bb vzero) d)) by (intros d Hd; rewrite (proj2 (Hs (S j) j d Hj ltac:(lia) Hd)); reflexivity). reflexivity. }
    specialize (HL (bb_size N h + 2)%nat). rewrite !lin_amp, DA in HL.
    apply (Rmult_eq_reg_l (nth (S j) A 0 - nth j A 0)); [|lra].
    rewrite EC. transitivity (control_amp N h recov (nth j bb vzero) * ((nth (S j) A 0 - nth j A 0) * bb_amp N h P)); [ring|]. rewrite HL.
    transitivity ((nth (S j) A 0 - ca) * nth j A 0 + (ca - nth j A 0) * nth (S j) A 0); [|ring].
    assert (X0 : nth j A 0 = control_amp N h recov (nth j bb vzero) * bb_amp N h (nth j bb vzero)) by (apply NA; lia).
    assert (X1 : nth (S j) A 0 = control_amp N h recov (nth j bb vzero) * bb_amp N h (nth (S j) bb vzero)) by (rewrite <- EC2; apply NA; lia).
    rewrite X0, X1. ring.
  - apply (In_nth _ _ 0) in Hs. destruct Hs as [i [Hi Ei]].
    assert (ca = nth j A 0 \/ ca = nth (S j) A 0) as [Ec|Ec].
    { destruct (lt_eq_lt_dec i j) as [[L| ->]|L].
      - pose proof (Hinc i j ltac:(lia)). lra.
      - left. lra.
      - destruct (Nat.eq_dec i (S j)) as [->|Ne]; [right; lra|]. pose proof (Hinc (S j) i ltac:(lia)). lra. }
    + rewrite Ec. apply NODE; [lia|]. intros c. specialize (HL c). rewrite Ec in HL.
      apply (Rmult_eq_reg_l (nth (S j) A 0 - nth j A 0)); [|lra]. rewrite HL. ring.
    + rewrite Ec. apply NODE; [lia|]. intros c. specialize (HL c). rewrite Ec in HL.
      apply (Rmult_eq_reg_l (nth (S j) A 0 - nth j A 0)); [|lra]. rewrite HL. ring.
Qed.

Lemma displacement_ok N h bb w z recov Fcos ca Omega : admissible h -> starts_with_1 h ->
  increasing (backbone_control N h recov bb) -> bb <> [] ->
  exists forces pt, constant_displacement bb h N Fcos Omega recov ca w z = Ok (forces, pt).
Proof.
  intros Ha H1 Hi Hn. rewrite (displacement_unfold N h bb w z recov Fcos ca Ha H1).
  destruct (linear_interp_ok (bb_size N h + 3) (map (linear_row N h bb w z) (seq 0 (length bb))) [ca] (Some (backbone_control N h recov bb)) Hi) as [out EL].
  { unfold backbone_control. destruct bb; [contradiction|discriminate]. }
  rewrite EL. cbn [bind]. destruct (hd None out); eexists; eexists; reflexivity.
Qed.

(** ---- cases: one degree of freedom, harmonic 1 ---- *)
Lemma one_adm : admissible [1%nat] /\ starts_with_1 [1%nat].
Proof. split; [split; [discriminate|split; [repeat constructor; intros []|intros []]]|exists []; left; reflexivity]. Qed.
Lemma one_first u d : (d < 1)%nat -> first_cos 1 [1%nat] u d = u O /\ first_sin 1 [1%nat] u d = u 1%nat.
Proof.
  intros Hd. assert (d = O) by lia. subst d. destruct one_adm as [A B].
  rewrite (first_cos_eq 1 [1%nat] u O A B), (first_sin_eq 1 [1%nat] u O A B). split; reflexivity.
Qed.
Lemma one_control u : u 1%nat = 0 -> 0 <= u O -> control_amp 1 [1%nat] (fun _ => 1) u = u O.
Proof.
  intros H0 H1. unfold control_amp. cbn [rsum]. destruct (one_first u 0 ltac:(lia)) as [-> ->]. rewrite H0.
  replace ((0 + 1 * u O) ^ 2 + (0 + 1 * 0) ^ 2) with ((u O)²) by (unfold Rsqr; ring). apply sqrt_Rsqr. exact H1.
Qed.

Definition bent_bb : list vec := [fun c => nth c [1; 0; 1; 0; 0] 0; fun c => nth c [2; 0; 1; 0; 1] 0].
Lemma bent_control : backbone_control 1 [1%nat] (fun _ => 1) bent_bb = [1; 20].
Proof.
  unfold backbone_control, bent_bb. cbn [map]. rewrite !one_control by (cbn; lra). unfold bb_amp, bb_log_amp.
  cbn [nth bb_size components flat_map app length Nat.mul Nat.add]. rewrite Rpower_O by lra. rewrite Rpower_1 by lra. rewrite ?Rmult_1_l; repeat f_equal; ring.
Qed.

Lemma control_missed : exists P forces, constant_displacement bent_bb [1%nat] 1 (fun _ => 1) [] (fun _ => 1) (21 / 2) None None = Ok (forces, Some P) /\
  control_amp 1 [1%nat] (fun _ => 1) P * bb_amp 1 [1%nat] P = 33 / 4.
Proof.
  destruct one_adm as [A B].
  assert (Hi : increasing (backbone_control 1 [1%nat] (fun _ => 1) bent_bb)) by (rewrite bent_control; intros [|i] [|[|j]] Hij; cbn in *; lia || lra).
  destruct (displacement_ok 1 [1%nat] bent_bb None None (fun _ => 1) (fun _ => 1) (21 / 2) [] A B Hi ltac:(discriminate)) as (forces & pt & E).
  destruct (displacement_spec 1 [1%nat] bent_bb None None (fun _ => 1) (fun _ => 1) (21 / 2) A B [] forces pt E) as (_ & _ & _ & Hin).
  rewrite bent_control in Hin. cbn [length nth Nat.sub] in Hin. destruct (Hin ltac:(lra)) as (P & -> & HP & _). exists P, forces. split; [exact E|].
  assert (DA : delog 1 [1%nat] P 4%nat = bb_amp 1 [1%nat] P) by reflexivity.
  assert (D0 : delog 1 [1%nat] P 0%nat = P O) by reflexivity. assert (D1 : delog 1 [1%nat] P 1%nat = P 1%nat) by reflexivity.
  destruct HP as [(j & Hj & Ej & _)|(j & Hj & Ej & HL)].
  { destruct j as [|[|j]]; cbn in Ej, Hj; lra || lia. }
  destruct j as [|j]; [|cbn in Hj; lia].
  pose proof (HL 0%nat) as L0. pose proof (HL 1%nat) as L1. pose proof (HL 4%nat) as L4. rewrite DA in L4. rewrite D0 in L0. rewrite D1 in L1.
  change 4%nat with (bb_size 1 [1%nat] + 2)%nat in L4. rewrite !lin_amp in L4.
  unfold linear_row in L0, L1. cbn in L0, L1. unfold bb_amp, bb_log_amp in L4. cbn in L4. rewrite Rpower_O in L4 by lra. rewrite Rpower_1 in L4 by lra.
  assert (P O = 3 / 2) by lra. assert (P 1%nat = 0) by lra. rewrite one_control by lra. 
  assert (bb_amp 1 [1%nat] P = 11 / 2) by (unfold bb_amp, bb_log_amp; cbn; lra). rewrite H1. lra.
Qed.
Lemma control_wrong : exists bb ca P forces, constant_displacement bb [1%nat] 1 (fun _ => 1) [] (fun _ => 1) ca None None = Ok (forces, Some P) /\
  control_amp 1 [1%nat] (fun _ => 1) P * bb_amp 1 [1%nat] P <> ca.
Proof.
  destruct control_missed as (P & forces & E & H). exists bent_bb, (21 / 2), P, forces. split; [exact E|]. rewrite H. lra.
Qed.
