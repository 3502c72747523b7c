(** New elements, nonlinear modes and cases for other units. *)
From Coq Require Import Reals List Arith Bool Lra Lia FunctionalExtensionality.
From Verif.Lib Require Import RSum Py.
From Verif.Spec Require Import Harmonic Elements Slider Coordinates Units.
From Verif.Model Require Import Harmonic LocalForces Aft VibSys SysElements Jenkins Iwan JaxDual JaxFloat JaxFriction RoughContact SysHistory SysHarmonic.
From Verif.Proofs Require Import HarmonicP AftP SliderP JenkinsP HysteresisP IwanP IwanDiscP HystAftP PostHarmonicP CoordinatesP UnitsFloatP UnitsRoughP UnitsP UnitsElementP UnitsStateP UnitsJaxP UnitsSystemP.
Import ListNotations.
Open Scope R_scope.

Section Units.
  Variable u : units.
  Hypothesis Hu : positive_units u.
  Let L := u_length u.
  Let F := u_force u.
  Let W := u_freq u.
  Let HL : 0 < L. Proof. exact (proj1 Hu). Qed.
  Let HF : 0 < F. Proof. exact (proj1 (proj2 Hu)). Qed.
  Let HW : 0 < W. Proof. exact (proj2 (proj2 Hu)). Qed.
  Let kE : u_stiffness u = F / L. Proof. reflexivity. Qed.
  Let kL : u_stiffness u * L = F. Proof. rewrite kE. field. lra. Qed.

  (** ** new elements *)
  Lemma jenkins_new_in kt Fs : j_new (u_stiffness u * kt) (F * Fs) = jenkins_units u (j_new kt Fs).
  Proof. unfold j_new, jenkins_units. cbn [j_kt j_Fs j_prestress_Fs j_real_Fs j_hist j_dhist option_map]. fold F. rewrite Rmult_0_r. reflexivity. Qed.
  Lemma eldry_new_in kt kn mu gap u0 : ed_new (u_stiffness u * kt) (u_stiffness u * kn) mu (L * gap) (option_map (fun v d => L * v d) u0) = eldry_units u (ed_new kt kn mu gap u0).
  Proof. unfold ed_new, eldry_units. cbn [ed_pars ep_kt ep_kn ep_mu ep_gap ed_real_mu ed_prestress_mu ed_u0 ed_up ed_fp]. fold L F. rewrite !Rmult_0_r. reflexivity. Qed.

  Lemma phimax_in kt Fs chi beta : iw_phimax (u_stiffness u * kt) (F * Fs) chi beta = L * iw_phimax kt Fs chi beta.
  Proof. unfold iw_phimax, Rdiv. rewrite Rinv_mult, kE. unfold Rdiv. rewrite Rinv_mult, Rinv_inv. generalize (/ kt) (/ iw_den chi beta). intros a b. field. lra. Qed.
  Lemma delta_in p N alpha k : iw_delta (L * p) N alpha k = L * iw_delta p N alpha k.
  Proof. unfold iw_delta, iw_delta1. destruct (Rltb 1 alpha); unfold Rdiv; ring. Qed.
  Lemma positions_in p N alpha k : iw_positions (L * p) N alpha k = L * iw_positions p N alpha k.
  Proof.
    unfold iw_positions. destruct (Nat.ltb k N); [|reflexivity]. rewrite delta_in, (rsum_ext (S k) _ (fun i => L * iw_delta p N alpha i)) by (intros; apply delta_in). rewrite rsum_scal_l. ring.
  Qed.
  Lemma weights_in kt Fs chi beta N alpha k : 0 < kt -> 0 < Fs -> -1 < chi -> 0 <= beta -> (0 < N)%nat -> 1 <= alpha ->
    iw_weights (u_stiffness u * kt) (F * Fs) chi beta N alpha k = u_stiffness u * iw_weights kt Fs chi beta N alpha k.
  Proof.
    intros Hkt HFs Hchi Hbeta HN Hal. unfold iw_weights. cbv zeta. rewrite phimax_in, positions_in, delta_in.
    pose proof (phimax_pos kt Fs chi beta Hkt HFs Hchi Hbeta) as Hp. pose proof (position_pos kt Fs chi beta N alpha Hkt HFs Hchi Hbeta HN Hal k) as Hx. pose proof (den_pos chi beta Hchi Hbeta) as Hd.
    unfold iw_R, iw_S. rewrite phimax_in. set (p := iw_phimax kt Fs chi beta) in *. set (x := iw_positions p N alpha k) in *. set (d := iw_den chi beta) in *. set (q := iw_delta p N alpha k).
    destruct (Nat.ltb k N); [|rewrite kE; field; lra].
    rewrite <- (Rpower_mult_distr L p (chi + 2)), <- (Rpower_mult_distr L x chi) by assumption.
    replace (chi + 2) with (chi + 1 + 1) by ring. rewrite (Rpower_plus (chi + 1) 1 L), (Rpower_plus chi 1 L), (Rpower_1 L) by exact HL. pose proof (Rp_pos L chi) as P1. pose proof (Rp_pos p (chi + 1 + 1)) as P2. rewrite kE. field. repeat split; lra.
  Qed.
  Lemma iwan_new_in kt Fs chi beta N alpha : 0 < kt -> 0 < Fs -> -1 < chi -> 0 <= beta -> 1 <= alpha ->
    iw_new (u_stiffness u * kt) (F * Fs) chi beta N alpha = rmap (iwan_units u) (iw_new kt Fs chi beta N alpha).
  Proof.
    intros Hkt HFs Hchi Hbeta Hal. unfold iw_new. destruct (Nat.eqb_spec N 0) as [|H0]; [reflexivity|]. cbn [rmap]. unfold iwan_units. cbn [iw_n iw_phi iw_w iw_up iw_fp iw_fs iw_dhist]. fold L F. do 2 f_equal.
    - extensionality i. rewrite phimax_in. apply positions_in.
    - extensionality i. apply weights_in; try assumption. lia.
    - ring.
    - ring.
    - extensionality i. unfold vzero. ring.
  Qed.

  Lemma material_new_in E nu Re Et Sy : new_material (u_stress u * E) nu (L * Re) (u_stress u * Et) (u_stress u * Sy) = material_units u (new_material E nu Re Et Sy).
  Proof.
    assert (P : u_stress u <> 0). { unfold u_stress. fold L F. apply Rgt_not_eq, Rdiv_lt_0_compat; [exact HF|apply pow_lt, HL]. }
    unfold new_material, material_units. cbv zeta. cbn [m_Re m_poisson m_Estar m_Emod m_Etan m_dy m_Sys m_Gstar]. fold L. f_equal; try (unfold Rdiv; ring).
    unfold Rdiv. rewrite !Rinv_mult. generalize (/ E) (/ (1 - nu ^ 2)) (/ / 2) (/ / (1 - nu ^ 2)). intros a b c d. field. exact P.
  Qed.
  Lemma u0_in (x : u0_arg) : new_u0 (match x with U0Scalar x => U0Scalar (L * x) | U0Array n v => U0Array n (fun d => L * v d) end) = rmap (fun v d => L * v d) (new_u0 x).
  Proof.
    destruct x as [x|n v]; cbn [new_u0 rmap]; [f_equal; extensionality d; destruct (Nat.ltb d 2); ring|].
    destruct (Nat.eqb n 1); [cbn [rmap]; f_equal; extensionality d; destruct (Nat.ltb d 2); ring|]. destruct (Nat.eqb n 2); [cbn [rmap]; f_equal; extensionality d; destruct (Nat.ltb d 2); ring|]. destruct (Nat.eqb n 3); reflexivity.
  Qed.
  Lemma rough_new_in r x : rough_new (rough_units u r) (match x with U0Scalar x => U0Scalar (L * x) | U0Array n v => U0Array n (fun d => L * v d) end) = rmap (rough_state_units u) (rough_new r x).
  Proof.
    unfold rough_new. rewrite u0_in. destruct (new_u0 x) as [v|e]; [|reflexivity]. cbn [rmap bind]. unfold init_history, rough_state_units. cbn [rs_mu rs_unmax rs_Fm rs_u0 rs_fxy rs_radii rs_aft_u0 r_mu rough_units option_map]. fold L F. rewrite !Rmult_0_r. reflexivity.
  Qed.

  (** ** nonlinear modes *)
  Lemma mass_pos : 0 < u_mass u.
  Proof. unfold u_mass. fold L F W. apply Rdiv_lt_0_compat; [exact HF|]. apply Rmult_lt_0_compat; [exact HL|apply pow_lt, HW]. Qed.
  Lemma amplitude_in la : Rpower 10 (la + ln (sqrt (u_mass u) * L) / ln 10) = sqrt (u_mass u) * L * Rpower 10 la.
  Proof.
    rewrite Rpower_plus. assert (0 < sqrt (u_mass u) * L) by (apply Rmult_lt_0_compat; [apply sqrt_lt_R0, mass_pos|exact HL]). assert (0 < ln 10) by (rewrite <- ln_1; apply ln_increasing; lra).
    replace (Rpower 10 (ln (sqrt (u_mass u) * L) / ln 10)) with (sqrt (u_mass u) * L); [ring|]. unfold Rpower. replace (ln (sqrt (u_mass u) * L) / ln 10 * ln 10) with (ln (sqrt (u_mass u) * L)) by (field; lra).
    symmetry. apply exp_ln. assumption.
  Qed.

  Lemma total_in s r U V w h Nt cg : system_in u s r -> times L U V ->
    same_result (fun a b => times F (fst a) (fst b) /\ both (grad_in u) (snd a) (snd b)) (total_aft s U w h Nt cg) (total_aft r V (W * w) h Nt cg).
  Proof.
    intros (EN & _ & _ & _ & Hf) HV. unfold total_aft. destruct (Nhc h) as [m|e]; [|reflexivity]. cbn [bind]. destruct cg.
    - apply (bind_map _ _ _ _ _ _ (aft_loop_in u Hu (vs_N s) _ _ U V w h Nt Hf HV (vzero, mzero, vzero) (vzero, mzero, vzero) (conj (times_zero F) (conj (mtimes_zero _) (times_zero _))))).
      intros [[F1 J1] d1] [[F2 J2] d2] (A & B & C). cbn. split; [exact A|split; [exact B|exact C]].
    - apply (bind_map _ _ _ _ _ _ (aft_loop_F_in u Hu (vs_N s) _ _ U V w h Nt Hf HV vzero vzero (times_zero F))). intros F1 F2 A. cbn. split; [exact A|exact I].
  Qed.

  Lemma epmc_in s r X Fl h Nt cg : let N := vs_N s in let n := (aft_Nhc h * N)%nat in (zi h + 2 <= aft_Nhc h)%nat -> system_in u s r ->
    same_result (fun a b => (forall i, (i < n)%nat -> fst b i = F * fst a i) /\ fst b n = fst a n /\ fst b (n + 1)%nat = fst a (n + 1)%nat / sqrt (u_mass u))
      (epmc_res s X Fl h Nt cg) (epmc_res r (mode_units u N h n X) (mode_forces u N h Fl) h Nt cg).
  Proof.
    cbv zeta. intros H2 HS. pose proof HS as (EN & HM & HC & HK & Hf). unfold epmc_res. destruct h as [|h0 h']; [reflexivity|]. set (h := h0 :: h') in *. set (N := vs_N s) in *. cbv zeta. rewrite EN. fold N. set (n := (aft_Nhc h * N)%nat).
    destruct (Nhc h) as [m|e]; [|reflexivity]. cbn [bind].
    assert (Z : ((zi h + 2) * N <= n)%nat) by (unfold n; apply Nat.mul_le_mono_r; exact H2).
    assert (Yn : mode_units u N h n X n = W * X n). { unfold mode_units. destruct (Nat.ltb_spec n (zi h * N)); [assert (N = 0 \/ 0 < N)%nat as [->|] by lia; nia|]. rewrite Nat.ltb_irrefl. destruct (Nat.ltb_spec n (n + 2)); [reflexivity|lia]. }
    assert (Y1 : mode_units u N h n X (n + 1)%nat = W * X (n + 1)%nat). { unfold mode_units. destruct (Nat.ltb_spec (n + 1) (zi h * N)); [nia|]. destruct (Nat.ltb_spec (n + 1) n); [lia|]. destruct (Nat.ltb_spec (n + 1) (n + 2)); [reflexivity|lia]. }
    assert (Y2 : mode_units u N h n X (n + 2)%nat = X (n + 2)%nat + ln (sqrt (u_mass u) * L) / ln 10). { unfold mode_units. destruct (Nat.ltb_spec (n + 2) (zi h * N)); [nia|]. destruct (Nat.ltb_spec (n + 2) n); [lia|]. rewrite Nat.ltb_irrefl. reflexivity. }
    rewrite Yn, Y1, Y2, amplitude_in. set (w := X n). set (xi := X (n + 1)%nat). set (A := Rpower 10 (X (n + 2)%nat)).
    pose proof mass_pos as Hm. assert (Hq : 0 < sqrt (u_mass u)) by (apply sqrt_lt_R0, Hm). set (q := sqrt (u_mass u)) in *. assert (Eq : u_mass u = q * q) by (symmetry; apply sqrt_sqrt; lra).
    set (Y := mode_units u N h n X) in *.
    assert (YU : forall i, (i < n)%nat -> epmc_ascale N h (q * L * A) i * Y i = L * (epmc_ascale N h A i * X i)).
    { intros i Hi. unfold epmc_ascale, Y, mode_units. fold q L. apply Nat.ltb_lt in Hi. rewrite Hi. destruct (Nat.ltb i (zi h * N)); [ring|field; lra]. }
    assert (YS : forall i, (zi h * N <= i)%nat -> (i < n)%nat -> Y i = X i / q).
    { intros i H1 Hi. unfold Y, mode_units. fold q. apply Nat.ltb_lt in Hi. apply Nat.ltb_ge in H1. rewrite Hi, H1. reflexivity. }
    assert (DM : mtimes (u_damping u) (fun i j => vs_C s i j - xi * vs_M s i j) (fun i j => vs_C r i j - W * xi * vs_M r i j)).
    { intros i j. rewrite HC, HM. unfold u_mass, u_damping. fold L F W. field. lra. }
    clearbody w xi A.
    apply (bind_map _ _ _ _ _ _ (stiffness_in u Hu N _ _ _ _ _ _ w h cg false HM DM HK)). intros [E1 d1] [E2 d2] [SE Sd]. cbn [fst snd] in SE, Sd.
    assert (TV : times L (take n (fun i => epmc_ascale N h A i * X i)) (take n (fun i => epmc_ascale N h (q * L * A) i * Y i))).
    { intros i. unfold take, clear_from. destruct (Nat.ltb_spec i n) as [Hi|]; [apply YU, Hi|ring]. }
    apply (bind_map _ _ _ _ _ _ (total_in s r _ _ w h Nt cg HS TV)). intros [F1 g1] [F2 g2] [AF Ag]. cbn [fst snd] in AF, Ag.
    match goal with |- same_result ?PP (match _ with Some _ => _ | None => Ok (?R1, _) end) (match _ with Some _ => _ | None => Ok (?R2, _) end) =>
      set (RX := R1); set (RY := R2); assert (PR : (forall i, (i < n)%nat -> RY i = F * RX i) /\ RY n = RX n /\ RY (n + 1)%nat = RX (n + 1)%nat / q) end.
    { split; [|split].
      - intros i Hi. unfold RX, RY. apply Nat.ltb_lt in Hi. rewrite Hi. rewrite (matvec_units n (u_stiffness u) L E1 E2 (fun i => epmc_ascale N h A i * X i) (fun i => epmc_ascale N h (q * L * A) i * Y i) SE YU i), kL, AF.
        unfold clear_from, mode_forces. fold F. destruct (Nat.ltb i (zi h * N)); ring.
      - unfold RX, RY. rewrite Nat.ltb_irrefl, Nat.eqb_refl.
        assert (B : forall c, (c = zi h \/ c = zi h + 1)%nat -> dot N (fun i => Y (c * N + i)%nat) (matvec N (vs_M r) (fun i => Y (c * N + i)%nat)) = dot N (fun i => X (c * N + i)%nat) (matvec N (vs_M s) (fun i => X (c * N + i)%nat))).
        { intros c Hc. assert (R : forall i, (i < N)%nat -> Y (c * N + i)%nat = / q * X (c * N + i)%nat) by (intros i Hi; rewrite YS by nia; unfold Rdiv; ring).
          unfold dot. apply rsum_ext. intros i Hi. rewrite (matvec_units N (u_mass u) (/ q) (vs_M s) (vs_M r) (fun i => X (c * N + i)%nat) (fun i => Y (c * N + i)%nat) HM R i), R, Eq by exact Hi. field. lra. }
        rewrite (B (zi h)), (B (zi h + 1)%nat) by auto. reflexivity.
      - unfold RX, RY. destruct (Nat.ltb_spec (n + 1) n); [lia|]. destruct (Nat.eqb_spec (n + 1) n); [lia|]. unfold dot, Rdiv. rewrite <- rsum_scal_r. apply rsum_ext. intros i Hi. unfold clear_to, mode_forces.
        destruct (Nat.ltb_spec i (zi h * N)); [ring|]. rewrite YS by assumption. unfold Rdiv. ring. }
    clearbody RX RY.
    destruct d1 as [d1|], d2 as [d2|], g1 as [[J1 w1]|], g2 as [[J2 w2]|]; cbn in Sd, Ag; try contradiction; try exact PR.
    assert (S2 : same_result (fun a b => True) (harmonic_stiffness N mzero (fun i j => - vs_M s i j) mzero w h false true) (harmonic_stiffness N mzero (fun i j => - vs_M r i j) mzero (W * w) h false true)).
    { unfold harmonic_stiffness. destruct (Nhc h); reflexivity || exact I. }
    apply (bind_map _ _ _ _ _ _ S2). intros [D1 q1] [D2 q2] _. exact PR.
  Qed.

  (** ** solutions *)
  Lemma solutions_in N M C K M' C' K' l r Uw Fl Gl h Nt : admissible h -> (2 * list_max h + 1 < Nt)%nat -> Nat.even Nt = true ->
    let n := (aft_Nhc h * N)%nat in
    mtimes (u_mass u) M M' -> mtimes (u_damping u) C C' -> mtimes (u_stiffness u) K K' -> times F Fl Gl ->
    Forall2 (element_in (force_in u N) u) l r -> Forall (same_passes u N h Nt (take n Uw)) l ->
    ((exists l1 Rr, sys_hbm_res N M C K l Uw Fl h Nt = (l1, Ok (Some Rr)) /\ forall i, (i < n)%nat -> Rr i = 0) <->
     (exists r1 Rr, sys_hbm_res N M' C' K' r (unknowns_units u n Uw) Gl h Nt = (r1, Ok (Some Rr)) /\ forall i, (i < n)%nat -> Rr i = 0)).
  Proof.
    intros Ha HN Hev n HM HC HK HG Hl HP. destruct (harmonic_in u Hu N M C K M' C' K' l r Uw Fl Gl h Nt Ha HN Hev HM HC HK HG Hl HP) as [_ B]. fold n in B.
    destruct (sys_hbm_res N M C K l Uw Fl h Nt) as [l1 [[R1|]|x1]], (sys_hbm_res N M' C' K' r (unknowns_units u n Uw) Gl h Nt) as [r1 [[R2|]|x2]]; cbn in B; try contradiction;
      (split; intros (a & Rr & E & Z); injection E as E1 E2; try discriminate); subst.
    - exists r1, R2. split; [reflexivity|]. intros i Hi. rewrite B, (Z i Hi). ring.
    - exists l1, R1. split; [reflexivity|]. intros i Hi. pose proof (B i) as Bi. rewrite (Z i Hi) in Bi. fold F in Bi. nra.
  Qed.
End Units.

(** * what depends on the units *)
Definition sine2 : vec := fun p => match p with 1 => 2 | _ => 0 end.
Lemma sine_law e : 0 < e -> let f := jenkins_law e e (repeat_samples 4 (fun n => local_motion 1 one [1%nat] sine2 0 (sample_phase 4 n))) (local_first_coef 1 one sine2) in
  f 0%nat = 0 /\ f 1%nat = e /\ f 2%nat = - e /\ f 3%nat = - e /\ f 4%nat = e /\ f 5%nat = e /\ f 6%nat = - e /\ f 7%nat = - e.
Proof.
  intros He f. set (x := fun n : nat => match n with 1 => 2 | 3 => - (2) | _ => 0 end).
  assert (Eu : f = jenkins_law e e (repeat_samples 4 x) 0).
  { unfold f. f_equal.
    - apply functional_extensionality. intros k. unfold repeat_samples. pose proof (Nat.mod_upper_bound k 4 ltac:(lia)).
      rewrite first_harmonic_samples by assumption. unfold x, sine2. destruct (k mod 4)%nat as [|[|[|[|m]]]]; try ring. lia.
    - unfold local_first_coef, one, sine2. cbn [rsum]. ring. }
  rewrite Eu. clear Eu f. set (f := jenkins_law e e (repeat_samples 4 x) 0).
  assert (S : forall k, f (S k) = Slider.clamp (- e) e (f k + e * (x (S k mod 4)%nat - x (k mod 4)%nat))) by reflexivity.
  assert (E0 : f 0%nat = 0). { change (f 0%nat) with (Slider.clamp (- e) e (e * (0 - 0))). minmax. }
  assert (E1 : f 1%nat = e) by (rewrite S, E0; cbn; minmax).
  assert (E2 : f 2%nat = - e) by (rewrite S, E1; cbn; minmax).
  assert (E3 : f 3%nat = - e) by (rewrite S, E2; cbn; minmax).
  assert (E4 : f 4%nat = e) by (rewrite S, E3; cbn; minmax).
  assert (E5 : f 5%nat = e) by (rewrite S, E4; cbn; minmax).
  assert (E6 : f 6%nat = - e) by (rewrite S, E5; cbn; minmax).
  assert (E7 : f 7%nat = - e) by (rewrite S, E6; cbn; minmax).
  auto 10.
Qed.

Lemma tolerance_units : exists u N h Nt Q T s U w e1 F e2 G, positive_units u /\ admissible h /\ (2 * list_max h + 1 < Nt)%nat /\ Nat.even Nt = true /\ 0 < j_kt s /\ 0 < j_Fs s /\
  element_aft N (ElJenkins Q T s) U w h Nt = Ok (e1, Some F) /\
  element_aft N (ElJenkins Q T (jenkins_units u s)) (fun i => u_length u * U i) (u_freq u * w) h Nt = Ok (e2, Some G) /\ G O = u_force u * F O / 2 /\ F O = 1.
Proof.
  assert (Ha : admissible [1%nat]). { split; [discriminate|]. split; [constructor; [tauto|constructor]|tauto]. }
  assert (Hl : (2 * list_max [1%nat] + 1 < 4)%nat) by (cbn; lia).
  set (e := default_tol). assert (He : 0 < e < 1) by (pose proof default_tol_range; unfold e; lra).
  set (u := mkUnits 1 e 1). assert (Hu : positive_units u) by (unfold positive_units, u; cbn; lra).
  assert (EU : (fun i => u_length u * sine2 i) = sine2) by (extensionality i; unfold u; cbn [u_length]; ring).
  assert (ES : jenkins_units u (j_new 1 1) = j_new e e).
  { rewrite <- (jenkins_new_in u). f_equal; unfold u_stiffness, u; cbn [u_force u_length]; field. }
  pose proof (sine_law 1 ltac:(lra)) as L. cbv zeta in L. destruct L as (L0 & L1 & L2 & L3 & L4 & L5 & L6 & L7).
  pose proof (sine_law e ltac:(lra)) as S. cbv zeta in S. destruct S as (S0 & S1 & S2 & S3 & S4 & S5 & S6 & S7).
  destruct (jenkins_aft_exact (j_new 1 1) 1 one one [1%nat] 4 Ha Hl eq_refl ltac:(cbn; lra)) as (st & F & dU & EA & V & _).
  destruct (jenkins_aft_early (j_new e e) 1 one one [1%nat] 4 Ha Hl eq_refl ltac:(cbn; lra) sine2) as (st' & G & dU' & E' & HG).
  { cbn [j_kt j_Fs j_new Nat.sub]. rewrite S3, Rabs_Ropp, Rabs_pos_eq; unfold e in *; lra. }
  destruct phase4 as (P0 & P1 & P2 & P3).
  exists u, 1%nat, [1%nat], 4%nat, one, one, (j_new 1 1), sine2, 1, (ElJenkins one one (st sine2)), (F sine2), (ElJenkins one one st'), G.
  split; [exact Hu|]. split; [exact Ha|]. split; [exact Hl|]. split; [reflexivity|]. split; [cbn; lra|]. split; [cbn; lra|].
  split; [cbn [element_aft]; rewrite EA; reflexivity|]. split; [rewrite EU, ES; cbn [element_aft]; rewrite E'; reflexivity|].
  assert (F0 : F sine2 O = 1).
  { pose proof (V sine2) as W. cbv zeta in W. cbn [j_kt j_Fs j_new Nat.sub] in W.
    specialize (W ltac:(rewrite L3, Rabs_Ropp, Rabs_pos_eq; fold e; lra) O O ltac:(cbn; lia) ltac:(lia)). cbn [Nat.mul Nat.add] in W. rewrite W. unfold fourier_coef. cbn [nth components flat_map app rsum Nat.add comp_fun].
    rewrite P0, P1, P2, P3, L4, L5, L6, L7. replace (INR 1 * 0) with 0 by (simpl; ring). replace (INR 1 * (PI / 2)) with (PI / 2) by (simpl; ring).
    replace (INR 1 * PI) with PI by (simpl; ring). replace (INR 1 * (3 * (PI / 2))) with (3 * (PI / 2)) by (simpl; ring).
    rewrite cos_0, cos_PI2, cos_PI, cos_3PI2. unfold one. replace (INR 4) with 4 by (simpl; ring). lra. }
  split; [|exact F0]. rewrite F0. specialize (HG O O ltac:(cbn; lia) ltac:(lia)). cbn [Nat.mul Nat.add j_kt j_Fs j_new] in HG. rewrite HG. unfold fourier_coef. cbn [nth components flat_map app rsum Nat.add comp_fun].
  rewrite P0, P1, P2, P3, S0, S1, S2, S3. replace (INR 1 * 0) with 0 by (simpl; ring). replace (INR 1 * (PI / 2)) with (PI / 2) by (simpl; ring).
  replace (INR 1 * PI) with PI by (simpl; ring). replace (INR 1 * (3 * (PI / 2))) with (3 * (PI / 2)) by (simpl; ring).
  rewrite cos_0, cos_PI2, cos_PI, cos_3PI2. unfold one. replace (INR 4) with 4 by (simpl; ring). unfold u. cbn [u_force]. lra.
Qed.

(** the static evaluation of the cubic damper takes displacements for velocities *)
Lemma damper_units : exists u N Q T c U F J G K, positive_units u /\ u_length u = 1 /\ u_force u = 1 /\
  sys_static_res N mzero [ElInstant (damping_nl N 1 Q T c)] U vzero = Ok (Some F, Some J) /\
  sys_static_res N mzero [ElInstant (damping_nl N 1 Q T (fun d => u_force u / (u_length u * u_freq u) ^ 3 * c d))] (fun i => u_length u * U i) (fun i => u_force u * vzero i) = Ok (Some G, Some K) /\
  F O = 1 /\ G O = / 8.
Proof.
  exists (mkUnits 1 1 2), 1%nat, one, one, (fun _ => 1), (fun _ => 1). do 4 eexists. split; [unfold positive_units; cbn; lra|]. split; [reflexivity|]. split; [reflexivity|].
  split; [reflexivity|]. split; [reflexivity|]. unfold damping_force, vadd, matvec, vzero, mzero, one. cbn [fst rsum u_force u_length u_freq]. split; field.
Qed.

(** * a case: kN and mm instead of N and m; a preloaded unilateral spring, a Jenkins element, a dry friction point *)
Definition units_case : units := mkUnits 1000 (/ 1000) 1.
Definition case_old : list element :=
  [ElInstant (unilateral_nl 1 1 one one (fun _ => 3) (fun _ => 2) (fun _ => 1)); ElJenkins one one (j_new 1 1); ElEldry 2 1 one one (ed_new 1 1 (1/2) 0 None)].
Definition case_new : list element :=
  [ElInstant (unilateral_nl 1 1 one one (fun _ => / 1000000 * 3) (fun _ => / 1000 * 2) (fun _ => 1000 * 1)); ElJenkins one one (j_new (/ 1000000 * 1) (/ 1000 * 1));
   ElEldry 2 1 one one (ed_new (/ 1000000 * 1) (/ 1000000 * 1) (1/2) (1000 * 0) None)].
Lemma case_pos : positive_units units_case. Proof. unfold positive_units, units_case. cbn. lra. Qed.
Lemma case_stiffness : u_stiffness units_case = / 1000000. Proof. unfold u_stiffness, units_case. cbn [u_force u_length]. field. Qed.
Lemma case_elements : Forall2 (element_in (spring_in units_case 1) units_case) case_old case_new.
Proof.
  unfold case_old, case_new. rewrite <- case_stiffness. constructor; [|constructor; [|constructor; [|constructor]]].
  - constructor. exact (unilateral_in units_case 1 1 one one (fun _ => 3) (fun _ => 2) (fun _ => 1)).
  - change (/ 1000 * 1) with (u_force units_case * 1). rewrite (jenkins_new_in units_case). constructor.
  - change (1000 * 0) with (u_length units_case * 0). rewrite (eldry_new_in units_case _ _ _ _ None). constructor.
Qed.
Lemma case_forces : Forall2 (element_in (force_in units_case 1) units_case) case_old case_new.
Proof. pose proof case_elements as H. induction H as [|e e' l l' He Hl IH]; constructor; [|exact IH]. destruct He; constructor; try assumption. constructor. assumption. Qed.
Lemma case_passes : Forall (same_passes units_case 1 [1%nat] 4 sine2) case_old.
Proof.
  unfold case_old. constructor; [exact I|]. constructor; [|constructor; [exact I|constructor]]. unfold same_passes. cbn [j_Fs j_kt j_new Nat.sub]. split; [lra|]. cbv zeta.
  pose proof (sine_law 1 ltac:(lra)) as L. cbv zeta in L. destruct L as (_ & _ & _ & L3 & _). rewrite L3. rewrite Rabs_Ropp, Rabs_pos_eq by lra. unfold units_case. cbn [u_force].
  assert (default_tol < / 1000) by (unfold default_tol; apply Rinv_lt_contravar; simpl; lra). split; intros; lra.
Qed.

(** * for the theorems *)
Lemma iwan_created u : positive_units u -> forall kt Fs chi beta N alpha, 0 < kt -> 0 < Fs -> -1 < chi -> 0 <= beta -> 1 <= alpha ->
  match iw_new kt Fs chi beta N alpha with
  | Ok s => iw_new (u_stiffness u * kt) (u_force u * Fs) chi beta N alpha = Ok (iwan_units u s)
  | Err x => iw_new (u_stiffness u * kt) (u_force u * Fs) chi beta N alpha = Err x
  end.
Proof. intros Hu kt Fs chi beta N alpha H1 H2 H3 H4 H5. rewrite (iwan_new_in u Hu) by assumption. destruct (iw_new kt Fs chi beta N alpha); reflexivity. Qed.
Lemma rough_created u : forall r x, match rough_new r (U0Array 3 x) with
  | Ok s => rough_new (rough_units u r) (U0Array 3 (fun d => u_length u * x d)) = Ok (rough_state_units u s)
  | Err _ => False
  end.
Proof. intros r x. pose proof (rough_new_in u r (U0Array 3 x)) as E. cbn in E |- *. exact E. Qed.
Lemma static_units u : positive_units u -> forall N K K' l r U V F G,
  Forall2 (element_in (spring_in u N) u) l r -> times (u_length u) U V -> mtimes (u_stiffness u) K K' -> times (u_force u) F G ->
  same_result (fun a b => both (times (u_force u)) (fst a) (fst b) /\ both (mtimes (u_stiffness u)) (snd a) (snd b))
    (sys_static_res N K l U F) (sys_static_res N K' r V G).
Proof. intros Hu N K K' l r U V F G Hl HV HK HG. apply (static_in u Hu N (spring_in u N)); try assumption. intros f g H. apply (spring_static u Hu N f g U V H HV). Qed.
Lemma history_units u : positive_units u -> forall N cs l r, Forall2 (element_in (spring_in u N) u) l r ->
  Forall2 (element_in (spring_in u N) u) (fst (sys_run N l cs)) (fst (sys_run N r (map (call_units u) cs))) /\
  snd (sys_run N l cs) = snd (sys_run N r (map (call_units u) cs)).
Proof. intros Hu N cs l r H. apply (run_in u Hu N (spring_in u N)); [|exact H]. intros f g U V K HV. apply (spring_static u Hu N f g U V K HV). Qed.
Lemma friction_jacobians u : positive_units u -> forall N Q T U V w h Nt,
  admissible h -> (2 * list_max h + 1 < Nt)%nat -> Nat.even Nt = true -> times (u_length u) U V ->
  (forall s, same_passes u N h Nt U (ElJenkins Q T s) ->
     same_result (fun a b => fst b = jenkins_units u (fst a) /\ outputs_in u (snd a) (snd b)) (jenkins_aft s N Q T U h Nt) (jenkins_aft (jenkins_units u s) N Q T V h Nt)) /\
  (forall s, same_passes u N h Nt U (ElIwan Q T s) ->
     same_result (fun a b => fst b = iwan_units u (fst a) /\ outputs_in u (snd a) (snd b)) (iwan_aft s N Q T U h Nt) (iwan_aft (iwan_units u s) N Q T V h Nt)) /\
  (forall p ne s, same_result (outputs_in u) (eldry_aft p ne N Q T (ed_pars s) (ed_u0 s) U w h Nt)
     (eldry_aft p ne N Q T (ed_pars (eldry_units u s)) (ed_u0 (eldry_units u s)) V (u_freq u * w) h Nt)) /\
  (forall kt Fs u0, same_result (outputs_in u) (jax_jenkins_aft N Q T kt Fs u0 U w h Nt)
     (jax_jenkins_aft N Q T (u_stiffness u * kt) (u_force u * Fs) (option_map (Rmult (u_length u)) u0) V (u_freq u * w) h Nt)) /\
  (forall r s rep, r_model r = TAN ->
     same_result (fun a b => both (times (u_force u)) (fst a) (fst b) /\
                             both (fun p q => mtimes (u_stiffness u) (fst p) (fst q) /\ times (u_force u / u_freq u) (snd p) (snd q)) (snd a) (snd b))
       (rough_aft r N Q T s U w h Nt rep) (rough_aft (rough_units u r) N Q T (rough_state_units u s) V (u_freq u * w) h Nt rep)).
Proof.
  intros Hu N Q T U V w h Nt Ha HN Hev HV. split; [intros s H; apply (jenkins_aft_in u Hu h Nt Ha HN Hev N Q T s U V HV H)|].
  split; [intros s H; apply (iwan_aft_in u Hu h Nt Ha HN Hev N Q T s U V HV H)|].
  split; [intros p ne s; apply (jax_in u Hu); [exact HV|apply (ed_local_in u Hu)]|].
  split; [intros kt Fs u0; apply (jax_in u Hu); [exact HV|apply (jj_local_in u Hu)]|].
  intros r s rep H. apply (rough_in u Hu); assumption.
Qed.

(** a mass of 2 kg on a cubic spring and a cubic damper, in mm, kN and rounds per minute *)
Definition rounds : R := 60 / (2 * PI).
Definition units_case2 : units := mkUnits 1000 (/ 1000) rounds.
Definition diagonal (x : R) : mat := fun i j => if Nat.eqb i j then x else 0.
Definition old_system : vibsys :=
  mkSys 1 (diagonal 2) (diagonal 8) (diagonal 1) None [cubic_nl 1 1 one one (fun _ => 3); damping_nl 1 1 one one (fun _ => 5)].
Definition new_system : vibsys :=
  mkSys 1 (diagonal (2 / (1000000 * rounds ^ 2))) (diagonal (8 / 1000000)) (diagonal (1 / (1000000 * rounds))) None
    [cubic_nl 1 1 one one (fun _ => 3 / 1000 ^ 4); damping_nl 1 1 one one (fun _ => 5 / (1000 ^ 4 * rounds ^ 3))].
Lemma case_system : positive_units units_case2 /\ system_in units_case2 old_system new_system.
Proof.
  assert (Hr : 0 < rounds) by (unfold rounds; apply Rdiv_lt_0_compat; [lra|pose proof PI_RGT_0; lra]).
  split; [unfold positive_units, units_case2; cbn; lra|]. unfold system_in, old_system, new_system. cbn [vs_N vs_M vs_C vs_K vs_forces].
  split; [reflexivity|].
  assert (D : forall a x y, y = a * x -> mtimes a (diagonal x) (diagonal y)) by (intros a x y -> i j; unfold diagonal; destruct (Nat.eqb i j); ring).
  split; [apply D; unfold u_mass, units_case2; cbn [u_length u_force u_freq]; field; lra|].
  split; [apply D; unfold u_damping, units_case2; cbn [u_length u_force u_freq]; field; lra|].
  split; [apply D; unfold u_stiffness, units_case2; cbn [u_length u_force u_freq]; field|].
  constructor; [|constructor; [|constructor]].
  - pose proof (cubic_in units_case2 1 1 one one (fun _ => 3)) as H. apply a_spring in H. cbv beta in H.
    replace (u_force units_case2 / u_length units_case2 ^ 3 * 3) with (3 / 1000 ^ 4) in H by (unfold units_case2; cbn [u_length u_force]; field). exact H.
  - pose proof (damping_in units_case2 1 1 one one (fun _ => 5)) as H. cbv beta in H.
    replace (u_force units_case2 / (u_length units_case2 * u_freq units_case2) ^ 3 * 5) with (5 / (1000 ^ 4 * rounds ^ 3)) in H
      by (unfold units_case2; cbn [u_length u_force u_freq]; field; lra). exact H.
Qed.
