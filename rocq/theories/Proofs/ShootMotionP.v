(** Shooting: a zero residual means a periodic motion, and the converse. *)
From Coq Require Import Reals List Arith Bool ZArith Lia Lra Psatz FunctionalExtensionality.
From Verif.Lib Require Import RSum Calc LinAlg Py.
From Verif.Spec Require Import Calculus Harmonic Elements System Galerkin Periodic.
From Verif.Model Require Import Harmonic LocalForces Aft VibSys SysElements.
From Verif.Proofs Require Import HarmonicP VibSysP VibControlP VprnmP ShootP RotationP GronwallP.
Import ListNotations.
Open Scope R_scope.

(** ---- bounds ---- *)
Definition msum (n : nat) (A : mat) : R := rsum n (fun i => rsum n (fun j => Rabs (A i j))).
Lemma rsum_term n f i : (i < n)%nat -> (forall j, (j < n)%nat -> 0 <= f j) -> f i <= rsum n f.
Proof.
  intros Hi H. apply Rle_trans with (rsum n (fun j => if Nat.eqb j i then f j else 0)).
  - rewrite (rsum_single n i); [rewrite Nat.eqb_refl; lra|exact Hi|].
    intros j Hj Ne. rewrite (proj2 (Nat.eqb_neq j i)) by exact Ne. reflexivity.
  - apply rsum_le. intros j Hj. destruct (Nat.eqb j i); [lra|apply H; exact Hj].
Qed.
Lemma msum_nonneg n A : 0 <= msum n A.
Proof. apply rsum_nonneg. intros i _. apply rsum_nonneg. intros j _. apply Rabs_pos. Qed.
Lemma matvec_bound n A (x : vec) b i : (i < n)%nat -> 0 <= b -> (forall j, (j < n)%nat -> Rabs (x j) <= b) -> Rabs (matvec n A x i) <= msum n A * b.
Proof.
  intros Hi Hb H. unfold matvec. apply Rle_trans with (1 := rsum_abs _ _).
  apply Rle_trans with (rsum n (fun j => Rabs (A i j)) * b).
  - rewrite <- rsum_scal_r. apply rsum_le. intros j Hj. rewrite Rabs_mult. apply Rmult_le_compat_l; [apply Rabs_pos|apply H; exact Hj].
  - apply Rmult_le_compat_r; [exact Hb|]. unfold msum. apply (rsum_term n (fun i => rsum n (fun j => Rabs (A i j))) i Hi).
    intros k Hk. apply rsum_nonneg. intros j _. apply Rabs_pos.
Qed.

(** ---- motions from the same start agree ---- *)
Definition during (T : R) : R -> Prop := fun t => 0 <= t <= T.

Lemma one_law (law : force_law) u v i : lsum (fun l : force_law => l u v i) [law] = law u v i.
Proof. unfold lsum. cbn. ring. Qed.

Lemma unique_motion N M Minv C K law g T u v u' v' : inverse_of N M Minv -> lipschitz_law N law -> 0 <= T ->
  solves_motion N M C K [law] g (during T) u v -> solves_motion N M C K [law] g (during T) u' v' ->
  (forall j, (j < N)%nat -> u j 0 = u' j 0) -> (forall j, (j < N)%nat -> v j 0 = v' j 0) ->
  forall j t, (j < N)%nat -> 0 <= t <= T -> u j t = u' j t /\ v j t = v' j t.
Proof.
  intros HI HL HT (a & Du & Dv & E) (a' & Du' & Dv' & E') U0 V0.
  destruct (bounded_paths N u v T HT Du) as [B1 HB1]. destruct (bounded_paths N u' v' T HT Du') as [B2 HB2].
  destruct (HL (Rmax B1 B2)) as [L HLip].
  set (d := fun i t => if Nat.ltb i N then u i t - u' i t else v (i - N)%nat t - v' (i - N)%nat t).
  set (dd := fun i t => if Nat.ltb i N then v i t - v' i t else a (i - N)%nat t - a' (i - N)%nat t).
  set (Lc := 1 + msum N Minv * (msum N C + msum N K + Rabs L)).
  assert (Z : forall i t, (i < N + N)%nat -> 0 <= t <= T -> d i t = 0).
  { apply (gronwall (N + N) d dd Lc T).
    - intros i Hi. unfold d. destruct (Nat.ltb_spec i N); [rewrite U0 by assumption; lra|rewrite V0 by lia; lra].
    - intros i t Hi Ht. unfold d, dd. destruct (Nat.ltb_spec i N); apply dlim_minus; auto; [apply Dv|apply Dv']; auto; lia.
    - intros i t Hi Ht.
      set (S1 := rsum (N + N) (fun j => Rabs (d j t))).
      assert (HS : 0 <= S1) by (apply rsum_nonneg; intros; apply Rabs_pos).
      assert (Hterm : forall j, (j < N + N)%nat -> Rabs (d j t) <= S1) by (intros j Hj; apply (rsum_term (N + N) (fun j => Rabs (d j t)) j Hj); intros; apply Rabs_pos).
      assert (Hu : forall j, (j < N)%nat -> Rabs (u j t - u' j t) <= S1).
      { intros j Hj. pose proof (Hterm j ltac:(lia)) as P. unfold d in P. rewrite ltb_t in P by exact Hj. exact P. }
      assert (Hv : forall j, (j < N)%nat -> Rabs (v j t - v' j t) <= S1).
      { intros j Hj. pose proof (Hterm (N + j)%nat ltac:(lia)) as P. unfold d in P. rewrite ltb_f in P by lia. replace (N + j - N)%nat with j in P by lia. exact P. }
      assert (HsumU : rsum N (fun j => Rabs (u j t - u' j t)) <= S1).
      { unfold S1. rewrite rsum_split. rewrite (rsum_ext N (fun j => Rabs (d j t)) (fun j => Rabs (u j t - u' j t))).
        2: { intros j Hj. unfold d. rewrite ltb_t by exact Hj. reflexivity. }
        assert (0 <= rsum N (fun i => Rabs (d (N + i)%nat t))) by (apply rsum_nonneg; intros; apply Rabs_pos). lra. }
      pose proof (msum_nonneg N Minv) as P1. pose proof (msum_nonneg N C) as P2. pose proof (msum_nonneg N K) as P3. pose proof (Rabs_pos L) as P4.
      unfold dd. destruct (Nat.ltb_spec i N) as [Hlt|Hge].
      + apply Rle_trans with (1 := Hv i Hlt). unfold Lc. assert (0 <= msum N Minv * (msum N C + msum N K + Rabs L)) by (apply Rmult_le_pos; lra). nra.
      + set (k := (i - N)%nat). assert (Hk : (k < N)%nat) by (unfold k; lia).
        set (b := (msum N C + msum N K + Rabs L) * S1).
        assert (Hb : 0 <= b) by (apply Rmult_le_pos; lra).
        set (r := matvec N M (fun j => a j t - a' j t)).
        assert (Hr : forall m, (m < N)%nat -> Rabs (r m) <= b).
        { intros m Hm. unfold r. rewrite matvec_minus. pose proof (E t Ht m Hm) as Q. pose proof (E' t Ht m Hm) as Q'. cbv beta in Q, Q'. rewrite one_law in Q, Q'.
          pose proof (matvec_minus N C (fun j => v j t) (fun j => v' j t) m) as RC. pose proof (matvec_minus N K (fun j => u j t) (fun j => u' j t) m) as RK.
          pose proof (matvec_bound N C (fun j => v j t - v' j t) S1 m Hm HS Hv) as BC.
          pose proof (matvec_bound N K (fun j => u j t - u' j t) S1 m Hm HS Hu) as BK.
          assert (BL : Rabs (law (fun j => u j t) (fun j => v j t) m - law (fun j => u' j t) (fun j => v' j t) m) <= Rabs L * S1).
          { eapply Rle_trans; [apply HLip; [| |exact Hm]|].
            - intros j Hj. apply Rle_trans with (2 := Rmax_l _ _). apply HB1; assumption.
            - intros j Hj. apply Rle_trans with (2 := Rmax_r _ _). apply HB2; assumption.
            - apply Rle_trans with (Rabs L * rsum N (fun j => Rabs (u j t - u' j t))).
              + apply Rmult_le_compat_r; [apply rsum_nonneg; intros; apply Rabs_pos|apply Rle_abs].
              + apply Rmult_le_compat_l; assumption. }
          rewrite RC in BC. rewrite RK in BK.
          set (x1 := law (fun j => u j t) (fun j => v j t) m) in *. set (x2 := law (fun j => u' j t) (fun j => v' j t) m) in *.
          set (c1 := matvec N C (fun j => v j t) m) in *. set (c2 := matvec N C (fun j => v' j t) m) in *.
          set (k1 := matvec N K (fun j => u j t) m) in *. set (k2 := matvec N K (fun j => u' j t) m) in *.
          match goal with |- Rabs ?e <= _ => replace e with (- ((c1 - c2) + ((k1 - k2) + (x1 - x2)))) by lra end.
          rewrite Rabs_Ropp. pose proof (Rabs_triang (c1 - c2) ((k1 - k2) + (x1 - x2))). pose proof (Rabs_triang (k1 - k2) (x1 - x2)). unfold b. lra. }
        assert (Ea : a k t - a' k t = matvec N Minv r k).
        { unfold r. symmetry. apply (matvec_inverse N Minv M (fun j => a j t - a' j t) k); [apply inverse_comm; exact HI|exact Hk]. }
        rewrite Ea. apply Rle_trans with (1 := matvec_bound N Minv r b k Hk Hb Hr). unfold Lc, b. nra. }
  intros j t Hj Ht. pose proof (Z j t ltac:(lia) Ht) as A. pose proof (Z (N + j)%nat t ltac:(lia) Ht) as A'.
  unfold d in A, A'. rewrite ltb_t in A by exact Hj. rewrite ltb_f in A' by lia. replace (N + j - N)%nat with j in A' by lia. lra.
Qed.

(** ---- the trajectory of shooting is a motion ---- *)
Lemma traj_motion inv s Fl w f law traj T : vs_forces s = [f] -> displacement_law (vs_N s) f law -> inverse_of (vs_N s) (vs_M s) (inv (vs_M s)) ->
  (forall t, 0 <= t <= T -> exists dy, shooting_state_space inv t (traj t) s Fl w = Ok dy /\ forall i, (i < 2 * vs_N s)%nat -> derivable_pt_lim (fun t => traj t i) t (dy i)) ->
  solves_motion (vs_N s) (vs_M s) (vs_C s) (vs_K s) [law] (first_harmonic_forcing (vs_N s) Fl w) (during T) (fun j t => traj t j) (fun j t => traj t (vs_N s + j)%nat).
Proof.
  intros Hf [_ Hl] HI H. set (N := vs_N s) in *.
  exists (fun j t => match shooting_state_space inv t (traj t) s Fl w with Ok dy => dy (N + j)%nat | Err _ => 0 end).
  split; [|split].
  - intros j t Hj Ht. destruct (H t Ht) as (dy & E & D). destruct (Hl (traj t)) as (F & dF & EF & _).
    destruct (shooting_newton inv t (traj t) s Fl w f F dF Hf EF HI) as (dy' & E' & Hv & _). rewrite E in E'. injection E' as <-.
    fold N in Hv. rewrite <- (Hv j Hj). apply D. lia.
  - intros j t Hj Ht. destruct (H t Ht) as (dy & E & D). rewrite E. apply D. lia.
  - intros t Ht. destruct (H t Ht) as (dy & E & D). destruct (Hl (traj t)) as (F & dF & EF & HF).
    destruct (shooting_newton inv t (traj t) s Fl w f F dF Hf EF HI) as (dy' & E' & _ & Hn). rewrite E in E'. injection E' as <-.
    fold N in Hn. rewrite E. intros i Hi. specialize (Hn i Hi). cbv beta. rewrite one_law, <- HF by exact Hi. exact Hn.
Qed.

Lemma lipschitz_local N law : lipschitz_law N law -> forall u u' v v', (forall j, (j < N)%nat -> u j = u' j) -> forall i, (i < N)%nat -> law u v i = law u' v' i.
Proof.
  intros H u u' v v' Eu i Hi. destruct (H (rsum N (fun j => Rabs (u j)))) as [L HL].
  assert (Hb : forall j, (j < N)%nat -> Rabs (u j) <= rsum N (fun j => Rabs (u j))) by (intros j Hj; apply (rsum_term N (fun j => Rabs (u j)) j Hj); intros; apply Rabs_pos).
  pose proof (HL u u' v v' Hb (fun j Hj => eq_ind (u j) (fun x => Rabs x <= _) (Hb j Hj) (u' j) (Eu j Hj)) i Hi) as P.
  rewrite rsum_zero in P; [|intros j Hj; rewrite Eu by exact Hj; rewrite Rminus_diag_eq by reflexivity; apply Rabs_R0].
  pose proof (Rabs_pos (law u v i - law u' v' i)). assert (Z : Rabs (law u v i - law u' v' i) = 0) by lra.
  destruct (Req_dec (law u v i - law u' v' i) 0); [lra|]. exfalso. apply (Rabs_no_R0 _ H1). exact Z.
Qed.

Lemma forcing_period N Fl w i t z : w <> 0 -> first_harmonic_forcing N Fl w i (t - 2 * PI / w * IZR z) = first_harmonic_forcing N Fl w i t.
Proof.
  intros Hw. unfold first_harmonic_forcing.
  replace (w * t) with (w * (t - 2 * PI / w * IZR z) + 2 * PI * IZR z) by (field; exact Hw).
  pose proof (comp_fun_period (Cos 1) (w * (t - 2 * PI / w * IZR z)) z) as A. pose proof (comp_fun_period (Sin 1) (w * (t - 2 * PI / w * IZR z)) z) as B.
  cbn [comp_fun INR] in A, B. rewrite !Rmult_1_l in A, B. rewrite A, B. reflexivity.
Qed.

Lemma restrict_motion N M C K laws g T u v : solves_motion N M C K laws g always u v -> solves_motion N M C K laws g (during T) u v.
Proof. intros (a & A & B & E). exists a. split; [|split]; [intros; apply A; [assumption|exact I]|intros; apply B; [assumption|exact I]|intros; apply E; exact I]. Qed.

(** a motion over one period that comes back to its start goes on for ever *)
Lemma extend_motion N M Minv C K law Fl w u v : inverse_of N M Minv -> lipschitz_law N law -> 0 < w ->
  let T := 2 * PI / w in
  solves_motion N M C K [law] (first_harmonic_forcing N Fl w) (during T) u v ->
  (forall j, (j < N)%nat -> u j T = u j 0) -> (forall j, (j < N)%nat -> v j T = v j 0) ->
  solves_motion N M C K [law] (first_harmonic_forcing N Fl w) always (fun j t => u j (in_cycle T t)) (fun j t => v j (in_cycle T t)).
Proof.
  intros HI HL Hw T (a & Du & Dv & E) Pu Pv.
  assert (HT : 0 < T) by (unfold T; pose proof PI_RGT_0; apply Rdiv_lt_0_compat; lra).
  assert (Pa : forall j, (j < N)%nat -> a j T = a j 0).
  { assert (Z : forall m, (m < N)%nat -> matvec N M (fun j => a j T - a j 0) m = 0).
    { intros m Hm. rewrite matvec_minus. pose proof (E T ltac:(unfold during; lra) m Hm) as Q. pose proof (E 0 ltac:(unfold during; lra) m Hm) as Q'.
      cbv beta in Q, Q'. rewrite one_law in Q, Q'.
      rewrite (matvec_ext N C (fun j => v j T) (fun j => v j 0)) in Q by (intros; apply Pv; assumption).
      rewrite (matvec_ext N K (fun j => u j T) (fun j => u j 0)) in Q by (intros; apply Pu; assumption).
      rewrite (lipschitz_local N law HL _ (fun j => u j 0) _ (fun j => v j 0)) in Q; [|intros; apply Pu; assumption|exact Hm].
      rewrite <- (forcing_period N Fl w m T 1) in Q by lra. replace (T - 2 * PI / w * 1) with 0 in Q by (unfold T; ring). lra. }
    intros j Hj. pose proof (matvec_inverse N Minv M (fun j => a j T - a j 0) j (inverse_comm N M Minv HI) Hj) as P. cbv beta in P.
    unfold matvec at 1 in P. rewrite rsum_zero in P; [lra|]. intros m Hm. rewrite Z by exact Hm. ring. }
  exists (fun j t => a j (in_cycle T t)). split; [|split].
  - intros j t Hj _. apply (extension_derivative (u j) (v j) T HT); [intros x Hx; apply Du; assumption|apply Pu; exact Hj|apply Pv; exact Hj].
  - intros j t Hj _. apply (extension_derivative (v j) (a j) T HT); [intros x Hx; apply Dv; assumption|apply Pv; exact Hj|apply Pa; exact Hj].
  - intros t _ i Hi. pose proof (in_cycle_range T t HT) as P. pose proof (E (in_cycle T t) ltac:(unfold during; lra) i Hi) as Q. cbv beta in Q |- *.
    rewrite Q. unfold in_cycle. unfold T. apply forcing_period. lra.
Qed.

Lemma shooting_iff ivp inv s f law Uw Fl :
  let N := vs_N s in let w := Uw (2 * N)%nat in let T := 2 * PI / w in
  vs_forces s = [f] -> displacement_law N f law -> lipschitz_law N law -> inverse_of N (vs_M s) (inv (vs_M s)) -> 0 < w ->
  integrates (2 * N) ivp (fun t y => shooting_state_space inv t y s Fl w) T (shooting_y0 N Uw) ->
  exists Rr J l mono, shooting_res ivp inv s Uw Fl = Ok (Rr, J, l, mono) /\
    ((forall i, (i < 2 * N)%nat -> Rr i = 0) <->
     exists u v, solves_motion N (vs_M s) (vs_C s) (vs_K s) [law] (first_harmonic_forcing N Fl w) always u v /\
       (forall j, (j < N)%nat -> u j 0 = Uw j) /\ (forall j, (j < N)%nat -> v j 0 = Uw (N + j)%nat) /\
       forall j t, (j < N)%nat -> u j (t + T) = u j t).
Proof.
  intros N w T Hf Hl HL HI Hw (traj & Y & EY & Y0 & YT & HD).
  assert (HT : 0 < T) by (unfold T; pose proof PI_RGT_0; apply Rdiv_lt_0_compat; lra).
  pose proof (traj_motion inv s Fl w f law traj T Hf Hl HI HD) as Hm. fold N in Hm.
  destruct Hl as [Ht Hl]. destruct (Hl Y) as (F & dF & EF & _).
  destruct (shooting_newton inv T Y s Fl w f F dF Hf EF HI) as (dy & Ed & _ & _).
  unfold shooting_res. rewrite Hf. cbn [forallb]. rewrite Ht. cbn [Nat.eqb andb]. fold N. cbv zeta. fold w. fold T. rewrite EY. cbn [bind]. rewrite Ed. cbn [bind].
  eexists _, _, _, _. split; [reflexivity|].
  assert (S0 : forall i, (i < 2 * N)%nat -> traj 0 i = Uw i).
  { intros i Hi. rewrite Y0 by exact Hi. unfold shooting_y0. rewrite ltb_t by exact Hi. reflexivity. }
  split.
  - intros Z. exists (fun j t => traj (in_cycle T t) j), (fun j t => traj (in_cycle T t) (N + j)%nat).
    assert (R : forall i, (i < 2 * N)%nat -> traj T i = traj 0 i).
    { intros i Hi. specialize (Z i Hi). cbv beta in Z. rewrite S0, <- YT by exact Hi. lra. }
    assert (C0 : in_cycle T 0 = 0).
    { unfold in_cycle. rewrite (cycle_unique T 0 0%Z HT); [ring|]. cbn. lra. }
    split; [|split; [|split]].
    + apply (extend_motion N (vs_M s) (inv (vs_M s)) (vs_C s) (vs_K s) law Fl w (fun j t => traj t j) (fun j t => traj t (N + j)%nat) HI HL Hw Hm); intros j Hj; apply R; lia.
    + intros j Hj. rewrite C0. apply S0. lia.
    + intros j Hj. rewrite C0. apply S0. lia.
    + intros j t Hj. rewrite in_cycle_shift by exact HT. reflexivity.
  - intros (u & v & Hs & U0 & V0 & Per) i Hi.
    pose proof (unique_motion N (vs_M s) (inv (vs_M s)) (vs_C s) (vs_K s) law _ T _ _ u v HI HL ltac:(lra) Hm (restrict_motion _ _ _ _ _ _ T _ _ Hs)
      ltac:(intros j Hj; cbv beta; rewrite S0 by lia; symmetry; apply U0; exact Hj) ltac:(intros j Hj; cbv beta; rewrite S0 by lia; symmetry; apply V0; exact Hj)) as HU.
    assert (Perv : forall j, (j < N)%nat -> v j T = v j 0).
    { intros j Hj. destruct Hs as (a & Du & _ & _). pose proof (Du j 0 Hj I) as D0. pose proof (Du j T Hj I) as DT.
      apply (uniqueness_limite (u j) 0); [|exact D0]. apply dlim_ext with (fun t => u j (t + T)); [intros t; apply Per; exact Hj|].
      eapply dlim_eq; [apply (dlim_comp (fun t => t + T) (u j) 0 1 (v j T)); [|rewrite Rplus_0_l; exact DT]|ring].
      eapply dlim_eq; [apply dlim_plus; [apply dlim_id|apply dlim_const]|ring]. }
    rewrite YT by exact Hi. destruct (Nat.lt_ge_cases i N) as [Hlt|Hge].
    + destruct (HU i T Hlt ltac:(lra)) as [P _]. cbv beta in P. rewrite P, <- U0 by exact Hlt. pose proof (Per i 0 Hlt) as Q. rewrite Rplus_0_l in Q. lra.
    + replace i with (N + (i - N))%nat by lia. destruct (HU (i - N)%nat T ltac:(lia) ltac:(lra)) as [_ P]. cbv beta in P. rewrite P, <- V0 by lia. rewrite Perv by lia. lra.
Qed.

Lemma motion_period N h X w j t : w <> 0 -> motion N h X w j (t + 2 * PI / w) = motion N h X w j t.
Proof.
  intros Hw. unfold motion. replace (w * (t + 2 * PI / w)) with (w * t + 2 * PI * IZR 1) by (field; exact Hw). apply series_period.
Qed.

Lemma shooting_exact ivp inv s f law h X Fl v Gl :
  let N := vs_N s in let w := X (length (components h) * N)%nat in let T := 2 * PI / w in
  vs_forces s = [f] -> displacement_law N f law -> lipschitz_law N law -> inverse_of N (vs_M s) (inv (vs_M s)) -> 0 < w ->
  (forall i t, (i < N)%nat -> motion N h Fl w i t = first_harmonic_forcing N Gl w i t) ->
  solves_motion N (vs_M s) (vs_C s) (vs_K s) [law] (motion N h Fl w) always (motion N h X w) v ->
  let Uw := shooting_state N (fun j => motion N h X w j 0) (fun j => v j 0) w in
  integrates (2 * N) ivp (fun t y => shooting_state_space inv t y s Gl w) T (shooting_y0 N Uw) ->
  exists Rr J l mono, shooting_res ivp inv s Uw Gl = Ok (Rr, J, l, mono) /\ forall i, (i < 2 * N)%nat -> Rr i = 0.
Proof.
  intros N w T Hf Hl HL HI Hw HF Hs Uw Hi.
  assert (Ew : Uw (2 * N)%nat = w) by (unfold Uw, shooting_state; rewrite !ltb_f by lia; reflexivity).
  destruct (shooting_iff ivp inv s f law Uw Gl Hf Hl HL HI) as (Rr & J & l & mono & E & Z); fold N; rewrite ?Ew; [exact Hw|exact Hi|].
  exists Rr, J, l, mono. split; [exact E|]. fold N in Z. rewrite Ew in Z. apply Z. exists (motion N h X w), v. split; [|split; [|split]].
  - destruct Hs as (a & A & B & P). exists a. split; [exact A|split; [exact B|]]. intros t Ht i Hi'. rewrite <- HF by exact Hi'. apply P; assumption.
  - intros j Hj. unfold Uw, shooting_state. rewrite ltb_t by exact Hj. reflexivity.
  - intros j Hj. unfold Uw, shooting_state. rewrite ltb_f, ltb_t by lia. replace (N + j - N)%nat with j by lia. reflexivity.
  - intros j t Hj. apply motion_period. lra.
Qed.
