(** Cases of periodic motions: a circular motion, and the cubic damper in shooting. *)
From Coq Require Import Reals List Arith Bool ZArith Lia Lra Psatz FunctionalExtensionality.
From Verif.Lib Require Import RSum Calc LinAlg Py.
From Verif.Spec Require Import Calculus Harmonic Elements System Galerkin Periodic.
From Verif.Model Require Import Harmonic LocalForces Aft VibSys SysElements.
From Verif.Proofs Require Import HarmonicP VibSysP AftP ElementsP GalerkinP GronwallP ShootP ShootMotionP LipschitzP PeriodicP.
Import ListNotations.
Open Scope R_scope.

(** ---- both methods ---- *)
Lemma both_methods ivp inv s f law h Nt X Fl v Gl :
  let N := vs_N s in let n := (length (components h) * N)%nat in let w := X n in let T := 2 * PI / w in
  admissible h -> (2 * list_max h < Nt)%nat -> vs_forces s = [f] -> spring_law N h Nt f law -> inverse_of N (vs_M s) (inv (vs_M s)) -> 0 < w ->
  (forall i t, (i < N)%nat -> motion N h Fl w i t = first_harmonic_forcing N Gl w i t) ->
  solves_motion N (vs_M s) (vs_C s) (vs_K s) [law] (motion N h Fl w) always (motion N h X w) v ->
  let Uw := shooting_state N (fun j => motion N h X w j 0) (fun j => v j 0) w in
  integrates (2 * N) ivp (fun t y => shooting_state_space inv t y s Gl w) T (shooting_y0 N Uw) ->
  (exists Rr G, hbm_res s X Fl h Nt true = Ok (Rr, Some G) /\ forall r, (r < n)%nat -> Rr r = 0) /\
  (exists Rr J l mono, shooting_res ivp inv s Uw Gl = Ok (Rr, J, l, mono) /\ forall i, (i < 2 * N)%nat -> Rr i = 0).
Proof.
  intros N n w T Ha HN Hf (L1 & L2 & L3) HI Hw HF Hs Uw Hi. split.
  - apply (exact_hbm s h Nt X Fl [law] v Ha HN); [rewrite Hf; constructor; [exact L1|constructor]|fold N n w; lra|exact Hs].
  - exact (shooting_exact ivp inv s f law h X Fl v Gl Hf L2 L3 HI Hw HF Hs Hi).
Qed.

(** ---- shooting gives the cubic damper the displacements ---- *)
Section Damper.
  Let s := vs_add_nl_force (vs_new 1 mid (fun _ _ => -1) (Some mzero) None) (damping_nl 1 1 mid mid (fun _ => 1)).
  Let Uw : vec := fun i => match i with 1%nat => 0 | _ => 1 end.
  Let ivp := fun (_ : R -> vec -> result vec) (_ : R) (_ : vec) => Ok (fun i : nat => match i with O => 1 | _ => 0 end) : result vec.
  Let law := local_forces 1 1 mid mid (fun _ _ v => 1 * v ^ 3).

  Lemma no_motion u v : solves_motion 1 (vs_M s) (vs_C s) (vs_K s) [law] (first_harmonic_forcing 1 vzero 1) always u v ->
    u O 0 = 1 -> v O 0 = 0 -> (forall t, u O (t + 2 * PI / 1) = u O t) -> False.
  Proof.
    intros (a & Du & Dv & E) U0 V0 Per. set (T := 2 * PI / 1) in *. assert (HT : 0 < T) by (unfold T; pose proof PI_RGT_0; lra).
    assert (Eq : forall t, a O t - u O t + v O t ^ 3 = 0).
    { intros t. pose proof (E t I O ltac:(lia)) as P. cbv beta in P. rewrite one_law in P. revert P. unfold first_harmonic_forcing, law, local_forces, matvec. cbn. unfold mid, mzero, vzero. cbn. intros P. ring_simplify in P. lra. }
    assert (PV : v O T = v O 0).
    { apply (uniqueness_limite (u O) 0); [|apply (Du O 0 ltac:(lia) I)]. apply dlim_ext with (fun t => u O (t + T)); [intros t; apply Per|].
      eapply dlim_eq; [apply (dlim_comp (fun t => t + T) (u O) 0 1 (v O T)); [|rewrite Rplus_0_l; apply (Du O T ltac:(lia) I)]|ring].
      eapply dlim_eq; [apply dlim_plus; [apply dlim_id|apply dlim_const]|ring]. }
    set (e := fun t => v O t ^ 2 - u O t ^ 2).
    assert (De : forall t, derivable_pt_lim e t (- 2 * v O t ^ 4)).
    { intros t. pose proof (Eq t). eapply dlim_eq; [apply dlim_minus; apply dlim_pow; [apply (Dv O t ltac:(lia) I)|apply (Du O t ltac:(lia) I)]|].
      replace (a O t) with (u O t - v O t ^ 3) by lra. simpl. ring. }
    assert (Mono : forall x y, x < y -> e y <= e x).
    { intros x y H. destruct (MVT_cor2 e (fun t => - 2 * v O t ^ 4) x y H ltac:(intros; apply De)) as [c [P _]].
      assert (0 <= v O c ^ 4) by (replace (v O c ^ 4) with ((v O c ^ 2) ^ 2) by ring; apply pow2_ge_0). nra. }
    assert (Ends : e T = e 0) by (unfold e; rewrite PV; pose proof (Per 0) as P; rewrite Rplus_0_l in P; rewrite P; reflexivity).
    assert (Vz : forall t, 0 < t < T -> v O t = 0).
    { intros t Ht. assert (Z : - 2 * v O t ^ 4 = 0).
      { apply (uniqueness_limite e t); [apply De|]. apply dlim_ext_loc with (fun _ => e 0); [|apply dlim_const].
        exists (Rmin t (T - t)). split; [unfold Rmin; destruct Rle_dec; lra|]. intros x Hx. apply Rabs_def2 in Hx.
        assert (0 < x < T) by (unfold Rmin in Hx; destruct Rle_dec; lra). pose proof (Mono 0 x ltac:(lra)). pose proof (Mono x T ltac:(lra)). lra. }
      assert (Z4 : v O t ^ 4 = 0) by lra. destruct (Req_dec (v O t) 0) as [Hz|Hz]; [exact Hz|]. exfalso. apply (pow_nonzero _ 4 Hz). exact Z4. }
    pose proof (Eq 0) as A0. rewrite U0, V0 in A0.
    destruct (Dv O 0 ltac:(lia) I (/ 2) ltac:(lra)) as [d Hd]. pose proof (cond_pos d) as Pd.
    set (x := Rmin (d / 2) (T / 2)). assert (Hx : 0 < x < T /\ x < d) by (unfold x, Rmin; destruct Rle_dec; lra).
    specialize (Hd x ltac:(lra) ltac:(rewrite Rabs_right; lra)). rewrite Rplus_0_l, Vz, V0 in Hd by lra.
    replace (a O 0) with 1 in Hd by (ring_simplify in A0; lra). replace ((0 - 0) / x - 1) with (-1) in Hd by (field; lra). rewrite Rabs_left in Hd by lra. lra.
  Qed.

  Lemma damper_integrates : integrates 2 ivp (fun t y => shooting_state_space (fun M => M) t y s vzero 1) (2 * PI / 1) (shooting_y0 1 Uw).
  Proof.
    exists (fun _ i => match i with O => 1 | _ => 0 end), (fun i => match i with O => 1 | _ => 0 end).
    split; [reflexivity|]. split; [|split].
    - intros i Hi. destruct i as [|[|i]]; [reflexivity|reflexivity|lia].
    - reflexivity.
    - intros t Ht. eexists. split; [reflexivity|]. intros i Hi. destruct i as [|[|i]]; [| |lia].
      + eapply dlim_eq; [apply dlim_const|]. reflexivity.
      + eapply dlim_eq; [apply dlim_const|]. cbn. unfold matvec, mid, mzero, vzero. cbn. unfold matvec, mid. cbn. ring.
  Qed.

  Lemma damper_refuted : exists ivp inv s c law Uw Fl Rr J l mono,
    vs_N s = 1%nat /\ vs_forces s = [damping_nl 1 1 mid mid c] /\
    (forall h Nt, admissible h -> (2 * list_max h + 1 < Nt)%nat -> Nat.even Nt = true -> harmonic_law 1 h Nt (damping_nl 1 1 mid mid c) law) /\
    inverse_of 1 (vs_M s) (inv (vs_M s)) /\ Uw 2%nat = 1 /\
    integrates 2 ivp (fun t y => shooting_state_space inv t y s Fl 1) (2 * PI / 1) (shooting_y0 1 Uw) /\
    shooting_res ivp inv s Uw Fl = Ok (Rr, J, l, mono) /\ (forall i, (i < 2)%nat -> Rr i = 0) /\
    ~ exists u v, solves_motion 1 (vs_M s) (vs_C s) (vs_K s) [law] (first_harmonic_forcing 1 Fl 1) always u v /\
       u O 0 = Uw O /\ v O 0 = Uw 1%nat /\ forall t, u O (t + 2 * PI / 1) = u O t.
  Proof.
    exists ivp, (fun M => M), s, (fun _ => 1), law, Uw, vzero. eexists _, _, _, _.
    split; [reflexivity|]. split; [reflexivity|]. split; [|split; [|split; [reflexivity|split; [apply damper_integrates|split; [reflexivity|split]]]]].
    - intros h Nt Ha HN He. apply (damping_law 1 1 mid mid h Nt Ha HN He (fun _ => 1)).
    - intros i j Hi Hj. assert (i = O) by lia. assert (j = O) by lia. subst. cbn. unfold mid. cbn. ring.
    - intros i Hi. destruct i as [|[|i]]; [cbn; ring|cbn; ring|lia].
    - intros (u & v & Hs & U0 & V0 & Per). apply (no_motion u v Hs U0 V0 Per).
  Qed.
End Damper.

(** ---- a circular motion under a force |u|^2 u ---- *)
Section Circle.
  Let E : mat := fun d p => match d, p with O, O | O, 1%nat | 1%nat, 2%nat | 1%nat, 3%nat => 1 | _, _ => 0 end.
  Let qq : nat -> nat -> nat := fun p e => match p, e with O, O => 3 | 1, O => 1 | 1, 1 => 2 | 2, O => 2 | 2, 1 => 1 | 3, 1 => 3 | _, _ => 0 end%nat.
  Let f := poly_nl 2 2 4 mid mid E qq.
  Let law := poly_forces 2 2 4 mid mid E qq.
  Let s := vs_add_nl_force (vs_new 2 mid (fun i j => 2 * mid i j) (Some mid) None) f.
  Let X : vec := fun i => match i with O | 3%nat | 4%nat => 1 | _ => 0 end.
  Let Fl : vec := fun i => match i with O | 3%nat => 2 | 1%nat => 1 | 2%nat => -1 | _ => 0 end.
  Let v : nat -> R -> R := fun j t => match j with O => - sin t | _ => cos t end.
  Let traj : R -> vec := fun t i => match i with O => cos t | 1%nat => sin t | 2%nat => - sin t | 3%nat => cos t | _ => 0 end.
  Let ivp := fun (_ : R -> vec -> result vec) (T : R) (_ : vec) => Ok (traj T) : result vec.

  Lemma circle_motion Y w j t : motion 2 [1%nat] Y w j t = Y j * cos (w * t) + Y (2 + j)%nat * sin (w * t).
  Proof. unfold motion, series, dof_coefs. cbn. rewrite !Rmult_1_l. replace (0 * 2 + j)%nat with j by lia. ring. Qed.

  Lemma circle_law (u : vec) z : law u z O = (u O ^ 2 + u 1%nat ^ 2) * u O /\ law u z 1%nat = (u O ^ 2 + u 1%nat ^ 2) * u 1%nat.
  Proof. unfold law, poly_forces, monomial, mid, E, qq. cbn. split; ring. Qed.

  Lemma circle_newton t i : (i < 2)%nat -> matvec 2 mid (fun j => match j with O => - cos t | _ => - sin t end) i + matvec 2 mid (fun j => match j with O => - sin t | _ => cos t end) i
    + matvec 2 (fun i j => 2 * mid i j) (fun j => match j with O => cos t | _ => sin t end) i + law (fun j => match j with O => cos t | _ => sin t end) vzero i = Fl i * cos t + Fl (2 + i)%nat * sin t.
  Proof.
    intros Hi. assert (P : cos t ^ 2 + sin t ^ 2 = 1) by (pose proof (sin2_cos2 t) as P; unfold Rsqr in P; lra).
    destruct (circle_law (fun j => match j with O => cos t | _ => sin t end) vzero) as [L0 L1]. rewrite P in L0, L1.
    destruct i as [|[|i]]; [rewrite L0|rewrite L1|lia]; unfold matvec, mid, Fl; cbn; ring.
  Qed.

  Lemma circle_case : exists ivp inv s f law h Nt X Fl v,
    vs_N s = 2%nat /\ vs_forces s = [f] /\ admissible h /\ (2 * list_max h < Nt)%nat /\ X (length (components h) * 2)%nat = 1 /\
    spring_law 2 h Nt f law /\ inverse_of 2 (vs_M s) (inv (vs_M s)) /\
    (forall i t, (i < 2)%nat -> motion 2 h Fl 1 i t = first_harmonic_forcing 2 Fl 1 i t) /\
    solves_motion 2 (vs_M s) (vs_C s) (vs_K s) [law] (motion 2 h Fl 1) always (motion 2 h X 1) v /\
    integrates (2 * 2) ivp (fun t y => shooting_state_space inv t y s Fl 1) (2 * PI / 1) (shooting_y0 2 (shooting_state 2 (fun j => motion 2 h X 1 j 0) (fun j => v j 0) 1)) /\
    (forall t, motion 2 h X 1 O t = cos t /\ motion 2 h X 1 1%nat t = sin t) /\ (forall (u z : vec), law u z O = (u O ^ 2 + u 1%nat ^ 2) * u O /\ law u z 1%nat = (u O ^ 2 + u 1%nat ^ 2) * u 1%nat).
  Proof.
    assert (Mx : forall t, motion 2 [1%nat] X 1 O t = cos t /\ motion 2 [1%nat] X 1 1%nat t = sin t) by (intros t; rewrite !circle_motion, !Rmult_1_l; unfold X; cbn; split; ring).
    assert (Ml : forall (g : nat -> R -> R) t z i, (i < 2)%nat -> g O t = cos t -> g 1%nat t = sin t -> law (fun j => g j t) z i = law (fun j => match j with O => cos t | _ => sin t end) vzero i).
    { intros g t z i Hi G0 G1. destruct (circle_law (fun j => g j t) z) as [A B]. destruct (circle_law (fun j => match j with O => cos t | _ => sin t end) vzero) as [A' B'].
      destruct i as [|[|i]]; [rewrite A, A', G0, G1; reflexivity|rewrite B, B', G0, G1; reflexivity|lia]. }
    exists ivp, (fun M => M), s, f, law, [1%nat], 8%nat, X, Fl, v.
    split; [reflexivity|]. split; [reflexivity|]. split; [|split; [cbn; lia|split; [reflexivity|split; [|split; [|split; [|split; [|split; [|split]]]]]]]].
    - split; [discriminate|]. split; [constructor; [intros []|constructor]|intros []].
    - apply poly_law; [split; [discriminate|]; split; [constructor; [intros []|constructor]|intros []]|cbn; lia|reflexivity].
    - intros i j Hi Hj. destruct i as [|[|i]], j as [|[|j]]; try lia; cbn; unfold mid; cbn; ring.
    - intros i t Hi. apply circle_motion.
    - exists (fun j t => match j with O => - cos t | _ => - sin t end). split; [|split].
      + intros j t Hj _. destruct j as [|[|j]]; [| |lia].
        * apply dlim_ext with cos; [intros x; symmetry; apply Mx|apply derivable_pt_lim_cos].
        * apply dlim_ext with sin; [intros x; symmetry; apply Mx|apply derivable_pt_lim_sin].
      + intros j t Hj _. destruct j as [|[|j]]; [| |lia].
        * apply dlim_opp. apply derivable_pt_lim_sin.
        * apply derivable_pt_lim_cos.
      + intros t _ i Hi. cbv beta. rewrite one_law, (Ml (motion 2 [1%nat] X 1) t _ i Hi (proj1 (Mx t)) (proj2 (Mx t))), circle_motion, Rmult_1_l, <- circle_newton by exact Hi.
        f_equal. f_equal. apply matvec_ext. intros j Hj. destruct j as [|[|j]]; [apply Mx|apply Mx|lia].
    - exists traj, (traj (2 * PI / 1)). split; [reflexivity|]. split; [|split; [reflexivity|]].
      + intros i Hi. unfold shooting_y0, shooting_state. destruct i as [|[|[|[|i]]]]; try lia; cbn -[motion]; [symmetry; apply (Mx 0)|symmetry; apply (Mx 0)|reflexivity|reflexivity].
      + intros t Ht. assert (HF : exists F dF, nl_force f (traj t) = Ok (F, dF) /\ forall z i, (i < 2)%nat -> F i = law (traj t) z i).
        { destruct (poly_law 2 2 mid mid [1%nat] 8%nat ltac:(split; [discriminate|]; split; [constructor; [intros []|constructor]|intros []]) ltac:(cbn; lia) eq_refl 4 E qq) as (_ & [_ H] & _). exact (H (traj t)). }
        destruct HF as (F & dF & EF & HF).
        assert (HI : inverse_of (vs_N s) (vs_M s) (vs_M s)) by (intros i j Hi Hj; destruct i as [|[|i]], j as [|[|j]]; try (cbn in *; lia); cbn; unfold mid; cbn; ring).
        destruct (shooting_newton (fun M => M) t (traj t) s Fl 1 f F dF eq_refl EF HI) as (dy & Ed & Hv & Hn).
        exists dy. split; [exact Ed|]. cbn [vs_N s vs_add_nl_force vs_new] in Hv, Hn.
        assert (Ha : forall i, (i < 2)%nat -> dy (2 + i)%nat = match i with O => - cos t | _ => - sin t end).
        { intros i Hi. pose proof (Hn i Hi) as P. pose proof (circle_newton t i Hi) as P'. rewrite (HF vzero i Hi) in P.
          change (vs_M s) with (mid : mat) in P. change (vs_C s) with (mid : mat) in P. change (vs_K s) with (fun i j => 2 * mid i j) in P. rewrite Rmult_1_l in P.
          rewrite (matvec_mid 2 (fun i => dy (2 + i)%nat) i Hi) in P. rewrite (matvec_mid 2 _ i Hi) in P'.
          rewrite (matvec_ext 2 mid (fun i => traj t (2 + i)%nat) (fun j => match j with O => - sin t | _ => cos t end)) in P by (intros j Hj; destruct j as [|[|j]]; [reflexivity|reflexivity|lia]).
          rewrite (matvec_ext 2 (fun i j => 2 * mid i j) (traj t) (fun j => match j with O => cos t | _ => sin t end)) in P by (intros j Hj; destruct j as [|[|j]]; [reflexivity|reflexivity|lia]).
          pose proof (Ml (fun j t => traj t j) t vzero i Hi eq_refl eq_refl) as PL. change (law (traj t) vzero i = law (fun j => match j with O => cos t | _ => sin t end) vzero i) in PL. lra. }
        intros i Hi. destruct i as [|[|[|[|i]]]]; try lia.
        * eapply dlim_eq; [apply derivable_pt_lim_cos|symmetry; apply (Hv O); lia].
        * eapply dlim_eq; [apply derivable_pt_lim_sin|symmetry; apply (Hv 1%nat); lia].
        * eapply dlim_eq; [apply dlim_opp; apply derivable_pt_lim_sin|symmetry; apply (Ha O); lia].
        * eapply dlim_eq; [apply derivable_pt_lim_cos|symmetry; apply (Ha 1%nat); lia].
    - exact Mx.
    - intros u z. apply circle_law.
  Qed.
End Circle.
