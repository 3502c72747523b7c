(** Concrete cases of the ring model. *)
From Coq Require Import Reals Lra Lia Arith List.
From Verif.Lib Require Import RSum Calc Py.
From Verif.Spec Require Import Calculus Harmonic Slider Rough RoughCalls RoughMif.
From Verif.Model Require Import Harmonic LocalForces Aft JaxDual JaxFloat RoughContact.
From Verif.Proofs Require Import RoughNormalP RoughStaticP RoughCallsP RoughHistoryP RoughSteadyP RoughAftP RoughInterpP RoughMifP RoughSlipP.
Import ListNotations.
Open Scope R_scope.

(** two radial points: no tangential force at all *)
Lemma two_points s : physical s ->
  let r := mkRough (mat_of s) 1 (fun _ => 0) (fun _ => 1) 0 (MIF 2) 1 in
  exists Q st x, rough_new r (U0Scalar 0) = Ok st /\ (forall d e, Q d e = if Nat.eqb d e then 1 else 0) /\
    forall X, X 2%nat = x -> exists f : nat -> R, force_values Q (snd (rough_force r 3 Q st X false)) = Some (fun p => rsum 3 (fun d => Q p d * f d)) /\
      0 < f 2%nat /\ f 0%nat = 0 /\ f 1%nat = 0.
Proof.
  intros Hs r. pose proof (yield_pos s Hs) as Hy. set (x := yield_interference s). do 2 eexists. exists x. split; [reflexivity|]. split; [intros d e; reflexivity|]. intros X HX.
  destruct (static_rings s r 3 mat3 mat3 (U0Scalar 0) _ [] X false 2 Hs eq_refl (fun i _ => ltac:(cbn; lra)) ltac:(cbn; lra) eq_refl ltac:(lia) eq_refl) as [_ (f & F1 & F2 & F3)].
  { intros i before after Hi E. change (rough_moves (r_mu r) 3 mat3 []) with (@nil (R * vec)) in E. symmetry in E. apply app_eq_nil in E. destruct E as [-> _]. intros Z. cbn in Z. lra. }
  exists f. split; [exact F1|]. split; [|split; rewrite F3 by lia; apply rsum_zero; intros i Hi; rewrite disc_two; ring].
  rewrite F2. cbn [r r_n rsum r_weights r_meso r_gaps r_mu]. change (rough_moves 1 3 mat3 []) with (@nil (R * vec)). unfold memory_after. cbn [fold_left mem_d mem_F].
  assert (E2 : rsum 3 (fun j => mat3 2%nat j * X j) = x) by (cbn; rewrite <- HX; ring). cbn [rsum] in E2. rewrite E2.
  assert (Ex : x - (0 + 0) = x) by ring. rewrite Ex. unfold asperity_force. rewrite Rmax_right by (unfold x; lra). unfold yield_limit. fold x. destruct (Rlt_dec x (19/10 * x)); [|exfalso; unfold x in *; lra].
  unfold solid_hertz, hertz. destruct (Rlt_dec 0 x); [|exfalso; unfold x in *; lra]. pose proof (effective_pos s Hs) as HE. pose proof Hs as (_ & _ & HR & _).
  rewrite Rplus_0_l, Rmult_1_l. apply Rmult_lt_0_compat; [apply Rmult_lt_0_compat; [lra|apply sqrt_lt_R0; exact HR]|apply Rmult_lt_0_compat; [assumption|apply sqrt_lt_R0; assumption]].
Qed.

(** a disc of radius 2 with three rings, moved by 1 *)
Definition case_moves : list (R * (nat -> R)) := [(1, fun d => match d with O => 1 | 2%nat => 4 | _ => 0 end)].
Lemma case_rings : physical soft /\ (forall before after, case_moves = before ++ after -> resolved 3 (rg_a (rings_after soft 0 3 before))) /\
  rg_a (rings_after soft 0 3 case_moves) = 2 /\ rg_t (rings_after soft 0 3 case_moves) 0%nat 0%nat = / PI /\ rg_t (rings_after soft 0 3 case_moves) 2%nat 0%nat = 0.
Proof.
  pose proof soft_limit as SL. pose proof PI_RGT_0 as HPI.
  assert (S4 : sqrt 4 = 2) by (replace 4 with (2 * 2) by ring; apply sqrt_square; lra).
  assert (A : asperity_radius soft (0 - 0) 0 (4 - 0) = 2).
  { unfold asperity_radius. rewrite Rmax_right by lra. destruct (Rlt_dec (4 - 0) (yield_limit soft)); [|lra]. destruct (Rlt_dec 0 (4 - 0)); [|lra]. cbn [soft s_R]. rewrite <- S4. f_equal. ring. }
  assert (F : asperity_force soft (0 - 0) 0 (4 - 0) = 32/3).
  { unfold asperity_force. rewrite Rmax_right by lra. destruct (Rlt_dec (4 - 0) (yield_limit soft)); [|lra]. unfold solid_hertz, hertz. destruct (Rlt_dec 0 (4 - 0)); [|lra]. rewrite soft_modulus. cbn [soft s_R]. rewrite sqrt_1. replace (4 - 0) with 4 by ring. rewrite S4. field. }
  assert (E1 : rg_a (rings_after soft 0 3 case_moves) = 2) by exact A.
  split; [exact soft_physical|]. split; [|split; [exact E1|split]].
  - intros before after E. destruct before as [|m before]; [intros Z; cbn in Z; lra|]. assert (before = []) as ->. { destruct before; [reflexivity|]. discriminate E. } cbn [app] in E. injection E as <- _. fold case_moves. rewrite E1. intros _. cbn. 
    rewrite <- Rinv_1 at 1. replace (2 / (1 + 1)) with (/ 1) by field. apply Rinv_lt_contravar; lra.
  - cbn [rings_after case_moves fold_left remember_rings snd fst rg_t memory_after mem_d mem_F mem_u rg_a]. rewrite A, F. unfold ring_traction. destruct (Rlt_dec 0 (32/3)); [|lra]. cbv zeta.
    rewrite carried_zero by reflexivity. assert (R0 : ring 3 0 = 0) by (unfold ring; cbn; field). rewrite R0. unfold hertz_pressure, mif_shape. destruct (Rlt_dec 0 1); [|lra]. rewrite soft_mindlin.
    replace (1 - 0 ^ 2) with 1 by ring. rewrite sqrt_1. pose proof (Rinv_0_lt_compat _ HPI) as HI.
    replace (1 * (3 * (32 / 3) / (2 * PI * 2 ^ 2) * 1)) with (4 * / PI) by (field; lra).
    replace (0 + 8 * (1 / 4) * 2 / (PI * 2 ^ 2) * (8709 / 10000 + 1291 / 10000 / 1 + 629 / 10000 * 0 - 8915 / 10000 * 0 ^ 2 + 6998 / 10000 * 0 ^ 3) * (1 - 0)) with (/ PI) by (field; lra).
    unfold clamp, Rmax, Rmin. repeat destruct (Rle_dec _ _); lra.
  - cbn [rings_after case_moves fold_left remember_rings snd fst rg_t memory_after mem_d mem_F mem_u rg_a]. apply (edge_traction soft 1 3). lia.
Qed.
