(** Work over a returned cycle: never negative, also for a first pass that is not the steady state. *)
From Coq Require Import Reals Lra Lia Psatz Arith List Bool.
From Verif.Lib Require Import RSum Py.
From Verif.Spec Require Import Slider JenkinsCalls IwanCalls.
From Verif.Model Require Import Jenkins VectorJenkins Iwan JaxDual JaxFriction.
From Verif.Proofs Require Import SliderP JenkinsP JenkinsDerivP JenkinsOpsP HysteresisP IwanP IwanOpsP VectorIwanP EldryP EldryCasesP.
Import ListNotations.
Open Scope R_scope.

(** a step against a constant force g within the limits *)
Lemma slider_step_relative kt Fs f d g : 0 < kt -> - Fs <= f <= Fs -> - Fs <= g <= Fs ->
  let f' := clamp (- Fs) Fs (f + kt * d) in
  ((f' - g) * (f' - g) - (f - g) * (f - g)) / (2 * kt) <= (f' - g) * d.
Proof.
  intros Hk Hf Hg f'. apply Rmult_le_reg_r with (2 * kt); [lra|].
  unfold Rdiv. rewrite Rmult_assoc, Rinv_l by lra. rewrite Rmult_1_r.
  assert (Hc : (f' = f + kt * d) \/ (f' = Fs /\ Fs < f + kt * d) \/ (f' = - Fs /\ f + kt * d < - Fs)) by (unfold f'; minmax).
  destruct Hc as [E|[[E H]|[E H]]]; rewrite E.
  - replace ((f + kt * d - g) * d * (2 * kt)) with (2 * (f + kt * d - g) * ((f + kt * d - g) - (f - g))) by ring. nra.
  - nra.
  - nra.
Qed.

Lemma slider_relative kt Fs u u0 n m : 0 < kt -> 0 <= Fs ->
  let f := jenkins_law kt Fs u u0 in
  0 <= rsum m (fun k => (f (S (n + k)) - f n) * (u (S (n + k)) - u (n + k)%nat)).
Proof.
  intros Hk H0 f.
  assert (B : forall k, - Fs <= f k <= Fs) by (intros k; unfold f, jenkins_law; apply (slider_range kt (fun _ => - Fs) (fun _ => Fs) u); intros; lra).
  enough (E : (f (n + m)%nat - f n) * (f (n + m)%nat - f n) / (2 * kt) <= rsum m (fun k => (f (S (n + k)) - f n) * (u (S (n + k)) - u (n + k)%nat))).
  { eapply Rle_trans; [|exact E]. apply Rmult_le_pos; [apply Rle_0_sqr|]. left. apply Rinv_0_lt_compat. lra. }
  induction m as [|m IH]; [rewrite Nat.add_0_r; cbn; unfold Rdiv; lra|].
  rewrite rsum_S. replace (n + S m)%nat with (S (n + m)) by lia.
  pose proof (slider_step_relative kt Fs (f (n + m)%nat) (u (S (n + m)) - u (n + m)%nat) (f n) Hk (B _) (B _)) as E. cbv zeta in E.
  change (clamp (- Fs) Fs (f (n + m)%nat + kt * (u (S (n + m)) - u (n + m)%nat))) with (f (S (n + m))) in E.
  replace ((f (S (n + m)) - f n) * (f (S (n + m)) - f n) / (2 * kt)) with
    ((f (n + m)%nat - f n) * (f (n + m)%nat - f n) / (2 * kt) + ((f (S (n + m)) - f n) * (f (S (n + m)) - f n) - (f (n + m)%nat - f n) * (f (n + m)%nat - f n)) / (2 * kt)) by (field; lra).
  lra.
Qed.

Lemma mod_pass N p k : (k < N)%nat -> ((p * N + k) mod N = k)%nat.
Proof. intros H. rewrite Nat.add_comm, Nat.mod_add by lia. apply Nat.mod_small. exact H. Qed.
Lemma before_mod N k : (S k < N)%nat -> ((S k + N - 1) mod N = k)%nat.
Proof. intros H. replace (S k + N - 1)%nat with (k + 1 * N)%nat by lia. rewrite Nat.mod_add by lia. apply Nat.mod_small. lia. Qed.

(** every pass, steady or not *)
Lemma pass_dissipation kt Fs N u u0 p : 0 < kt -> 0 <= Fs -> (0 < N)%nat ->
  0 <= rsum N (fun k => pass_law kt Fs N u u0 p k * (u k - u ((k + N - 1) mod N)%nat)).
Proof.
  intros Hk H0 HN. destruct N as [|N]; [lia|]. set (P := S N).
  pose proof (slider_relative kt Fs (repeat_samples P u) u0 (p * P) N Hk H0) as E. cbv zeta in E.
  set (f := pass_law kt Fs P u u0 p).
  rewrite (rsum_ext N _ (fun k => f (S k) * (u (S k) - u k) - f O * (u (S k) - u k))) in E.
  2:{ intros k Hk'. replace (S (p * P + k)) with (p * P + S k)%nat by lia.
      assert (M : forall j, (j < P)%nat -> repeat_samples P u (p * P + j)%nat = u j) by (intros j Hj; unfold repeat_samples; rewrite mod_pass by exact Hj; reflexivity).
      rewrite !M by (unfold P; lia). unfold f, pass_law. rewrite Nat.add_0_r. ring. }
  rewrite rsum_minus, rsum_scal_l in E.
  assert (T : rsum N (fun k => u (S k) - u k) = u N - u O). { clear. induction N as [|N IH]; [cbn; ring|]. rewrite rsum_S, IH. ring. }
  rewrite T in E. unfold P at 1. rewrite rsum_S_l. rewrite (rsum_ext N _ (fun k => f (S k) * (u (S k) - u k))) by (intros k Hk'; rewrite before_mod by (unfold P; lia); reflexivity).
  replace ((0 + P - 1) mod P)%nat with N by (unfold P; cbn [Nat.add]; rewrite Nat.mod_small by lia; lia). lra.
Qed.

Lemma jenkins_cycle s N u cst u0 m atol rtol : (0 < N)%nat -> 0 < j_kt s -> 0 <= j_Fs s -> 0 <= atol \/ 0 <= rtol ->
  0 <= rsum N (fun k => forces_at (jenkins_local_force_history s (rows N u cst) u0 m atol rtol) k * (u k - u ((k + N - 1) mod N)%nat)).
Proof.
  intros HN Hk H0 Ht. destruct (jenkins_history_spec s N u cst u0 m atol rtol HN H0 Ht) as (s' & os & E & _ & _ & V). rewrite E. cbn [forces_at]. cbv zeta in V.
  match type of V with context [if ?b then _ else _] => destruct b end.
  - rewrite (rsum_ext N _ (fun k => pass_law (j_kt s) (j_Fs s) N u u0 1 k * (u k - u ((k + N - 1) mod N)%nat))) by (intros k Hk'; rewrite (proj1 (V k Hk')); reflexivity).
    apply pass_dissipation; assumption.
  - rewrite (rsum_ext N _ (fun k => pass_law (j_kt s) (j_Fs s) N u u0 0 k * (u k - u ((k + N - 1) mod N)%nat))) by (intros k Hk'; rewrite (proj1 (V k Hk')); reflexivity).
    apply pass_dissipation; assumption.
Qed.

Lemma vector_jenkins_cycle s N u cst u0 : (0 < N)%nat -> 0 < j_kt s -> 0 <= j_Fs s ->
  exists s' ft dfduh, vector_jenkins_local_force_history s N u cst u0 = Ok (s', ft, dfduh) /\ 0 <= rsum N (fun k => ft k * (u k - u ((k + N - 1) mod N)%nat)).
Proof.
  intros HN Hk H0. destruct (last_reversal_exists N u HN) as [c Hc]. destruct (vector_history_default s N u cst u0 c HN H0 Hc) as (s' & ft & df & E & _ & V).
  exists s', ft, df. split; [exact E|]. cbv zeta in V. erewrite rsum_ext; [apply (pass_dissipation (j_kt s) (j_Fs s) N u u0 (pass_no (pass_law (j_kt s) (j_Fs s) N u u0 0 c))); assumption|].
  intros k Hk'. cbv beta. rewrite (proj1 (V k Hk')). reflexivity.
Qed.

Lemma bank_pass_dissipation s N u u0 p : (0 < N)%nat -> w_ok s -> phi_ok s -> 0 <= rsum N (fun k => bank_pass s N u u0 p k * (u k - u ((k + N - 1) mod N)%nat)).
Proof.
  intros HN HW HP.
  rewrite (rsum_ext N _ (fun k => rsum (iw_n s) (fun i => iw_w s i * (pass_law 1 (iw_phi s i) N u u0 p k * (u k - u ((k + N - 1) mod N)%nat))))).
  2:{ intros k _. unfold bank_pass. rewrite <- rsum_scal_r. apply rsum_ext. intros; ring. }
  rewrite rsum_swap. apply rsum_nonneg. intros i Hi. rewrite rsum_scal_l. apply Rmult_le_pos; [apply HW; exact Hi|]. apply pass_dissipation; [lra|apply HP; exact Hi|exact HN].
Qed.

Lemma iwan_cycle_all s N u cst u0 m atol rtol : (0 < N)%nat -> w_ok s -> phi_ok s -> 0 <= atol \/ 0 <= rtol ->
  0 <= rsum N (fun k => iforces_at (iwan_local_force_history s (rows N u cst) u0 m atol rtol) k * (u k - u ((k + N - 1) mod N)%nat)).
Proof.
  intros HN HW HP Ht. destruct (iwan_history_spec s N u cst u0 m atol rtol HN HP Ht) as (s' & os & E & _ & _ & V). rewrite E. cbn [iforces_at]. cbv zeta in V.
  match type of V with context [if ?b then _ else _] => set (n := if b then 1%nat else 0%nat) in V end.
  rewrite (rsum_ext N _ (fun k => bank_pass s N u u0 n k * (u k - u ((k + N - 1) mod N)%nat))) by (intros k Hk'; rewrite (proj1 (V k Hk')); reflexivity).
  apply bank_pass_dissipation; assumption.
Qed.

Lemma vector_iwan_cycle s N u cst u0 : (0 < N)%nat -> w_ok s -> phi_ok s ->
  exists s' ft dfduh, vector_iwan_local_force_history s N u cst u0 = Ok (s', ft, dfduh) /\ 0 <= rsum N (fun k => ft k * (u k - u ((k + N - 1) mod N)%nat)).
Proof.
  intros HN HW HP. destruct (last_reversal_exists N u HN) as [c Hc]. destruct (vector_iwan_default s N u cst u0 c HN HP Hc) as (s' & ft & df & E & _ & V).
  exists s', ft, df. split; [exact E|]. erewrite rsum_ext; [apply (bank_pass_dissipation s N u u0 (pass_no (bank_pass s N u u0 0 c)) HN HW HP)|].
  intros k Hk'. cbv beta. rewrite (proj1 (V k Hk')). reflexivity.
Qed.

Lemma jax_jenkins_cycle kt Fs u0 Nt u : (0 < Nt)%nat -> 0 < kt -> 0 <= Fs ->
  0 <= rsum Nt (fun k => dv (jj_history Nt (fun t _ => dconst (u t)) kt Fs (dconst u0) k O) * (u k - u ((k + Nt - 1) mod Nt)%nat)).
Proof.
  intros HN Hk H0. erewrite rsum_ext; [apply (pass_dissipation kt Fs Nt u u0 1 Hk H0 HN)|]. intros k Hk'. cbv beta. rewrite jj_history_value by assumption.
  unfold pass_law. rewrite Nat.mul_1_l. reflexivity.
Qed.

(** * elastic dry friction: limits that change with the normal force *)
Lemma limited_step_energy kt lo hi f d : 0 < kt -> lo <= 0 <= hi ->
  let f' := clamp lo hi (f + kt * d) in (f' * f' - f * f) / (2 * kt) <= f' * d.
Proof.
  intros Hk Hl f'. apply Rmult_le_reg_r with (2 * kt); [lra|].
  unfold Rdiv. rewrite Rmult_assoc, Rinv_l by lra. rewrite Rmult_1_r.
  assert (Hc : (f' = f + kt * d) \/ (f' = hi /\ hi < f + kt * d) \/ (f' = lo /\ f + kt * d < lo)) by (unfold f'; minmax).
  destruct Hc as [E|[[E H]|[E H]]]; rewrite E.
  - replace ((f + kt * d) * d * (2 * kt)) with (2 * (f + kt * d) * ((f + kt * d) - f)) by ring. nra.
  - assert (X : 0 <= hi * (f + kt * d - hi)) by (apply Rmult_le_pos; lra). pose proof (Rle_0_sqr (hi - f)) as Y. unfold Rsqr in Y.
    replace (hi * d * (2 * kt)) with (2 * (hi * (f + kt * d - hi)) + (hi * hi - f * f) + (hi - f) * (hi - f)) by ring. lra.
  - assert (X : 0 <= (- lo) * (lo - (f + kt * d))) by (apply Rmult_le_pos; lra). pose proof (Rle_0_sqr (lo - f)) as Y. unfold Rsqr in Y.
    replace (lo * d * (2 * kt)) with (2 * ((- lo) * (lo - (f + kt * d))) + (lo * lo - f * f) + (lo - f) * (lo - f)) by ring. lra.
Qed.
Lemma contact_step_energy kn gap x y : 0 < kn ->
  (contact_force kn gap y * contact_force kn gap y - contact_force kn gap x * contact_force kn gap x) / (2 * kn) <= contact_force kn gap y * (y - x).
Proof.
  intros Hk. apply Rmult_le_reg_r with (2 * kn); [lra|]. unfold Rdiv. rewrite Rmult_assoc, Rinv_l by lra. rewrite Rmult_1_r.
  unfold contact_force. destruct (Rlt_dec gap y), (Rlt_dec gap x).
  - assert (0 <= (kn * (y - x)) * (kn * (y - x))) by apply Rle_0_sqr. nra.
  - assert (0 <= kn * kn * ((y - gap) * (gap - x))) by (apply Rmult_le_pos; [apply Rle_0_sqr|apply Rmult_le_pos; lra]). assert (0 <= kn * kn * ((y - gap) * (y - gap))) by (apply Rmult_le_pos; apply Rle_0_sqr). nra.
  - assert (0 <= kn * (x - gap) * (kn * (x - gap))) by apply Rle_0_sqr. lra.
  - lra.
Qed.

(** stored energy of local degree of freedom d *)
Lemma contact_energy p kt kn mu gap u start d n m : 0 < kt -> 0 < kn -> 0 <= mu ->
  let f := contact_history p kt kn mu gap u start d in
  let stiffness := if Nat.eqb d (normal_dof p d) then kn else kt in
  (f (n + m)%nat * f (n + m)%nat - f n * f n) / (2 * stiffness) <= rsum m (fun k => f (S (n + k)) * (u d (S (n + k)) - u d (n + k)%nat)).
Proof.
  intros Hkt Hkn Hmu f stiffness. assert (Hs : 0 < stiffness) by (unfold stiffness; destruct (Nat.eqb _ _); assumption).
  induction m as [|m IH]; [rewrite Nat.add_0_r; cbn; unfold Rdiv; rewrite Rminus_diag_eq by reflexivity; lra|].
  rewrite rsum_S. replace (n + S m)%nat with (S (n + m)) by lia.
  assert (E : (f (S (n + m)) * f (S (n + m)) - f (n + m)%nat * f (n + m)%nat) / (2 * stiffness) <= f (S (n + m)) * (u d (S (n + m)) - u d (n + m)%nat)).
  { unfold f, stiffness, contact_history. destruct (Nat.eqb_spec d (normal_dof p d)) as [Ed|_].
    - rewrite <- Ed. apply contact_step_energy. exact Hkn.
    - unfold friction_law. cbn [slider].
      apply (limited_step_energy kt); [exact Hkt|].
      assert (0 <= mu * contact_force kn gap (u (normal_dof p d) (S (n + m)))) by (apply Rmult_le_pos; [exact Hmu|apply contact_nonneg; lra]). lra. }
  replace ((f (S (n + m)) * f (S (n + m)) - f n * f n) / (2 * stiffness)) with
    ((f (n + m)%nat * f (n + m)%nat - f n * f n) / (2 * stiffness) + (f (S (n + m)) * f (S (n + m)) - f (n + m)%nat * f (n + m)%nat) / (2 * stiffness)) by (field; lra).
  lra.
Qed.

Lemma steady_work N (f g u : nat -> R) c : (0 < N)%nat ->
  (forall n m, (f (n + m)%nat * f (n + m)%nat - f n * f n) / c <= rsum m (fun k => f (S (n + k)) * (repeat_samples N u (S (n + k)) - repeat_samples N u (n + k)%nat))) ->
  steady_state N f g -> 0 <= rsum N (fun k => g k * (u k - u ((k + N - 1) mod N)%nat)).
Proof.
  intros HN En [n0 Hs]. set (m := S n0).
  specialize (En (m * N - 1)%nat N).
  assert (Hend : f (m * N - 1 + N)%nat = f (m * N - 1)%nat).
  { replace (m * N - 1 + N)%nat with (m * N + (N - 1))%nat by (unfold m; nia).
    replace (m * N - 1)%nat with (n0 * N + (N - 1))%nat by (unfold m; nia).
    rewrite !Hs by (unfold m; lia). reflexivity. }
  rewrite Hend in En. unfold Rdiv in En. rewrite Rminus_diag_eq, Rmult_0_l in En by reflexivity.
  erewrite rsum_ext; [exact En|]. intros k Hk'. cbv beta. assert (M : (0 < m * N)%nat) by (unfold m; nia).
  replace (S (m * N - 1 + k)) with (m * N + k)%nat by lia. rewrite Hs by (unfold m; lia). f_equal. unfold repeat_samples. rewrite mod_pass by exact Hk'. f_equal. f_equal.
  replace (m * N - 1 + k)%nat with (k + N - 1 + n0 * N)%nat by (unfold m; nia). rewrite Nat.mod_add by lia. reflexivity.
Qed.

Lemma eldry_cycle Nt p P u0 unlt unlth0 start : (0 < Nt)%nat -> (0 < p)%nat -> 0 < ep_kt P -> 0 < ep_kn P -> 0 <= ep_mu P ->
  (u0 = None /\ start = unlth0 \/ u0 = Some (inr start)) ->
  exists ft, ed_local_force_history Nt p P u0 unlt unlth0 = Ok ft /\
    forall d, 0 <= rsum Nt (fun k => ft k d * (unlt k d - unlt ((k + Nt - 1) mod Nt)%nat d)).
Proof.
  intros HN Hp Hkt Hkn Hmu Hs. destruct (eldry_local_history Nt p P u0 unlt unlth0 start HN Hp ltac:(lra) Hs) as (ft & E & V). exists ft. split; [exact E|].
  intros d. set (law := contact_history p (ep_kt P) (ep_kn P) (ep_mu P) (ep_gap P) (fun d => repeat_samples Nt (fun t => unlt t d)) start d).
  rewrite (rsum_ext Nt _ (fun k => law (Nt + k)%nat * (unlt k d - unlt ((k + Nt - 1) mod Nt)%nat d))) by (intros k Hk; rewrite (V d k Hk); reflexivity).
  apply (steady_work Nt law (fun k => law (Nt + k)%nat) (fun t => unlt t d) (2 * (if Nat.eqb d (normal_dof p d) then ep_kn P else ep_kt P)) HN).
  - intros n m. apply (contact_energy p (ep_kt P) (ep_kn P) (ep_mu P) (ep_gap P) (fun d => repeat_samples Nt (fun t => unlt t d)) start d n m); assumption.
  - apply (contact_second_pass_steady Nt p (ep_kt P) (ep_kn P) (ep_mu P) (ep_gap P) (fun d t => unlt t d) start d HN); lra.
Qed.

Lemma cycle_case cst : rsum 4 (fun k => forces_at (jenkins_local_force_history (j_new 1 1) (rows 4 case_u cst) 0 2 default_tol default_tol) k
    * (case_u k - case_u ((k + 4 - 1) mod 4)%nat)) = 45 / 4.
Proof.
  destruct case_pass as [Ht V].
  destruct (history_steady (j_new 1 1) 4 case_u cst 0 2 ltac:(lia) ltac:(cbn; lra) (le_n 2) Ht) as (s' & os & E & _ & Hs). rewrite E. cbn [forces_at].
  pose proof (steady_state_unique 4 _ _ _ Hs (jenkins_second_pass_steady 1 1 4 case_u 0 ltac:(lia) ltac:(lra))) as U.
  rewrite (rsum_ext 4 _ (fun k => nth k [1; 1; -1; / 2] 0 * (case_u k - case_u ((k + 4 - 1) mod 4)%nat))) by (intros k Hk; rewrite (U k Hk), (V k Hk); reflexivity).
  cbn [rsum nth Nat.add Nat.sub]. cbn. lra.
Qed.
