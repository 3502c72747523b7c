(** Proofs about changes of coordinates. *)
From Coq Require Import Reals List Arith Bool Lra Lia FunctionalExtensionality.
From Verif.Lib Require Import RSum Py.
From Verif.Spec Require Import Coordinates.
From Verif.Model Require Import Harmonic LocalForces Aft VibSys SysElements Jenkins Iwan JaxDual JaxFloat JaxFriction RoughContact SysHistory SysHarmonic.
From Verif.Proofs Require Import AftP.
Import ListNotations.
Open Scope R_scope.

(** * the local displacements are the same *)
Lemma swap_columns N n Q V x d : rsum N (fun j => Q d j * rsum n (fun k => V j k * x k)) = rsum n (fun k => columns N V Q d k * x k).
Proof.
  unfold columns. rewrite (rsum_ext N _ (fun j => rsum n (fun k => Q d j * V j k * x k))).
  2:{ intros j _. rewrite <- rsum_scal_l. apply rsum_ext. intros; ring. }
  rewrite rsum_swap. apply rsum_ext. intros k _. rewrite <- rsum_scal_r. reflexivity.
Qed.

Lemma local_static N n V Q q U : expands 1 N n V q U -> matvec N Q U = matvec n (columns N V Q) q.
Proof.
  intros H. extensionality d. unfold matvec. rewrite (rsum_ext N _ (fun j => Q d j * rsum n (fun k => V j k * q k))).
  - apply swap_columns.
  - intros j Hj. f_equal. exact (H O j Nat.lt_0_1 Hj).
Qed.

Definition same_local (N n : nat) (V : mat) (U q : vec) : Prop := forall Q c d, aft_Unl N Q U c d = aft_Unl n (columns N V Q) q c d.

Lemma take_in m v r : (r < m)%nat -> take m v r = v r.
Proof. intros H. unfold take, clear_from. apply Nat.ltb_lt in H. rewrite H. reflexivity. Qed.
Lemma take_out m v r : (m <= r)%nat -> take m v r = 0.
Proof. intros H. unfold take, clear_from. apply Nat.ltb_ge in H. rewrite H. reflexivity. Qed.

Lemma local_harmonic nb N n V X Y : expands nb N n V X Y -> same_local N n V (take (nb * N) Y) (take (nb * n) X).
Proof.
  intros H Q c d. unfold aft_Unl, matvec. destruct (Nat.lt_ge_cases c nb) as [Hc|Hc].
  - rewrite (rsum_ext N _ (fun j => Q d j * rsum n (fun k => V j k * X (c * n + k)%nat))).
    + rewrite (swap_columns N n Q V (fun k => X (c * n + k)%nat)). apply rsum_ext. intros k Hk. rewrite take_in by nia. reflexivity.
    + intros j Hj. rewrite take_in by nia. f_equal. exact (H c j Hc Hj).
  - rewrite !rsum_zero; [reflexivity| |]; intros i Hi; rewrite take_out by nia; ring.
Qed.

(** * the global forces are projected *)
Lemma rows_project N nnl V T f k : rsum nnl (fun d => rows N V T k d * f d) = rsum N (fun i => V i k * rsum nnl (fun d => T i d * f d)).
Proof.
  unfold rows. rewrite (rsum_ext N _ (fun i => rsum nnl (fun d => V i k * T i d * f d))).
  2:{ intros i _. rewrite <- rsum_scal_l. apply rsum_ext. intros; ring. }
  rewrite rsum_swap. apply rsum_ext. intros d _. rewrite <- rsum_scal_r. reflexivity.
Qed.

Lemma global_projects nb N n nnl V T F : projects nb N n V (aft_global N nnl T F) (aft_global n nnl (rows N V T) F).
Proof.
  intros c k Hc Hk. unfold aft_global, matvec. destruct (divmod_block n c k Hk) as [-> ->]. rewrite rows_project.
  apply rsum_ext. intros i Hi. destruct (divmod_block N c i Hi) as [-> ->]. reflexivity.
Qed.

(** V' (T D Q) V = (V' T) D (Q V) *)
Lemma rows_columns N nnl V Q T D k m :
  rsum nnl (fun d => rsum nnl (fun e => rows N V T k d * D d e * columns N V Q e m))
  = congruent N V (fun i j => rsum nnl (fun d => rsum nnl (fun e => T i d * D d e * Q e j))) k m.
Proof.
  unfold congruent.
  rewrite (rsum_ext nnl _ (fun d => rows N V T k d * rsum nnl (fun e => D d e * columns N V Q e m))).
  2:{ intros d _. rewrite <- rsum_scal_l. apply rsum_ext. intros; ring. }
  rewrite (rows_project N nnl V T (fun d => rsum nnl (fun e => D d e * columns N V Q e m))).
  apply rsum_ext. intros i _.
  rewrite (rsum_ext N _ (fun j => V i k * (rsum nnl (fun d => rsum nnl (fun e => T i d * D d e * Q e j)) * V j m))) by (intros; ring).
  rewrite rsum_scal_l. f_equal.
  rewrite (rsum_ext N _ (fun j => rsum nnl (fun d => rsum nnl (fun e => T i d * D d e * Q e j * V j m)))).
  2:{ intros j _. rewrite <- rsum_scal_r. apply rsum_ext. intros d _. rewrite <- rsum_scal_r. reflexivity. }
  rewrite rsum_swap. apply rsum_ext. intros d _. rewrite rsum_swap. rewrite <- rsum_scal_l. apply rsum_ext. intros e _.
  unfold columns. rewrite <- rsum_scal_l, <- rsum_scal_l. apply rsum_ext. intros; ring.
Qed.

Lemma dU_entry N nnl nb Q T J c i c' j : (c < nb)%nat -> (i < N)%nat -> (c' < nb)%nat -> (j < N)%nat ->
  aft_dU N nnl nb Q T J (c * N + i)%nat (c' * N + j)%nat = rsum nnl (fun d => rsum nnl (fun e => T i d * J (c * nnl + d)%nat (c' * nnl + e)%nat * Q e j)).
Proof.
  intros Hc Hi Hc' Hj. unfold aft_dU.
  assert (L : forall s, matmul (nb * nnl) (kron_eye N nnl T) J (c * N + i)%nat s = rsum nnl (fun d => T i d * J (c * nnl + d)%nat s)).
  { intros s. exact (kron_matvec nb N nnl T (fun r => J r s) c i Hc Hi). }
  unfold matmul at 1. rewrite rsum_blocks, (rsum_single nb c' _ Hc').
  - rewrite rsum_swap. apply rsum_ext. intros e He. rewrite L, kron_entry by assumption. rewrite Nat.eqb_refl, <- rsum_scal_r. reflexivity.
  - intros b Hb Hne. apply rsum_zero. intros e He. rewrite kron_entry by assumption. destruct (Nat.eqb_spec b c'); [lia|ring].
Qed.

Lemma dU_projects nb N n nnl V Q T J : projects_jacobian nb N n V (aft_dU N nnl nb Q T J) (aft_dU n nnl nb (columns N V Q) (rows N V T) J).
Proof.
  intros c k c' m Hc Hk Hc' Hm. rewrite dU_entry by assumption.
  rewrite (rows_columns N nnl V Q T (fun d e => J (c * nnl + d)%nat (c' * nnl + e)%nat)). unfold congruent. apply rsum_ext. intros i Hi. apply rsum_ext. intros j Hj.
  rewrite dU_entry by assumption. reflexivity.
Qed.

(** * elements *)
Definition related3 (nb N n : nat) (V : mat) (a b : vec * mat * vec) : Prop :=
  projects nb N n V (fst (fst a)) (fst (fst b)) /\ projects_jacobian nb N n V (snd (fst a)) (snd (fst b)) /\ projects nb N n V (snd a) (snd b).

Lemma zero_projects nb N n V : projects nb N n V (fun _ => 0) (fun _ => 0).
Proof. intros c k _ _. rewrite rsum_zero; [reflexivity|intros; ring]. Qed.
Lemma zero_jacobian nb N n V : projects_jacobian nb N n V (fun _ _ => 0) (fun _ _ => 0).
Proof. intros c k c' m _ _ _ _. unfold congruent. rewrite rsum_zero; [reflexivity|]. intros. apply rsum_zero. intros; ring. Qed.

Lemma same_result_refl_bind {A B C} (P : B -> C -> Prop) (r : result A) f g :
  (forall a, same_result P (f a) (g a)) -> same_result P (bind r f) (bind r g).
Proof. intros H. destruct r; cbn [bind]; [apply H|reflexivity]. Qed.

Lemma instant_projects N n V nnl Q T law U q w h Nt : same_local N n V U q ->
  same_result (related3 (aft_Nhc h) N n V) (aft_instantaneous N nnl Q T law U w h Nt) (aft_instantaneous n nnl (columns N V Q) (rows N V T) law q w h Nt).
Proof.
  intros H. unfold aft_instantaneous. cbv zeta.
  assert (E : (fun d c => aft_Unl N Q U c d) = (fun d c => aft_Unl n (columns N V Q) q c d)) by (extensionality d; extensionality c; apply H).
  rewrite E. clear E. apply same_result_refl_bind. intros [m x]. apply same_result_refl_bind. intros [m1 x1]. apply same_result_refl_bind. intros F.
  apply same_result_refl_bind. intros [m2 x2]. destruct (negb (Nat.eqb m Nt)); [reflexivity|]. apply same_result_refl_bind. intros [m3 x3]. apply same_result_refl_bind. intros dF.
  destruct (Reqb w 0).
  - split; [apply global_projects|split; [apply dU_projects|apply zero_projects]].
  - apply same_result_refl_bind. intros dw. split; [apply global_projects|split; [apply dU_projects|apply global_projects]].
Qed.

Lemma coupled_projects N n V nnl Q T row U q w h Nt : same_local N n V U q ->
  same_result (related3 (aft_Nhc h) N n V) (aft_coupled N nnl Q T row U w h Nt) (aft_coupled n nnl (columns N V Q) (rows N V T) row q w h Nt).
Proof.
  intros H. unfold aft_coupled. cbv zeta.
  assert (E : (fun d c => aft_Unl N Q U c d) = (fun d c => aft_Unl n (columns N V Q) q c d)) by (extensionality d; extensionality c; apply H).
  rewrite E. clear E. apply same_result_refl_bind. intros [m x]. apply same_result_refl_bind. intros [m1 x1]. apply same_result_refl_bind. intros F.
  apply same_result_refl_bind. intros [m2 x2]. destruct (negb (Nat.eqb m Nt)); [reflexivity|]. apply same_result_refl_bind. intros dF.
  split; [apply global_projects|split; [apply dU_projects|apply zero_projects]].
Qed.

Lemma hysteretic_projects {S : Type} N n V Q T lfh U q h Nt : same_local N n V U q ->
  same_result (fun a b => fst a = fst b /\ related3 (aft_Nhc h) N n V (snd a) (snd b)) (@aft_hysteretic S N Q T lfh U h Nt) (@aft_hysteretic S n (columns N V Q) (rows N V T) lfh q h Nt).
Proof.
  intros H. unfold aft_hysteretic. cbv zeta.
  assert (E : (fun d c => aft_Unl N Q U c d) = (fun d c => aft_Unl n (columns N V Q) q c d)) by (extensionality d; extensionality c; apply H).
  rewrite E, (H Q O O). clear E. apply same_result_refl_bind. intros [m x]. apply same_result_refl_bind. intros [m1 x1]. apply same_result_refl_bind. intros [m2 x2].
  apply same_result_refl_bind. intros [s [ft df]]. apply same_result_refl_bind. intros F. destruct (negb (Nat.eqb m Nt)); [reflexivity|]. apply same_result_refl_bind. intros dF.
  split; [reflexivity|]. split; [apply global_projects|split; [apply dU_projects|apply zero_projects]].
Qed.

Lemma jax_projects N n V nnl Q T local U q w h : same_local N n V U q ->
  same_result (related3 (aft_Nhc h) N n V) (jax_aft N nnl Q T local U w h) (jax_aft n nnl (columns N V Q) (rows N V T) local q w h).
Proof.
  intros H. unfold jax_aft. cbv zeta.
  assert (E : (fun i => if Nat.ltb i (aft_Nhc h * nnl) then aft_Unl N Q U (i / nnl) (i mod nnl) else w) = (fun i => if Nat.ltb i (aft_Nhc h * nnl) then aft_Unl n (columns N V Q) q (i / nnl) (i mod nnl) else w)).
  { extensionality i. rewrite (H Q (i / nnl)%nat (i mod nnl)%nat). reflexivity. }
  rewrite E. clear E. apply same_result_refl_bind. intros m. destruct (Nat.eqb m 0); [reflexivity|].
  match goal with |- context [negb ?b] => destruct (negb b) end; [reflexivity|]. apply same_result_refl_bind. intros F.
  split; [apply global_projects|split; [apply dU_projects|]].
  exact (global_projects (aft_Nhc h) N n nnl V T (fun d c => dt (F ((d * aft_Nhc h + c) / nnl)%nat ((d * aft_Nhc h + c) mod nnl)%nat) (aft_Nhc h * nnl)%nat)).
Qed.

(** static forces *)
Definition related2 (N n : nat) (V : mat) (a b : vec * mat) : Prop := projects 1 N n V (fst a) (fst b) /\ projects_jacobian 1 N n V (snd a) (snd b).

Lemma static_projects N n nnl V T f : projects 1 N n V (matvec nnl T f) (matvec nnl (rows N V T) f).
Proof. intros c k Hc Hk. replace c with O by lia. exact (rows_project N nnl V T f k). Qed.

Lemma tdq (nnl : nat) (T D Q : mat) i j : matmul nnl (matmul nnl T D) Q i j = rsum nnl (fun d => rsum nnl (fun e => T i d * D d e * Q e j)).
Proof. unfold matmul. rewrite rsum_swap. apply rsum_ext. intros e _. rewrite <- rsum_scal_r. reflexivity. Qed.

Lemma static_jacobian N n nnl V Q T D : projects_jacobian 1 N n V (matmul nnl (matmul nnl T D) Q) (matmul nnl (matmul nnl (rows N V T) D) (columns N V Q)).
Proof.
  intros c k c' m Hc Hk Hc' Hm. replace c with O by lia. replace c' with O by lia. cbn [Nat.mul Nat.add].
  rewrite tdq, rows_columns. unfold congruent. apply rsum_ext. intros i Hi. apply rsum_ext. intros j Hj. rewrite tdq. reflexivity.
Qed.

Lemma jacobian_ext nb N n V A A' B B' : (forall i j, A i j = A' i j) -> (forall i j, B i j = B' i j) -> projects_jacobian nb N n V A' B' -> projects_jacobian nb N n V A B.
Proof.
  intros HA HB H c k c' m Hc Hk Hc' Hm. rewrite HB, H by assumption. unfold congruent. apply rsum_ext. intros i _. apply rsum_ext. intros j _. rewrite HA. reflexivity.
Qed.

Lemma one_jacobian N n V Q (T : mat) (x : R) : projects_jacobian 1 N n V (fun i j => T i O * x * Q O j) (fun i j => rows N V T i O * x * columns N V Q O j).
Proof.
  apply (jacobian_ext 1 N n V _ (matmul 1 (matmul 1 T (fun _ _ => x)) Q) _ (matmul 1 (matmul 1 (rows N V T) (fun _ _ => x)) (columns N V Q))); [| |apply static_jacobian];
    intros i j; unfold matmul, rsum; ring.
Qed.

Lemma one_projects N n V (T : mat) (x : R) : projects 1 N n V (fun i => T i O * x) (fun i => rows N V T i O * x).
Proof.
  intros c k Hc Hk. replace c with O by lia. cbn [Nat.mul Nat.add]. pose proof (rows_project N 1 V T (fun _ => x) k) as E. cbn [rsum] in E. rewrite !Rplus_0_l in E. rewrite E. apply rsum_ext.
  intros. rewrite Rplus_0_l. reflexivity.
Qed.

Lemma poly_jacobian N n nnl cnl V Q T E D : projects_jacobian 1 N n V (matmul nnl (matmul cnl (matmul nnl T E) D) Q) (matmul nnl (matmul cnl (matmul nnl (rows N V T) E) D) (columns N V Q)).
Proof.
  assert (A : forall T Q i j, matmul nnl (matmul cnl (matmul nnl T E) D) Q i j = matmul nnl (matmul nnl T (matmul cnl E D)) Q i j).
  { intros T' Q' i j. unfold matmul at 1 4. apply rsum_ext. intros e _. f_equal. unfold matmul. rewrite (rsum_ext cnl _ (fun k => rsum nnl (fun d => T' i d * E d k * D k e))) by (intros; rewrite <- rsum_scal_r; reflexivity).
    rewrite rsum_swap. apply rsum_ext. intros d _. rewrite <- rsum_scal_l. apply rsum_ext. intros; ring. }
  exact (jacobian_ext 1 N n V _ _ _ _ (A T Q) (A (rows N V T) (columns N V Q)) (static_jacobian N n nnl V Q T (matmul cnl E D))).
Qed.

(** the methods of a force without memory *)
Lemma class_static N n V f g U q : same_class N n V f g -> expands 1 N n V q U -> same_result (related2 N n V) (nl_force f U) (nl_force g q).
Proof.
  intros H E. destruct H; cbn [nl_force cubic_nl quintic_nl damping_nl unilateral_nl iwan_nl poly_nl jenkins_nl instantaneous_nl same_result].
  - unfold cubic_force. rewrite (local_static N n V Q q U E). split; [apply static_projects|apply static_jacobian].
  - unfold quintic_force. rewrite (local_static N n V Q q U E). split; [apply static_projects|apply static_jacobian].
  - unfold damping_force. rewrite (local_static N n V Q q U E). split; [apply static_projects|apply static_jacobian].
  - unfold unilateral_force. rewrite (local_static N n V Q q U E). split; [apply static_projects|apply static_jacobian].
  - unfold iwan_force. rewrite (local_static N n V Q q U E). split; [apply static_projects|apply static_jacobian].
  - unfold poly_force. rewrite (local_static N n V Q q U E). split; [apply static_projects|apply poly_jacobian].
  - rewrite (local_static N n V Q q U E). apply same_result_refl_bind. intros [sf k]. split; [apply one_projects|apply one_jacobian].
Qed.

Lemma bind_map {A B A' B'} (P : A -> A' -> Prop) (P' : B -> B' -> Prop) (r : result A) (r' : result A') f f' :
  same_result P r r' -> (forall a a', P a a' -> same_result P' (f a) (f' a')) -> same_result P' (bind r f) (bind r' f').
Proof. intros H F. destruct r as [a|x], r' as [a'|x']; cbn in H; try contradiction; cbn [bind]; [apply F, H|exact H]. Qed.

Lemma class_aft N n V f g U q w h Nt : same_class N n V f g -> same_local N n V U q -> same_result (related3 (aft_Nhc h) N n V) (nl_aft f U w h Nt) (nl_aft g q w h Nt).
Proof.
  intros H E. destruct H; cbn [nl_aft cubic_nl quintic_nl damping_nl unilateral_nl iwan_nl poly_nl jenkins_nl instantaneous_nl].
  1-5: apply instant_projects; exact E.
  - apply coupled_projects; exact E.
  - unfold jenkins_aft. apply (bind_map _ _ _ _ _ _ (hysteretic_projects N n V Q T (jenkins_lfh s) U q h Nt E)).
    intros [s1 o1] [s2 o2] [_ H]. exact H.
Qed.

Lemma class_aft_F N n V f g U q w h Nt : same_class N n V f g -> same_local N n V U q -> same_result (projects (aft_Nhc h) N n V) (nl_aft_F f U w h Nt) (nl_aft_F g q w h Nt).
Proof.
  intros H E. destruct H; cbn [nl_aft_F cubic_nl quintic_nl damping_nl unilateral_nl iwan_nl poly_nl jenkins_nl instantaneous_nl].
  1-5: apply (bind_map _ _ _ _ _ _ (instant_projects N n V nnl Q T _ U q w h Nt E)); intros [[F1 J1] w1] [[F2 J2] w2] H; exact (proj1 H).
  - apply (bind_map _ _ _ _ _ _ (coupled_projects N n V nnl Q T _ U q w h Nt E)). intros [[F1 J1] w1] [[F2 J2] w2] H; exact (proj1 H).
  - reflexivity.
Qed.

(** * elements with state *)
Lemma element_force_same N n V e r U q upd : same_element N n V e r -> expands 1 N n V q U ->
  same_result (fun a b => same_element N n V (fst a) (fst b) /\ both (projects 1 N n V) (fst (snd a)) (fst (snd b)) /\ both (projects_jacobian 1 N n V) (snd (snd a)) (snd (snd b)))
    (element_force N e U upd) (element_force n r q upd).
Proof.
  intros H E. destruct H; cbn [element_force].
  - destruct upd; [reflexivity|]. apply (bind_map _ _ _ _ _ _ (class_static N n V f g U q H E)). intros [F J] [F' J'] [A B]. split; [constructor; exact H|split; [exact A|exact B]].
  - rewrite (local_static N n V Q q U E). apply same_result_refl_bind. intros [sf k]. split; [constructor|split; [apply one_projects|apply one_jacobian]].
  - rewrite (local_static N n V Q q U E). destruct (iw_force s (matvec n (columns N V Q) q O) upd) as [s' [f k]]. split; [constructor|split; [apply one_projects|apply one_jacobian]].
  - unfold ed_force. rewrite (local_static N n V Q q U E). cbn [same_result fst snd]. split; [destruct upd; constructor|split; [apply static_projects|apply static_jacobian]].
  - unfold rough_force, seeded_local. rewrite (local_static N n V Q q U E). cbn [same_result fst snd]. split; [destruct upd; constructor|].
    unfold force_values, force_jacobian. split.
    + destruct (all_values 3 _); [|exact I]. apply static_projects.
    + destruct (all_tangents 3 _); [|exact I]. apply static_jacobian.
  - destruct upd; [reflexivity|]. cbn [same_result fst snd both]. split; [constructor|split; [apply zero_projects|apply zero_jacobian]].
Qed.

Lemma rough_projects N n V r Q T s U q w h Nt rep : same_local N n V U q ->
  same_result (fun a b => both (projects (aft_Nhc h) N n V) (fst a) (fst b)) (rough_aft r N Q T s U w h Nt rep) (rough_aft r n (columns N V Q) (rows N V T) s q w h Nt rep).
Proof.
  intros H. unfold rough_aft. cbv zeta.
  assert (E : (fun i => if Nat.ltb i (aft_Nhc h * 3) then aft_Unl N Q U (i / 3) (i mod 3) else w) = (fun i => if Nat.ltb i (aft_Nhc h * 3) then aft_Unl n (columns N V Q) q (i / 3) (i mod 3) else w)).
  { extensionality i. rewrite (H Q (i / 3)%nat (i mod 3)%nat). reflexivity. }
  rewrite E. clear E. match goal with |- same_result _ (bind (jax_aft _ _ _ _ ?l _ _ _) _) _ => apply (bind_map _ _ _ _ _ _ (jax_projects N n V 3 Q T l U q w h H)) end.
  intros [[F J] dw] [[F' J'] dw'] [A _]. apply same_result_refl_bind. intros G. cbn [same_result fst snd]. match goal with |- both _ (if ?b then _ else _) _ => destruct b end; [exact A|exact I].
Qed.

Lemma element_aft_same N n V e r U q w h Nt : same_element N n V e r -> same_local N n V U q ->
  same_result (fun a b => same_element N n V (fst a) (fst b) /\ both (projects (aft_Nhc h) N n V) (snd a) (snd b)) (element_aft N e U w h Nt) (element_aft n r q w h Nt).
Proof.
  intros H E. destruct H; cbn [element_aft].
  - apply (bind_map _ _ _ _ _ _ (class_aft N n V f g U q w h Nt H E)). intros [[F J] dw] [[F' J'] dw'] [A _]. split; [constructor; exact H|exact A].
  - unfold jenkins_aft. apply (bind_map _ _ _ _ _ _ (hysteretic_projects N n V Q T (jenkins_lfh s) U q h Nt E)). intros [s1 [[F J] dw]] [s2 [[F' J'] dw']] [S [A _]]. cbn [fst] in S. subst s2. split; [constructor|exact A].
  - unfold iwan_aft. apply (bind_map _ _ _ _ _ _ (hysteretic_projects N n V Q T (iwan_lfh s) U q h Nt E)). intros [s1 [[F J] dw]] [s2 [[F' J'] dw']] [S [A _]]. cbn [fst] in S. subst s2. split; [constructor|exact A].
  - unfold eldry_aft. apply (bind_map _ _ _ _ _ _ (jax_projects N n V (p * ne) Q T _ U q w h E)). intros [[F J] dw] [[F' J'] dw'] [A _]. split; [constructor|exact A].
  - apply (bind_map _ _ _ _ _ _ (rough_projects N n V r Q T s U q w h Nt 2 E)). intros [F o] [F' o'] A. split; [constructor|exact A].
  - unfold jax_jenkins_aft. apply (bind_map _ _ _ _ _ _ (jax_projects N n V 1 Q T _ U q w h E)). intros [[F J] dw] [[F' J'] dw'] [A _]. split; [constructor|exact A].
Qed.

(** * sums *)
Lemma projects_plus nb N n V F F' G G' : projects nb N n V F G -> projects nb N n V F' G' -> projects nb N n V (fun i => F i + F' i) (fun i => G i + G' i).
Proof. intros H H' c k Hc Hk. rewrite H, H' by assumption. rewrite <- rsum_plus. apply rsum_ext. intros; ring. Qed.
Lemma projects_minus nb N n V F F' G G' : projects nb N n V F G -> projects nb N n V F' G' -> projects nb N n V (fun i => F i - F' i) (fun i => G i - G' i).
Proof. intros H H' c k Hc Hk. rewrite H, H' by assumption. rewrite <- rsum_minus. apply rsum_ext. intros; ring. Qed.
Lemma jacobian_plus nb N n V A A' B B' : projects_jacobian nb N n V A B -> projects_jacobian nb N n V A' B' -> projects_jacobian nb N n V (madd A A') (madd B B').
Proof.
  intros H H' c k c' m Hc Hk Hc' Hm. unfold madd. rewrite H, H' by assumption. unfold congruent. rewrite <- rsum_plus. apply rsum_ext. intros i _. rewrite <- rsum_plus. apply rsum_ext. intros; ring.
Qed.

(** the product with expanded displacements *)
Lemma matvec_projects nb N n V A B X Y : projects_jacobian nb N n V A B -> expands nb N n V X Y -> projects nb N n V (matvec (nb * N) A Y) (matvec (nb * n) B X).
Proof.
  intros HA HX c k Hc Hk. unfold matvec. rewrite rsum_blocks.
  rewrite (rsum_ext N _ (fun i => rsum nb (fun c' => V i k * rsum N (fun j => A (c * N + i)%nat (c' * N + j)%nat * Y (c' * N + j)%nat)))).
  2:{ intros i Hi. rewrite rsum_blocks, <- rsum_scal_l. reflexivity. }
  rewrite (rsum_swap N nb). apply rsum_ext. intros c' Hc'.
  rewrite (rsum_ext n _ (fun m => rsum N (fun i => rsum N (fun j => V i k * A (c * N + i)%nat (c' * N + j)%nat * V j m * X (c' * n + m)%nat)))).
  2:{ intros m Hm. rewrite HA by assumption. unfold congruent. rewrite <- rsum_scal_r. apply rsum_ext. intros i _. rewrite <- rsum_scal_r. reflexivity. }
  rewrite rsum_swap. apply rsum_ext. intros i Hi. rewrite rsum_swap, <- rsum_scal_l. apply rsum_ext. intros j Hj. rewrite (HX c' j Hc' Hj), <- !rsum_scal_l. apply rsum_ext. intros; ring.
Qed.

(** * static residuals and call sequences *)
Lemma loop_same N n V l r U q F G J B : Forall2 (same_element N n V) l r -> expands 1 N n V q U -> both (projects 1 N n V) F G -> both (projects_jacobian 1 N n V) J B ->
  same_result (fun a b => both (projects 1 N n V) (fst a) (fst b) /\ both (projects_jacobian 1 N n V) (snd a) (snd b)) (element_loop N l U F J) (element_loop n r q G B).
Proof.
  intros H E. revert F G J B. induction H as [|e e' l l' He Hl IH]; intros F G J B HF HJ; cbn [element_loop]; [split; assumption|].
  apply (bind_map _ _ _ _ _ _ (element_force_same N n V e e' U q false He E)). intros [e1 [F1 J1]] [e2 [F2 J2]] [_ [A C]]. cbn [fst snd] in *.
  apply IH.
  - destruct F, G, F1, F2; cbn in *; try contradiction; try exact I. apply projects_plus; assumption.
  - destruct J, B, J1, J2; cbn in *; try contradiction; try exact I. apply jacobian_plus; assumption.
Qed.

Lemma congruent_jacobian N n V A : projects_jacobian 1 N n V A (congruent N V A).
Proof. intros c k c' m Hc Hk Hc' Hm. replace c with O by lia. replace c' with O by lia. reflexivity. Qed.

Lemma static_same N n V K l r U q F G : Forall2 (same_element N n V) l r -> expands 1 N n V q U -> projects 1 N n V F G ->
  same_result (fun a b => both (projects 1 N n V) (fst a) (fst b) /\ both (projects_jacobian 1 N n V) (snd a) (snd b))
    (sys_static_res N K l U F) (sys_static_res n (congruent N V K) r q G).
Proof.
  intros H E HF. unfold sys_static_res. apply (bind_map _ _ _ _ _ _ (loop_same N n V l r U q (Some vzero) (Some vzero) (Some mzero) (Some mzero) H E (zero_projects 1 N n V) (zero_jacobian 1 N n V))).
  intros [F1 J1] [F2 J2] [A B]. cbn [same_result fst snd] in *. split.
  - destruct F1, F2; cbn in *; try contradiction; try exact I. apply projects_minus; [|exact HF]. apply projects_plus; [|exact A].
    pose proof (matvec_projects 1 N n V K (congruent N V K) q U (congruent_jacobian N n V K) E) as M. rewrite !Nat.mul_1_l in M. exact M.
  - destruct J1, J2; cbn in *; try contradiction; try exact I. apply jacobian_plus; [apply congruent_jacobian|exact B].
Qed.

(** loops over the elements that stop at an exception *)
Lemma init_same N n V l r : Forall2 (same_element N n V) l r ->
  Forall2 (same_element N n V) (fst (init_force_history l)) (fst (init_force_history r)) /\ snd (init_force_history l) = snd (init_force_history r).
Proof.
  intros H. induction H as [|e e' l l' He Hl IH]; [split; [constructor|reflexivity]|]. cbn [init_force_history]. destruct (init_force_history l) as [l1 x1], (init_force_history l') as [l2 x2]. cbn [fst snd] in IH. destruct IH as [IH ->].
  destruct He; cbn [nl_force_type Nat.eqb el_init fst snd]; (split; [|reflexivity]); constructor; first [assumption | constructor; assumption | constructor].
Qed.

Lemma update_same N n V l r U q : Forall2 (same_element N n V) l r -> expands 1 N n V q U ->
  Forall2 (same_element N n V) (fst (update_force_history N l U)) (fst (update_force_history n r q)) /\ snd (update_force_history N l U) = snd (update_force_history n r q).
Proof.
  intros H E. induction H as [|e e' l l' He Hl IH]; [split; [constructor|reflexivity]|]. cbn [update_force_history].
  assert (T : nl_force_type e = nl_force_type e') by (destruct He; reflexivity). rewrite T. pose proof (element_force_same N n V e e' U q true He E) as F.
  destruct (update_force_history N l U) as [l1 x1], (update_force_history n l' q) as [l2 x2]. cbn [fst snd] in IH. destruct IH as [IH ->].
  destruct (Nat.eqb (nl_force_type e') 1).
  - destruct (element_force N e U true) as [[e1 o1]|y1], (element_force n e' q true) as [[e2 o2]|y2]; cbn in F; try contradiction.
    + split; [constructor; [exact (proj1 F)|exact IH]|reflexivity].
    + subst y2. split; [constructor; assumption|reflexivity].
  - split; [constructor; assumption|reflexivity].
Qed.

Lemma prestress_same N n V l r : Forall2 (same_element N n V) l r ->
  Forall2 (same_element N n V) (fst (prestress_all l)) (fst (prestress_all r)) /\ snd (prestress_all l) = snd (prestress_all r).
Proof.
  intros H. induction H as [|e e' l l' He Hl IH]; [split; [constructor|reflexivity]|]. cbn [prestress_all]. destruct (prestress_all l) as [l1 x1], (prestress_all l') as [l2 x2]. cbn [fst snd] in IH. destruct IH as [IH ->].
  destruct He; cbn [el_prestress rough_step fst snd]; (split; [|reflexivity]); constructor; first [assumption | constructor; assumption | constructor].
Qed.

Lemma reset_same N n V l r : Forall2 (same_element N n V) l r -> Forall2 (same_element N n V) (map el_reset l) (map el_reset r).
Proof.
  intros H. induction H as [|e e' l l' He Hl IH]; [constructor|]. cbn [map]. constructor; [|exact IH]. destruct He; cbn [el_reset rough_step]; constructor. assumption.
Qed.

Lemma aft_init_same N n V l r U q : Forall2 (same_element N n V) l r -> expands 1 N n V q U -> Forall2 (same_element N n V) (map (el_aft_init N U) l) (map (el_aft_init n q) r).
Proof.
  intros H E. induction H as [|e e' l l' He Hl IH]; [constructor|]. cbn [map]. constructor; [|exact IH]. destruct He; cbn [el_aft_init rough_step]; try (constructor; assumption); try constructor.
  - unfold ed_set_aft_initialize. rewrite (local_static N n V Q q U E). constructor.
  - rewrite (local_static N n V Q q U E). constructor.
Qed.

Lemma exec_same N n V l r a b : Forall2 (same_element N n V) l r -> same_call N n V a b ->
  Forall2 (same_element N n V) (fst (sys_exec N l a)) (fst (sys_exec n r b)) /\ snd (sys_exec N l a) = snd (sys_exec n r b).
Proof.
  intros H C. destruct a, b; cbn in C; try contradiction; cbn [sys_exec fst snd set_aft_initialize].
  - apply init_same, H.
  - apply update_same; assumption.
  - apply prestress_same, H.
  - split; [apply reset_same, H|reflexivity].
  - split; [apply aft_init_same; assumption|reflexivity].
  - split; [exact H|]. destruct C as [C D]. pose proof (static_same N n V mzero l r U U0 Fstatic Fstatic0 H C D) as E.
    assert (Z : congruent N V mzero = mzero). { extensionality k. extensionality m. unfold congruent, mzero. apply rsum_zero. intros. apply rsum_zero. intros; ring. }
    rewrite Z in E. destruct (sys_static_res N mzero l U Fstatic), (sys_static_res n mzero r U0 Fstatic0); cbn in E; try contradiction; [reflexivity|subst; reflexivity].
Qed.

Lemma run_same N n V l r cs ds : Forall2 (same_element N n V) l r -> Forall2 (same_call N n V) cs ds ->
  Forall2 (same_element N n V) (fst (sys_run N l cs)) (fst (sys_run n r ds)) /\ snd (sys_run N l cs) = snd (sys_run n r ds).
Proof.
  intros H C. revert l r H. induction C as [|a b cs ds Ca Cs IH]; intros l r H; cbn [sys_run]; [split; [exact H|reflexivity]|].
  destruct (exec_same N n V l r a b H Ca) as [A B]. destruct (sys_exec N l a) as [l1 x1], (sys_exec n r b) as [r1 y1]. cbn [fst snd] in A, B. subst y1.
  destruct (IH l1 r1 A) as [A1 B1]. destruct (sys_run N l1 cs) as [l2 x2], (sys_run n r1 ds) as [r2 y2]. cbn [fst snd] in *. subst y2. split; [exact A1|reflexivity].
Qed.

(** * harmonic residuals *)
Lemma block_read nd E a b (B : mat) c i c' j : (i < nd)%nat -> (j < nd)%nat ->
  set_block nd E (nd * a) (nd * b) B (c * nd + i)%nat (c' * nd + j)%nat = if (Nat.eqb c a && Nat.eqb c' b)%bool then B i j else E (c * nd + i)%nat (c' * nd + j)%nat.
Proof.
  intros Hi Hj. unfold set_block.
  assert (L : forall c i a, (i < nd)%nat -> (Nat.leb (nd * a) (c * nd + i) && Nat.ltb (c * nd + i) (nd * a + nd))%bool = Nat.eqb c a).
  { clear. intros c i a Hi. destruct (Nat.eqb_spec c a) as [->|Hne].
    - apply andb_true_intro. split; [apply Nat.leb_le|apply Nat.ltb_lt]; nia.
    - apply andb_false_iff. destruct (Nat.lt_ge_cases c a); [left; apply Nat.leb_gt; nia|right; apply Nat.ltb_ge; nia]. }
  rewrite (L c i a Hi), (L c' j b Hj). destruct (Nat.eqb_spec c a) as [->|], (Nat.eqb_spec c' b) as [->|]; cbn [andb]; try reflexivity. f_equal; lia.
Qed.

Lemma block_same nb N n V E D a b A B : projects_jacobian nb N n V E D -> (forall k m, (k < n)%nat -> (m < n)%nat -> B k m = congruent N V A k m) ->
  projects_jacobian nb N n V (set_block N E (N * a) (N * b) A) (set_block n D (n * a) (n * b) B).
Proof.
  intros H HB c k c' m Hc Hk Hc' Hm. rewrite block_read by assumption.
  destruct (Nat.eqb c a && Nat.eqb c' b)%bool eqn:T.
  - rewrite HB by assumption. unfold congruent. apply rsum_ext. intros i Hi. apply rsum_ext. intros j Hj. rewrite block_read by assumption. rewrite T. reflexivity.
  - rewrite H by assumption. unfold congruent. apply rsum_ext. intros i Hi. apply rsum_ext. intros j Hj. rewrite block_read by assumption. rewrite T. reflexivity.
Qed.

Lemma congruent_scal N V a A k m : a * congruent N V A k m = congruent N V (fun i j => a * A i j) k m.
Proof. unfold congruent. rewrite <- rsum_scal_l. apply rsum_ext. intros i _. rewrite <- rsum_scal_l. apply rsum_ext. intros; ring. Qed.
Lemma congruent_plus N V A B k m : congruent N V A k m + congruent N V B k m = congruent N V (fun i j => A i j + B i j) k m.
Proof. unfold congruent. rewrite <- rsum_plus. apply rsum_ext. intros i _. rewrite <- rsum_plus. apply rsum_ext. intros; ring. Qed.

Lemma stiffness_projects nb N n V M C K w h cg oc :
  same_result (fun a b => projects_jacobian nb N n V (fst a) (fst b) /\ both (projects_jacobian nb N n V) (snd a) (snd b))
    (harmonic_stiffness N M C K w h cg oc) (harmonic_stiffness n (congruent N V M) (congruent N V C) (congruent N V K) w h cg oc).
Proof.
  unfold harmonic_stiffness. apply same_result_refl_bind. intros _. destruct h as [|h0 h']; [reflexivity|]. set (h := h0 :: h'). cbv zeta.
  assert (S : forall l E D, projects_jacobian nb N n V E D ->
    projects_jacobian nb N n V (fold_left (hs_step N M C K w h oc) l E) (fold_left (hs_step n (congruent N V M) (congruent N V C) (congruent N V K) w h oc) l D)).
  { induction l as [|p l IH]; intros E D H; cbn [fold_left]; [exact H|]. apply IH. unfold hs_step. cbv zeta.
    assert (H2 : projects_jacobian nb N n V
      (set_block N (set_block N E (N * (p * 2 - zi h)) (N * (p * 2 - zi h + 1)) (mscal (1 * INR (nth p h O) * w) C)) (N * (p * 2 - zi h + 1)) (N * (p * 2 - zi h)) (mscal (-1 * INR (nth p h O) * w) C))
      (set_block n (set_block n D (n * (p * 2 - zi h)) (n * (p * 2 - zi h + 1)) (mscal (1 * INR (nth p h O) * w) (congruent N V C))) (n * (p * 2 - zi h + 1)) (n * (p * 2 - zi h)) (mscal (-1 * INR (nth p h O) * w) (congruent N V C)))).
    { apply block_same; [apply block_same; [exact H|]|]; intros; apply congruent_scal. }
    destruct oc; [exact H2|].
    assert (HD : forall k m : nat, (k < n)%nat -> (m < n)%nat ->
      congruent N V K k m + -1 * (INR (nth p h O) * w) ^ 2 * congruent N V M k m = congruent N V (fun i j => K i j + -1 * (INR (nth p h O) * w) ^ 2 * M i j) k m).
    { intros. rewrite congruent_scal, congruent_plus. reflexivity. }
    apply block_same; [apply block_same; [exact H2|]|]; exact HD. }
  assert (S' : forall l E D, projects_jacobian nb N n V E D ->
    projects_jacobian nb N n V (fold_left (hs_dstep N M C w h oc) l E) (fold_left (hs_dstep n (congruent N V M) (congruent N V C) w h oc) l D)).
  { induction l as [|p l IH]; intros E D H; cbn [fold_left]; [exact H|]. apply IH. unfold hs_dstep. cbv zeta.
    destruct oc; repeat (apply block_same; [|intros; apply congruent_scal]); exact H. }
  assert (Z : projects_jacobian nb N n V mzero mzero) by apply zero_jacobian.
  assert (Z0 : projects_jacobian nb N n V (if (Nat.eqb (zi h) 1 && negb oc)%bool then set_block N mzero 0 0 K else mzero) (if (Nat.eqb (zi h) 1 && negb oc)%bool then set_block n mzero 0 0 (congruent N V K) else mzero)).
  { destruct (Nat.eqb (zi h) 1 && negb oc)%bool; [|exact Z]. pose proof (block_same nb N n V mzero mzero 0 0 K (congruent N V K) Z (fun _ _ _ _ => eq_refl)) as B. rewrite !Nat.mul_0_r in B. exact B. }
  destruct cg; cbn [same_result fst snd both]; split; try (apply S; exact Z0); [apply S'; exact Z|exact I].
Qed.

Lemma sys_aft_same N n V l r U q w h Nt F G : Forall2 (same_element N n V) l r -> same_local N n V U q -> both (projects (aft_Nhc h) N n V) F G ->
  Forall2 (same_element N n V) (fst (sys_aft N l U w h Nt F)) (fst (sys_aft n r q w h Nt G)) /\
  same_result (both (projects (aft_Nhc h) N n V)) (snd (sys_aft N l U w h Nt F)) (snd (sys_aft n r q w h Nt G)).
Proof.
  intros H E. revert F G. induction H as [|e e' l l' He Hl IH]; intros F G HF; cbn [sys_aft]; [split; [constructor|exact HF]|].
  pose proof (element_aft_same N n V e e' U q w h Nt He E) as A.
  destruct (element_aft N e U w h Nt) as [[e1 F1]|x1], (element_aft n e' q w h Nt) as [[e2 F2]|x2]; cbn in A; try contradiction.
  - destruct A as [A1 A2]. assert (HF' : both (projects (aft_Nhc h) N n V) (oadd F F1) (oadd G F2)).
    { destruct F, G, F1, F2; cbn in *; try contradiction; try exact I. apply projects_plus; assumption. }
    destruct (IH _ _ HF') as [B1 B2]. destruct (sys_aft N l U w h Nt (oadd F F1)) as [l1 r1], (sys_aft n l' q w h Nt (oadd G F2)) as [l2 r2]. cbn [fst snd] in *. split; [constructor; assumption|exact B2].
  - subst x2. split; [constructor; assumption|reflexivity].
Qed.

Lemma harmonic_same N n V M C K l r X Y F G h Nt : let nb := aft_Nhc h in
  Forall2 (same_element N n V) l r -> expands nb N n V X Y -> Y (nb * N)%nat = X (nb * n)%nat -> projects nb N n V F G ->
  let a := sys_hbm_res N M C K l Y F h Nt in let b := sys_hbm_res n (congruent N V M) (congruent N V C) (congruent N V K) r X G h Nt in
  Forall2 (same_element N n V) (fst a) (fst b) /\ same_result (both (projects nb N n V)) (snd a) (snd b).
Proof.
  cbv zeta. intros H E W HF. unfold sys_hbm_res. cbv zeta. rewrite W.
  pose proof (stiffness_projects (aft_Nhc h) N n V M C K (X (aft_Nhc h * n)%nat) h true false) as S.
  destruct (harmonic_stiffness N M C K _ h true false) as [[E1 d1]|x1], (harmonic_stiffness n _ _ _ _ h true false) as [[E2 d2]|x2]; cbn in S; try contradiction.
  - destruct S as [S _]. destruct (sys_aft_same N n V l r _ _ (X (aft_Nhc h * n)%nat) h Nt (Some vzero) (Some vzero) H (local_harmonic (aft_Nhc h) N n V X Y E) (zero_projects _ N n V)) as [A B].
    destruct (sys_aft N l _ _ h Nt _) as [l1 r1], (sys_aft n r _ _ h Nt _) as [l2 r2]. cbn [fst snd] in *. split; [exact A|].
    apply (bind_map _ _ _ _ _ _ B). intros [F1|] [F2|] P; cbn in P; try contradiction; [|exact I]. cbn [same_result both].
    apply projects_minus; [|exact HF]. apply projects_plus; [|exact P]. apply matvec_projects; assumption.
  - subst x2. split; [exact H|reflexivity].
Qed.

(** * residuals with Jacobians *)
Definition related_grad (nb N n : nat) (V : mat) (a b : mat * vec) : Prop := projects_jacobian nb N n V (fst a) (fst b) /\ projects nb N n V (snd a) (snd b).

Lemma aft_loop_same N n V fs gs U q w h Nt a b : Forall2 (same_class N n V) fs gs -> same_local N n V U q -> related3 (aft_Nhc h) N n V a b ->
  same_result (related3 (aft_Nhc h) N n V) (aft_loop fs U w h Nt a) (aft_loop gs q w h Nt b).
Proof.
  intros H E. revert a b. induction H as [|f g fs gs Hf Hfs IH]; intros a b Ha; cbn [aft_loop]; [exact Ha|].
  apply (bind_map _ _ _ _ _ _ (class_aft N n V f g U q w h Nt Hf E)). intros [[F J] d] [[F' J'] d'] [A [B C]]. cbn [fst snd] in *. destruct Ha as [Ha [Hb Hc]]. apply IH.
  split; [apply projects_plus; assumption|split; [apply jacobian_plus; assumption|apply projects_plus; assumption]].
Qed.

Lemma aft_loop_F_same N n V fs gs U q w h Nt a b : Forall2 (same_class N n V) fs gs -> same_local N n V U q -> projects (aft_Nhc h) N n V a b ->
  same_result (projects (aft_Nhc h) N n V) (aft_loop_F fs U w h Nt a) (aft_loop_F gs q w h Nt b).
Proof.
  intros H E. revert a b. induction H as [|f g fs gs Hf Hfs IH]; intros a b Ha; cbn [aft_loop_F]; [exact Ha|].
  apply (bind_map _ _ _ _ _ _ (class_aft_F N n V f g U q w h Nt Hf E)). intros F F' A. apply IH. apply projects_plus; assumption.
Qed.

Lemma total_aft_same N n V s r U q w h Nt cg : same_system N n V s r -> same_local N n V U q ->
  same_result (fun a b => projects (aft_Nhc h) N n V (fst a) (fst b) /\ both (related_grad (aft_Nhc h) N n V) (snd a) (snd b)) (total_aft s U w h Nt cg) (total_aft r q w h Nt cg).
Proof.
  intros [_ [_ [_ [_ [_ H]]]]] E. unfold total_aft. apply same_result_refl_bind. intros _. destruct cg.
  - apply (bind_map _ _ _ _ _ _ (aft_loop_same N n V (vs_forces s) (vs_forces r) U q w h Nt (vzero, mzero, vzero) (vzero, mzero, vzero) H E (conj (zero_projects _ N n V) (conj (zero_jacobian _ N n V) (zero_projects _ N n V))))).
    intros [[F J] d] [[F' J'] d'] [A [B C]]. cbn [same_result both fst snd] in *. split; [exact A|split; [exact B|exact C]].
  - apply (bind_map _ _ _ _ _ _ (aft_loop_F_same N n V (vs_forces s) (vs_forces r) U q w h Nt vzero vzero H E (zero_projects _ N n V))).
    intros F F' A. split; [exact A|exact I].
Qed.

Lemma hbm_same N n V s r X Y F G h Nt cg : let nb := aft_Nhc h in
  same_system N n V s r -> expands nb N n V X Y -> Y (nb * N)%nat = X (nb * n)%nat -> projects nb N n V F G ->
  same_result (fun a b => projects nb N n V (fst a) (fst b) /\ both (fun A B => projects_jacobian nb N n V (fst A) (fst B) /\ projects nb N n V (snd A) (snd B)) (snd a) (snd b))
    (hbm_res s Y F h Nt cg) (hbm_res r X G h Nt cg).
Proof.
  cbv zeta. intros HS E W HF. pose proof HS as [HN [Hn [HM [HC [HK _]]]]]. unfold hbm_res. cbv zeta. rewrite HN, Hn, HM, HC, HK, W.
  apply (bind_map _ _ _ _ _ _ (stiffness_projects (aft_Nhc h) N n V (vs_M s) (vs_C s) (vs_K s) (X (aft_Nhc h * n)%nat) h cg false)). intros [E1 d1] [E2 d2] [SE Sd]. cbn [fst snd] in *.
  apply (bind_map _ _ _ _ _ _ (total_aft_same N n V s r _ _ (X (aft_Nhc h * n)%nat) h Nt cg HS (local_harmonic (aft_Nhc h) N n V X Y E))). intros [F1 g1] [F2 g2] [AF Ag]. cbn [fst snd] in *.
  assert (P : projects (aft_Nhc h) N n V (fun i => matvec (aft_Nhc h * N) E1 Y i + F1 i - F i) (fun i => matvec (aft_Nhc h * n) E2 X i + F2 i - G i)).
  { apply projects_minus; [|exact HF]. apply projects_plus; [|exact AF]. apply matvec_projects; assumption. }
  destruct d1 as [d1|], d2 as [d2|], g1 as [[J1 w1]|], g2 as [[J2 w2]|]; cbn in Sd, Ag; try contradiction; cbn [same_result fst snd both]; (split; [exact P|]); try exact I.
  destruct Ag as [AJ Aw]. split; [apply jacobian_plus; assumption|]. apply projects_plus; [apply matvec_projects; assumption|exact Aw].
Qed.

(** * nonlinear modes *)
Lemma clear_from_same nb N n V h F G : projects nb N n V F G -> projects nb N n V (clear_from (zi h * N) F) (clear_from (zi h * n) G).
Proof.
  intros H c k Hc Hk. unfold clear_from. destruct (Nat.ltb_spec (c * n + k) (zi h * n)) as [L|L].
  - rewrite H by assumption. apply rsum_ext. intros i Hi. destruct (Nat.ltb_spec (c * N + i) (zi h * N)); [reflexivity|]. exfalso. assert (c < zi h)%nat by nia. nia.
  - rewrite rsum_zero; [reflexivity|]. intros i Hi. destruct (Nat.ltb_spec (c * N + i) (zi h * N)); [exfalso; assert (c < zi h)%nat by nia; nia|ring].
Qed.
Lemma clear_to_same nb N n V h F G : projects nb N n V F G -> projects nb N n V (clear_to (zi h * N) F) (clear_to (zi h * n) G).
Proof.
  intros H c k Hc Hk. unfold clear_to. destruct (Nat.ltb_spec (c * n + k) (zi h * n)) as [L|L].
  - rewrite rsum_zero; [reflexivity|]. intros i Hi. destruct (Nat.ltb_spec (c * N + i) (zi h * N)); [ring|exfalso; assert (c < zi h)%nat by nia; nia].
  - rewrite H by assumption. apply rsum_ext. intros i Hi. destruct (Nat.ltb_spec (c * N + i) (zi h * N)); [exfalso; assert (c < zi h)%nat by nia; nia|reflexivity].
Qed.

Lemma expands_scaled nb N n V h A X Y : expands nb N n V X Y -> expands nb N n V (fun i => epmc_ascale n h A i * X i) (fun i => epmc_ascale N h A i * Y i).
Proof.
  intros H c i Hc Hi. rewrite H by assumption. rewrite <- rsum_scal_l. apply rsum_ext. intros k Hk. unfold epmc_ascale.
  destruct (Nat.ltb_spec (c * N + i) (zi h * N)), (Nat.ltb_spec (c * n + k) (zi h * n)); try ring; exfalso; [assert (c < zi h)%nat by nia; nia|assert (c < zi h)%nat by nia; nia].
Qed.

(** u'Mu = q'(V'MV)q and f'u = (V'f)'q *)
Lemma dot_expand N n V (f x : vec) : dot N f (fun i => rsum n (fun k => V i k * x k)) = dot n (fun k => rsum N (fun i => V i k * f i)) x.
Proof.
  unfold dot. rewrite (rsum_ext N _ (fun i => rsum n (fun k => f i * (V i k * x k)))) by (intros; rewrite <- rsum_scal_l; reflexivity).
  rewrite rsum_swap. apply rsum_ext. intros k _. rewrite <- rsum_scal_r. apply rsum_ext. intros; ring.
Qed.

Lemma mass_same N n V M (x : vec) : let u := fun i => rsum n (fun k => V i k * x k) in dot N u (matvec N M u) = dot n x (matvec n (congruent N V M) x).
Proof.
  cbv zeta. rewrite dot_comm, dot_expand, dot_comm. unfold dot. apply rsum_ext. intros k Hk. f_equal. unfold matvec, congruent.
  rewrite (rsum_ext n _ (fun m => rsum N (fun i => rsum N (fun j => V i k * M i j * V j m * x m)))).
  2:{ intros m _. rewrite <- rsum_scal_r. apply rsum_ext. intros i _. rewrite <- rsum_scal_r. reflexivity. }
  rewrite rsum_swap. apply rsum_ext. intros i _. rewrite rsum_swap, <- rsum_scal_l. apply rsum_ext. intros j _. rewrite <- !rsum_scal_l. apply rsum_ext. intros; ring.
Qed.

Lemma dot_projects nb N n V F G X Y : expands nb N n V X Y -> projects nb N n V F G -> dot (nb * N) F Y = dot (nb * n) G X.
Proof.
  intros HX HF. unfold dot. rewrite !rsum_blocks. apply rsum_ext. intros c Hc.
  rewrite (rsum_ext N _ (fun i => F (c * N + i)%nat * rsum n (fun k => V i k * X (c * n + k)%nat))) by (intros i Hi; rewrite (HX c i Hc Hi); reflexivity).
  pose proof (dot_expand N n V (fun i => F (c * N + i)%nat) (fun k => X (c * n + k)%nat)) as D. unfold dot in D. rewrite D. apply rsum_ext. intros k Hk. rewrite (HF c k Hc Hk). reflexivity.
Qed.

Lemma damped_congruent N V C M (xi : R) : (fun k m => congruent N V C k m - xi * congruent N V M k m) = congruent N V (fun i j => C i j - xi * M i j).
Proof.
  extensionality k. extensionality m. unfold congruent. rewrite <- rsum_scal_l, <- rsum_minus. apply rsum_ext. intros i _. rewrite <- rsum_scal_l, <- rsum_minus. apply rsum_ext. intros; ring.
Qed.

Lemma epmc_same N n V s r X Y F G h Nt cg : let nb := aft_Nhc h in (zi h + 2 <= nb)%nat ->
  same_system N n V s r -> expands nb N n V X Y -> (forall i, (i < 3)%nat -> Y (nb * N + i)%nat = X (nb * n + i)%nat) -> projects nb N n V F G ->
  same_result (fun a b => projects nb N n V (fst a) (fst b) /\ forall i, (i < 2)%nat -> fst a (nb * N + i)%nat = fst b (nb * n + i)%nat) (epmc_res s Y F h Nt cg) (epmc_res r X G h Nt cg).
Proof.
  cbv zeta. intros H2 HS E W HF. pose proof HS as [HN [Hn [HM [HC [HK _]]]]]. unfold epmc_res. destruct h as [|h0 h']; [reflexivity|]. set (h := h0 :: h') in *. set (nb := aft_Nhc h) in *. cbv zeta. fold nb. rewrite HN, Hn, HM, HC, HK.
  apply same_result_refl_bind. intros _.
  pose proof (W 0%nat ltac:(lia)) as W0. pose proof (W 1%nat ltac:(lia)) as W1. pose proof (W 2%nat ltac:(lia)) as W2. rewrite !Nat.add_0_r in W0. rewrite W0, W1, W2.
  set (w := X (nb * n)%nat). set (xi := X (nb * n + 1)%nat). set (A := Rpower 10 (X (nb * n + 2)%nat)). clearbody w xi A.
  pose proof (damped_congruent N V (vs_C s) (vs_M s) xi) as DC.
  pose proof (stiffness_projects nb N n V (vs_M s) (fun i j => vs_C s i j - xi * vs_M s i j) (vs_K s) w h cg false) as S. rewrite <- DC in S.
  pose proof (expands_scaled nb N n V h A X Y E) as EA.
  apply (bind_map _ _ _ _ _ _ S). intros [E1 d1] [E2 d2] [SE Sd]. cbn [fst snd] in *.
  apply (bind_map _ _ _ _ _ _ (total_aft_same N n V s r _ _ w h Nt cg HS (local_harmonic nb N n V _ _ EA))). intros [F1 g1] [F2 g2] [AF Ag]. cbn [fst snd] in *. fold nb in AF, Ag.
  assert (Hu : forall c, (c < nb)%nat -> forall M, dot N (fun i => Y (c * N + i)%nat) (matvec N M (fun i => Y (c * N + i)%nat)) = dot n (fun k => X (c * n + k)%nat) (matvec n (congruent N V M) (fun k => X (c * n + k)%nat))).
  { intros c Hc M. rewrite <- mass_same. apply dot_ext; intros i Hi.
    - exact (E c i Hc Hi).
    - apply matvec_ext. intros j Hj. exact (E c j Hc Hj). }
  assert (P : projects nb N n V (fun i => matvec (nb * N) E1 (fun i => epmc_ascale N h A i * Y i) i + F1 i - clear_from (zi h * N) F i) (fun i => matvec (nb * n) E2 (fun i => epmc_ascale n h A i * X i) i + F2 i - clear_from (zi h * n) G i)).
  { apply projects_minus; [|apply clear_from_same; exact HF]. apply projects_plus; [|exact AF]. apply matvec_projects; assumption. }
  match goal with |- same_result ?PP (match _ with Some _ => _ | None => Ok (?R1, _) end) (match _ with Some _ => _ | None => Ok (?R2, _) end) =>
    set (RY := R1); set (RX := R2); assert (PR : projects nb N n V RY RX /\ forall i, (i < 2)%nat -> RY (nb * N + i)%nat = RX (nb * n + i)%nat) end.
  { split.
    - intros c k Hc Hk. unfold RX. destruct (Nat.ltb_spec (c * n + k) (nb * n)); [|nia]. rewrite (P c k Hc Hk). apply rsum_ext. intros i Hi. unfold RY. destruct (Nat.ltb_spec (c * N + i) (nb * N)); [reflexivity|nia].
    - intros i Hi. unfold RY, RX. destruct (Nat.ltb_spec (nb * N + i) (nb * N)); [lia|]. destruct (Nat.ltb_spec (nb * n + i) (nb * n)); [lia|].
      destruct (Nat.eqb_spec (nb * N + i) (nb * N)), (Nat.eqb_spec (nb * n + i) (nb * n)); try lia.
      + rewrite (Hu (zi h) ltac:(lia) (vs_M s)), (Hu (zi h + 1)%nat ltac:(lia) (vs_M s)). reflexivity.
      + apply (dot_projects nb N n V); [exact E|apply clear_to_same; exact HF]. }
  clearbody RY RX.
  destruct d1 as [d1|], d2 as [d2|], g1 as [[J1 w1]|], g2 as [[J2 w2]|]; cbn in Sd, Ag; try contradiction; try exact PR.
  assert (Z : harmonic_stiffness n mzero (fun i j => - congruent N V (vs_M s) i j) mzero w h false true = harmonic_stiffness n (congruent N V mzero) (congruent N V (fun i j => - vs_M s i j)) (congruent N V mzero) w h false true).
  { assert (Z0 : congruent N V mzero = mzero). { extensionality k. extensionality m. unfold congruent, mzero. apply rsum_zero. intros. apply rsum_zero. intros; ring. }
    rewrite Z0. f_equal. extensionality k. extensionality m. unfold congruent. rewrite <- rsum_opp. apply rsum_ext. intros i _. rewrite <- rsum_opp. apply rsum_ext. intros; ring. }
  rewrite Z. apply (bind_map _ _ _ _ _ _ (stiffness_projects nb N n V mzero (fun i j => - vs_M s i j) mzero w h false true)). intros [D1 q1] [D2 q2] _. exact PR.
Qed.

(** * solutions *)
(** coordinates that describe every displacement: V W = 1 *)
Lemma project_zero nb N n V W F G : (forall i j, (i < N)%nat -> (j < N)%nat -> rsum n (fun k => V i k * W k j) = if Nat.eqb i j then 1 else 0) -> projects nb N n V F G ->
  ((forall r, (r < nb * N)%nat -> F r = 0) <-> (forall r, (r < nb * n)%nat -> G r = 0)).
Proof.
  intros HW H. split; intros Z r Hr.
  - destruct (block_form nb n r Hr) as [c [k [Hc [Hk ->]]]]. rewrite (H c k Hc Hk). apply rsum_zero. intros i Hi. rewrite Z by nia. ring.
  - destruct (block_form nb N r Hr) as [c [j [Hc [Hj ->]]]].
    transitivity (rsum n (fun k => W k j * G (c * n + k)%nat)); [|apply rsum_zero; intros k Hk; rewrite Z by nia; ring].
    rewrite (rsum_ext n _ (fun k => rsum N (fun i => W k j * (V i k * F (c * N + i)%nat)))) by (intros k Hk; rewrite (H c k Hc Hk), <- rsum_scal_l; reflexivity).
    rewrite rsum_swap, (rsum_single N j _ Hj).
    + rewrite (rsum_ext n _ (fun k => V j k * W k j * F (c * N + j)%nat)) by (intros; ring). rewrite rsum_scal_r, (HW j j Hj Hj), Nat.eqb_refl. ring.
    + intros i Hi Hne. rewrite (rsum_ext n _ (fun k => V i k * W k j * F (c * N + i)%nat)) by (intros; ring). rewrite rsum_scal_r, (HW i j Hi Hj). destruct (Nat.eqb_spec i j); [lia|ring].
Qed.
