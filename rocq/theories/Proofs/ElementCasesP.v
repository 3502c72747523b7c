(** Concrete cases for the theorems on harmonic operations and nonlinear elements. *)
From Coq Require Import Reals Lra Lia Arith List Bool ZArith.
From Verif.Lib Require Import RSum Py.
From Verif.Spec Require Import Calculus Harmonic Elements Slider JenkinsCalls EldryCalls.
From Verif.Model Require Import Jenkins JenkinsOps LocalForces Aft Harmonic JaxDual JaxFriction.
From Verif.Proofs Require Import HarmonicP SliderP.
Import ListNotations.
Open Scope R_scope.

Lemma floor_is x k : IZR k <= x < IZR k + 1 -> Rfloor x = k.
Proof. intros [H1 H2]. unfold Rfloor. rewrite <- (tech_up x (k + 1)); [lia|rewrite plus_IZR; lra|rewrite plus_IZR; lra]. Qed.
Lemma shift_case : shift_pm_pi (- PI) = - PI /\ shift_pm_pi (1 - PI) = 0.
Proof. unfold shift_pm_pi, fmod. rewrite !(floor_is _ 0); [|lra|lra]. split; ring. Qed.
Lemma crossing_case : let X := fun i => INR i - 3 / 2 in zero_crossing 3 X None 1 = true /\ zero_crossing 3 X (Some (1 / 4)) 1 = false /\ zero_crossing 3 X None 0 = false.
Proof.
  intros X. unfold zero_crossing, X. cbn [Nat.ltb Nat.leb INR andb]. repeat split.
  - apply Rltb_true. lra.
  - replace (Rltb (Rabs (1 - 3 / 2)) (1 / 4)) with false; [reflexivity|]. symmetry. apply Rltb_false. rewrite Rabs_left; lra.
  - apply Rltb_false. lra.
Qed.
Lemma instant_case : 0 <= 2 /\ 3 <> 1 /\ law_f (unilateral_history (fun _ => 2) (fun _ => 1) (fun _ => 1)) 0 3 5 = 3 /\
  (0 < 1 /\ -1 < 0 /\ 0 <= 1 /\ macroslip 1 1 0 1 = 4 / 3 /\ Rabs 1 <> macroslip 1 1 0 1).
Proof.
  assert (M : macroslip 1 1 0 1 = 4 / 3) by (unfold macroslip; field). rewrite M, Rabs_R1. repeat split; try lra. cbn -[Rmax]. rewrite Rmax_left; lra.
Qed.
Lemma contact_case : let Q : mat := fun d j => if Nat.eqb d j then 1 else 0 in let X : vec := fun i => match i with O => 3 | _ => 0 end in
  (forall d, (d < 2)%nat -> 0 <= 2) /\ (forall d, (d < 2)%nat -> rsum 2 (fun j => Q d j * X j) <> 1) /\
  fst (unilateral_force 2 2 Q Q (fun _ => 2) (fun _ => 1) (fun _ => 1) X) 0%nat = 3 /\ fst (unilateral_force 2 2 Q Q (fun _ => 2) (fun _ => 1) (fun _ => 1) X) 1%nat = -1.
Proof.
  intros Q X. split; [intros; lra|]. split; [intros d Hd; destruct d as [|[|d]]; [| |lia]; cbn; lra|]. cbn -[Rmax]. repeat split; repeat (match goal with |- context [Rmax ?a ?b] => first [rewrite (Rmax_left a b) by lra | rewrite (Rmax_right a b) by lra] end); lra.
Qed.
Lemma two_cycles_case : let u := repeat_samples 2 (fun k => match k with O => 0 | _ => 5 end) in
  jenkins_law 1 1 u 0 0 = 0 /\ jenkins_law 1 1 u 0 2 = -1 /\ jenkins_law 1 1 u 0 4 = -1 /\ jenkins_law 1 1 u 0 3 = 1.
Proof.
  intros u. set (f := jenkins_law 1 1 u 0).
  assert (S0 : f 0%nat = 0) by (unfold f, jenkins_law; cbn; unfold Slider.clamp; rewrite Rmin_right, Rmax_right by lra; ring).
  assert (St : forall k, f (S k) = Slider.clamp (-1) 1 (f k + 1 * (u (S k) - u k))) by reflexivity.
  assert (C1 : forall x, 1 <= x -> Slider.clamp (-1) 1 x = 1) by (intros x Hx; unfold Slider.clamp; rewrite Rmin_left, Rmax_right by lra; reflexivity).
  assert (C2 : forall x, x <= -1 -> Slider.clamp (-1) 1 x = -1) by (intros x Hx; unfold Slider.clamp; rewrite Rmin_right, Rmax_left by lra; reflexivity).
  assert (S1 : f 1%nat = 1) by (rewrite St, S0; apply C1; cbn; lra). assert (S2 : f 2%nat = -1) by (rewrite St, S1; apply C2; cbn; lra).
  assert (S3 : f 3%nat = 1) by (rewrite St, S2; apply C1; cbn; lra). assert (S4 : f 4%nat = -1) by (rewrite St, S3; apply C2; cbn; lra). auto.
Qed.

Lemma law_slide up fp u : 1 < u - up + fp -> j_law 1 1 up fp u = (1, 0, 0, 0).
Proof. intros H. unfold j_law. cbv zeta. rewrite (proj2 (Rltb_true _ _)) by (rewrite Rabs_right; lra). unfold Rsign. destruct (Rlt_dec 0 _); [|lra]. f_equal. f_equal. f_equal. ring. Qed.
Lemma law_back up fp u : u - up + fp < -1 -> j_law 1 1 up fp u = (-1, 0, 0, 0).
Proof.
  intros H. unfold j_law. cbv zeta. rewrite (proj2 (Rltb_true _ _)) by (rewrite Rabs_left; lra). unfold Rsign. destruct (Rlt_dec 0 _); [lra|]. destruct (Rlt_dec _ 0); [|lra]. f_equal. f_equal. f_equal. ring.
Qed.
Lemma law_stick up fp u : -1 <= u - up + fp <= 1 -> j_law 1 1 up fp u = (1 * (u - up) + fp, 1, - (1), 1).
Proof. intros H. unfold j_law. cbv zeta. rewrite (proj2 (Rltb_false _ _)); [reflexivity|]. apply Rabs_le. lra. Qed.
Ltac law := repeat (first [rewrite law_slide by lra|rewrite law_back by lra|rewrite law_stick by lra]; cbn -[j_law]).
Lemma switch_case : let before := [CInitHistory; CForce 5 true] in let after := [CInitHistory; CForce 7 true; CForce (-7) true] in
  0 <= 1 /\ forallb (fun c => negb (is_switch c)) before = true /\ forallb (fun c => negb (is_switch c)) after = true /\
  map forces_of (snd (jcalls_exec (j_new 1 1) (before ++ after))) = [[]; [1]; []; [1]; [-1]].
Proof. split; [lra|]. split; [reflexivity|]. split; [reflexivity|]. cbn -[j_law]. law. reflexivity. Qed.
Lemma init_case : let before := [CInitHistory; CForce 5 true] in let after := [CForce (- (1 / 2)) true; CForce 7 false] in
  0 <= 1 /\ forallb (fun c => negb (is_switch c)) before = true /\ forallb static_call after = true /\
  map forces_of (snd (jcalls_exec (j_new 1 1) (CInitHistory :: after))) = [[]; [- (1 / 2)]; [1]] /\
  map forces_of (snd (jcalls_exec (j_new 1 1) (before ++ after))) = [[]; [1]; [-1]; [1]].
Proof. split; [lra|]. split; [reflexivity|]. split; [reflexivity|]. split; cbn -[j_law]; law; [|reflexivity]. repeat f_equal. lra. Qed.
Lemma looking_case : let X : vec := fun i => match i with O => 3 | _ => 1 / 2 end in
  (0 < 2)%nat /\ 0 <= 4 /\ 0 <= 1 / 2 /\ normal_dof 2 1 = 1%nat /\ contact_force 4 0 (X 1%nat) = 2 /\
  (forall c, In c [EDForce X false; EDForce vzero false] -> exists Z, c = EDForce Z false).
Proof.
  intros X. split; [lia|]. split; [lra|]. split; [lra|]. split; [reflexivity|]. split; [unfold contact_force, X; destruct (Rlt_dec 0 (1 / 2)); lra|].
  intros c [<-|[<-|[]]]; eexists; reflexivity.
Qed.
