(** Jenkins element: the model follows the slider specification. *)
From Coq Require Import Reals Lra Lia Arith List Bool.
From Verif.Lib Require Import RSum Py.
From Verif.Spec Require Import Slider JenkinsCalls.
From Verif.Model Require Import Jenkins.
From Verif.Proofs Require Import SliderP.
Import ListNotations.
Open Scope R_scope.

Lemma Rsign_pos x : 0 < x -> Rsign x = 1.
Proof. intros; unfold Rsign; destruct (Rlt_dec 0 x); lra. Qed.
Lemma Rsign_neg x : x < 0 -> Rsign x = -1.
Proof. intros; unfold Rsign; destruct (Rlt_dec 0 x); [lra|]; destruct (Rlt_dec x 0); lra. Qed.
Lemma Rsign_0 : Rsign 0 = 0.
Proof. unfold Rsign; destruct (Rlt_dec 0 0); [lra|]; destruct (Rlt_dec 0 0); lra. Qed.

Lemma slip_sign Fs f : 0 <= Fs -> Fs < Rabs f -> Rsign f * Fs = clamp (- Fs) Fs f.
Proof.
  intros H0 H. unfold Rabs in H. destruct (Rcase_abs f) as [Hn|Hp].
  - rewrite Rsign_neg by lra. minmax.
  - rewrite Rsign_pos by lra. minmax.
Qed.

Lemma stick_clamp Fs f : Rabs f <= Fs -> clamp (- Fs) Fs f = f.
Proof.
  intros H. apply clamp_id. unfold Rabs in H. destruct (Rcase_abs f); lra.
Qed.

Lemma j_law_clamp kt Fs up fp u :
  0 <= Fs -> j_f (j_law kt Fs up fp u) = clamp (- Fs) Fs (kt * (u - up) + fp).
Proof.
  intros H0. unfold j_law.
  destruct (Rltb Fs (Rabs (kt * (u - up) + fp))) eqn:E.
  - apply Rltb_true in E. simpl. apply slip_sign; assumption.
  - apply Rltb_false in E. simpl. symmetry. apply stick_clamp. exact E.
Qed.

(** forces of one pass started with displacement [um] and force [x] *)
Fixpoint jforces (kt Fs um x : R) (us : list R) : list R :=
  match us with
  | [] => []
  | u :: us' => let f := clamp (- Fs) Fs (kt * (u - um) + x) in f :: jforces kt Fs u f us'
  end.

(** derivatives of one pass, following stick (Rabs trial <= Fs) and slip *)
Fixpoint jderivs (kt Fs um x : R) (dum dx : vec) (l : list (R * vec)) : list vec :=
  match l with
  | [] => []
  | (u, c) :: l' =>
      let f := clamp (- Fs) Fs (kt * (u - um) + x) in
      let d := if Rltb Fs (Rabs (kt * (u - um) + x)) then (fun i => 0 * c i + 0 * dum i + 0 * dx i)
               else (fun i => kt * c i + - kt * dum i + 1 * dx i) in
      d :: jderivs kt Fs u f c d l'
  end.

Definition same_params (s s' : jenkins) : Prop :=
  j_kt s' = j_kt s /\ j_Fs s' = j_Fs s /\ j_prestress_Fs s' = j_prestress_Fs s /\
  j_real_Fs s' = j_real_Fs s.

Lemma jenkins_step_ok (s : jenkins) (u : R) (c : vec) (um x : R) (dum dx : vec) :
  0 <= j_Fs s -> j_hist s = Some (um, x) -> j_dhist s = Some (dum, dx) ->
  let f := clamp (- j_Fs s) (j_Fs s) (j_kt s * (u - um) + x) in
  let d : vec := if Rltb (j_Fs s) (Rabs (j_kt s * (u - um) + x))
           then (fun i => 0 * c i + 0 * dum i + 0 * dx i)
           else (fun i => j_kt s * c i + - j_kt s * dum i + 1 * dx i) in
  jenkins_step s (u, c) =
    Ok (j_set_dhist (j_set_hist s u f) c d, (f, d)).
Proof.
  intros H0 Hh Hd f d.
  unfold jenkins_step, j_instant_force_harmonic, j_instant_force. simpl fst; simpl snd.
  rewrite Hh. cbn [bind].
  pose proof (j_law_clamp (j_kt s) (j_Fs s) um x u H0) as Hf.
  unfold j_law in *. unfold d, f.
  destruct (Rltb (j_Fs s) (Rabs (j_kt s * (u - um) + x))) eqn:E; cbn [j_f] in *;
    rewrite <- Hf; cbn; rewrite Hd; reflexivity.
Qed.

Lemma time_loop_ok l : forall s um x dum dx,
  0 <= j_Fs s -> j_hist s = Some (um, x) -> j_dhist s = Some (dum, dx) ->
  exists s' os dh,
    time_loop jenkins_step s l = Ok (s', os) /\
    map fst os = jforces (j_kt s) (j_Fs s) um x (map fst l) /\
    map snd os = jderivs (j_kt s) (j_Fs s) um x dum dx l /\
    length os = length l /\
    j_hist s' = Some (last (map fst l) um, last (map fst os) x) /\
    j_dhist s' = Some dh /\
    dh = (last (map snd l) dum, last (map snd os) dx) /\
    same_params s s'.
Proof.
  induction l as [|[u c] l IH]; intros s um x dum dx H0 Hh Hd.
  - exists s, [], (dum, dx). simpl. repeat split; auto.
  - cbn [time_loop].
    pose proof (jenkins_step_ok s u c um x dum dx H0 Hh Hd) as Hs. cbv zeta in Hs.
    rewrite Hs. clear Hs.
    set (f := clamp (- j_Fs s) (j_Fs s) (j_kt s * (u - um) + x)).
    set (d := if Rltb (j_Fs s) (Rabs (j_kt s * (u - um) + x)) then _ else _).
    set (s1 := j_set_dhist (j_set_hist s u f) c d).
    destruct (IH s1 u f c d) as (s' & os & dh & Et & Ef & Ed & El & Eh & Edh & Edh' & Ep);
      [exact H0|reflexivity|reflexivity|].
    exists s', ((f, d) :: os), dh.
    cbn [bind]. rewrite Et. cbn [bind].
    split; [reflexivity|].
    split; [simpl; rewrite Ef; reflexivity|].
    split; [simpl; rewrite Ed; reflexivity|].
    split; [simpl; rewrite El; reflexivity|].
    assert (Hlast : forall A (a : A) (l0 : list A) d0, last (a :: l0) d0 = last l0 a).
    { intros A a l0. revert a. induction l0 as [|b l0 IHl]; intros a d0; [reflexivity|].
      change (last (a :: b :: l0) d0) with (last (b :: l0) d0).
      rewrite IHl. symmetry. apply IHl. }
    split; [rewrite Eh; cbn [map fst]; rewrite !Hlast; reflexivity|].
    split; [exact Edh|].
    split; [rewrite Edh'; cbn [map snd]; rewrite !Hlast; reflexivity|].
    exact Ep.
Qed.

Lemma jforces_length kt Fs us : forall um x, length (jforces kt Fs um x us) = length us.
Proof. induction us; simpl; auto. Qed.

(** list forces = the specification's recursion *)
Lemma jforces_run kt Fs us : forall um x k,
  (k < length us)%nat ->
  nth k (jforces kt Fs um x us) 0 =
  run kt (fun _ => - Fs) (fun _ => Fs) (fun i => nth i us 0) um x k.
Proof.
  induction us as [|u us IH]; intros um x k Hk; [simpl in Hk; lia|].
  simpl in Hk. destruct k as [|k].
  - simpl. f_equal. ring.
  - cbn [jforces nth]. rewrite IH by lia.
    (* shift the run by one *)
    clear IH. revert Hk. induction k as [|k IHk]; intros Hk.
    + simpl. f_equal. f_equal. f_equal. ring.
    + cbn [run]. rewrite IHk by lia. reflexivity.
Qed.

Lemma run_ext kt lo hi u u' um x k :
  (forall i, (i <= k)%nat -> u i = u' i) -> run kt lo hi u um x k = run kt lo hi u' um x k.
Proof.
  induction k as [|k IH]; intros H; cbn [run].
  - rewrite H by lia. reflexivity.
  - rewrite IH by (intros; apply H; lia). rewrite !H by lia. reflexivity.
Qed.

Lemma slider_ext kt lo hi u u' u0 k :
  (forall i, (i <= k)%nat -> u i = u' i) -> slider kt lo hi u u0 k = slider kt lo hi u' u0 k.
Proof.
  induction k as [|k IH]; intros H; cbn [slider].
  - rewrite H by lia. reflexivity.
  - rewrite IH by (intros; apply H; lia). rewrite !H by lia. reflexivity.
Qed.

(** derivative recursion along the slider: zero in slip, elastic increment in stick *)
Fixpoint drun (kt Fs : R) (u : nat -> R) (c : nat -> vec) (um x : R) (dum dx : vec) (k : nat) : vec :=
  match k with
  | O => if Rltb Fs (Rabs (x + kt * (u O - um))) then (fun _ => 0)
         else (fun i => kt * (c O i - dum i) + dx i)
  | S j => if Rltb Fs (Rabs (run kt (fun _ => - Fs) (fun _ => Fs) u um x j + kt * (u (S j) - u j)))
           then (fun _ => 0)
           else (fun i => kt * (c (S j) i - c j i) + drun kt Fs u c um x dum dx j i)
  end.

Lemma drun_ext_state kt Fs u c um x dum dx dx' k :
  (forall i, dx i = dx' i) ->
  forall i, drun kt Fs u c um x dum dx k i = drun kt Fs u c um x dum dx' k i.
Proof.
  intros H. induction k as [|k IH]; intros i; cbn [drun].
  - destruct (Rltb _ _); [reflexivity|]. rewrite H. reflexivity.
  - destruct (Rltb _ _); [reflexivity|]. rewrite IH. reflexivity.
Qed.

Lemma drun_ext kt Fs u u' c c' um x dum dx k :
  (forall i, (i <= k)%nat -> u i = u' i) -> (forall j i, (j <= k)%nat -> c j i = c' j i) ->
  forall i, drun kt Fs u c um x dum dx k i = drun kt Fs u' c' um x dum dx k i.
Proof.
  intros Hu Hc. induction k as [|k IH]; intros i; cbn [drun].
  - rewrite Hu by lia. destruct (Rltb _ _); [reflexivity|]. rewrite Hc by lia. reflexivity.
  - rewrite (run_ext _ _ _ u u') by (intros; apply Hu; lia). rewrite !Hu by lia.
    destruct (Rltb _ _); [reflexivity|].
    rewrite IH by (intros; (apply Hu || apply Hc); lia). rewrite !Hc by lia. reflexivity.
Qed.

Lemma jderivs_length kt Fs l : forall um x dum dx, length (jderivs kt Fs um x dum dx l) = length l.
Proof. induction l as [|[u c] l IH]; intros; simpl; auto. Qed.

Lemma run_shift kt Fs (u : nat -> R) um x k :
  run kt (fun _ => - Fs) (fun _ => Fs) u um x (S k) =
  run kt (fun _ => - Fs) (fun _ => Fs) (fun i => u (S i)) (u O)
      (clamp (- Fs) Fs (x + kt * (u O - um))) k.
Proof. induction k as [|k IH]; [reflexivity|]. cbn [run] in *. rewrite IH. reflexivity. Qed.

Lemma drun_shift kt Fs (u : nat -> R) (c : nat -> vec) um x dum dx k :
  forall i, drun kt Fs u c um x dum dx (S k) i =
  drun kt Fs (fun i => u (S i)) (fun j => c (S j)) (u O)
       (clamp (- Fs) Fs (x + kt * (u O - um))) (c O) (drun kt Fs u c um x dum dx O) k i.
Proof.
  induction k as [|k IH]; intros i; [reflexivity|].
  change (drun kt Fs u c um x dum dx (S (S k)) i) with
    ((if Rltb Fs (Rabs (run kt (fun _ => - Fs) (fun _ => Fs) u um x (S k)
                        + kt * (u (S (S k)) - u (S k))))
      then (fun _ => 0)
      else (fun i => kt * (c (S (S k)) i - c (S k) i) + drun kt Fs u c um x dum dx (S k) i)) i).
  rewrite run_shift. cbn [drun]. destruct (Rltb _ _); [reflexivity|].
  rewrite IH. reflexivity.
Qed.

Lemma jderivs_drun kt Fs l : forall um x dum dx k i,
  (k < length l)%nat ->
  nth k (jderivs kt Fs um x dum dx l) (fun _ => 0) i =
  drun kt Fs (fun j => nth j (map fst l) 0) (fun j => nth j (map snd l) (fun _ => 0)) um x dum dx k i.
Proof.
  induction l as [|[u c] l IH]; intros um x dum dx k i Hk; [simpl in Hk; lia|].
  simpl in Hk. destruct k as [|k].
  - simpl. rewrite (Rplus_comm x). destruct (Rltb _ _); ring.
  - cbn [jderivs nth]. rewrite IH by lia. rewrite drun_shift.
    cbn [map fst snd nth].
    rewrite (Rplus_comm x).
    apply drun_ext_state. intros j. cbn [drun nth]. rewrite (Rplus_comm x).
    destruct (Rltb _ _); ring.
Qed.

(** rows of the time series handed to local_force_history *)
Lemma rows_length N u cst : length (rows N u cst) = N.
Proof. unfold rows. rewrite map_length, seq_length. reflexivity. Qed.

Lemma rows_fst N u cst : map fst (rows N u cst) = map u (seq 0 N).
Proof. unfold rows. rewrite map_map. reflexivity. Qed.

Lemma rows_snd N u cst : map snd (rows N u cst) = map cst (seq 0 N).
Proof. unfold rows. rewrite map_map. reflexivity. Qed.

Lemma nth_map_seqv (c : nat -> vec) N k d : (k < N)%nat -> nth k (map c (seq 0 N)) d = c k.
Proof.
  intros H. rewrite (nth_indep _ d (c O)) by (rewrite map_length, seq_length; exact H).
  rewrite map_nth, seq_nth by exact H. reflexivity.
Qed.

Lemma nth_map_seq (u : nat -> R) N k : (k < N)%nat -> nth k (map u (seq 0 N)) 0 = u k.
Proof.
  intros H. rewrite (nth_indep _ 0 (u O)) by (rewrite map_length, seq_length; exact H).
  rewrite map_nth, seq_nth by exact H. reflexivity.
Qed.

Lemma last_nth {A} (l : list A) d : last l d = nth (length l - 1) l d.
Proof.
  induction l as [|a l IH]; [reflexivity|].
  destruct l as [|b l]; [reflexivity|].
  change (last (a :: b :: l) d) with (last (b :: l) d). rewrite IH.
  simpl. rewrite Nat.sub_0_r. reflexivity.
Qed.

Lemma last_indep {A} (l : list A) d d' : l <> [] -> last l d = last l d'.
Proof.
  induction l as [|a l IH]; [congruence|]. intros _.
  destruct l as [|b l]; [reflexivity|].
  change (last (a :: b :: l) d) with (last (b :: l) d).
  change (last (a :: b :: l) d') with (last (b :: l) d').
  apply IH. discriminate.
Qed.

(** One pass over the rows started from (um, x) *)
Lemma pass_forces s N u cst um x dum dx :
  (0 < N)%nat -> 0 <= j_Fs s -> j_hist s = Some (um, x) -> j_dhist s = Some (dum, dx) ->
  exists s' os dh,
    time_loop jenkins_step s (rows N u cst) = Ok (s', os) /\ length os = N /\
    (forall k, (k < N)%nat -> nth k (map fst os) 0
        = run (j_kt s) (fun _ => - j_Fs s) (fun _ => j_Fs s) u um x k) /\
    (forall k i, (k < N)%nat -> nth k (map snd os) (fun _ => 0) i
        = drun (j_kt s) (j_Fs s) u cst um x dum dx k i) /\
    j_hist s' = Some (u (N - 1)%nat, nth (N - 1) (map fst os) 0) /\
    j_dhist s' = Some dh /\ dh = (cst (N - 1)%nat, nth (N - 1) (map snd os) (fun _ => 0)) /\
    same_params s s'.
Proof.
  intros HN H0 Hh Hd.
  destruct (time_loop_ok (rows N u cst) s um x dum dx H0 Hh Hd)
    as (s' & os & dh & Et & Ef & Ed & El & Eh & Edh & Edh' & Ep).
  exists s', os, dh. rewrite rows_length in El.
  split; [exact Et|]. split; [exact El|].
  assert (F : forall k, (k < N)%nat -> nth k (map fst os) 0
        = run (j_kt s) (fun _ => - j_Fs s) (fun _ => j_Fs s) u um x k).
  { intros k Hk. rewrite Ef, rows_fst, jforces_run by (rewrite map_length, seq_length; exact Hk).
    apply run_ext. intros i Hi. apply nth_map_seq. lia. }
  split; [exact F|].
  split.
  { intros k i Hk. rewrite Ed, jderivs_drun by (rewrite rows_length; exact Hk).
    apply drun_ext.
    - intros j Hj. rewrite rows_fst. apply nth_map_seq. lia.
    - intros j i' Hj. rewrite rows_snd, nth_map_seqv by lia. reflexivity. }
  split.
  - rewrite Eh. f_equal. f_equal.
    + rewrite rows_fst, last_nth, map_length, seq_length.
      rewrite (nth_indep _ um 0) by (rewrite map_length, seq_length; lia).
      apply nth_map_seq. lia.
    + rewrite last_nth, map_length, El. apply nth_indep. rewrite map_length. lia.
  - split; [exact Edh|]. split; [|exact Ep].
    rewrite Edh'. f_equal.
    + rewrite rows_snd, last_nth, map_length, seq_length. apply nth_map_seqv. lia.
    + rewrite last_nth, map_length, El. apply nth_indep. rewrite map_length. lia.
Qed.

(** not_converged for default tolerances *)
Lemma eps_pos : 0 < float_eps.
Proof. unfold float_eps. apply Rinv_0_lt_compat. apply pow_lt. lra. Qed.

Lemma eps_small : float_eps < / 10 ^ 10.
Proof. unfold float_eps. apply Rinv_lt_contravar; simpl; lra. Qed.

Lemma not_converged_default f :
  default_tol < Rabs f -> not_converged default_tol default_tol (Rabs (f - 0)) f = true.
Proof.
  intros H. unfold not_converged. rewrite Rminus_0_r.
  apply andb_true_intro. split; [apply Rltb_true; exact H|].
  pose proof eps_pos as Ep. pose proof eps_small as Es.
  assert (Htol : 0 < default_tol) by (unfold default_tol; apply Rinv_0_lt_compat; simpl; lra).
  destruct (Req_EM_T (f + float_eps) 0) as [E|E]; [apply Rltb_true; lra|].
  apply Rltb_true. unfold Rdiv. rewrite Rabs_mult, Rabs_Rabsolu, Rabs_inv by exact E.
  assert (Hden : 0 < Rabs (f + float_eps)) by (apply Rabs_pos_lt; exact E).
  assert (Hle : Rabs (f + float_eps) <= 2 * Rabs f).
  { eapply Rle_trans; [apply Rabs_triang|]. rewrite (Rabs_right float_eps) by lra.
    unfold default_tol in H. lra. }
  apply Rmult_lt_reg_r with (Rabs (f + float_eps)); [exact Hden|].
  rewrite Rmult_assoc, Rinv_l by lra. rewrite Rmult_1_r.
  assert (default_tol < / 2) by (unfold default_tol; apply Rinv_lt_contravar; simpl; lra).
  nra.
Qed.

(** acheck is 0 from the second pass on because of the view *)
Lemma not_converged_zero atol rtol f :
  0 <= atol \/ 0 <= rtol -> not_converged atol rtol 0 f = false.
Proof.
  intros [H|H]; unfold not_converged.
  - replace (Rltb atol 0) with false; [reflexivity|]. symmetry. apply Rltb_false. exact H.
  - apply andb_false_intro2.
    destruct (Req_EM_T (f + float_eps) 0); [apply Rltb_false; lra|].
    apply Rltb_false. unfold Rdiv. rewrite Rmult_0_l, Rabs_R0. exact H.
Qed.

Lemma repeat_loop_stops {St In D} (step : St -> In -> result (St * (R * D))) n atol rtol inputs s os :
  0 <= atol \/ 0 <= rtol ->
  repeat_loop step n atol rtol inputs s os 0 = Ok (s, os).
Proof.
  intros H. destruct n; simpl; [reflexivity|].
  rewrite not_converged_zero by exact H. reflexivity.
Qed.

(** Forces of pass number n (n = 0 is the first pass) from the harmonic initial state. *)
Definition pass_law (kt Fs : R) (N : nat) (u : nat -> R) (u0 : R) (n k : nat) : R :=
  jenkins_law kt Fs (repeat_samples N u) u0 (n * N + k)%nat.

Lemma pass_law_0 kt Fs N u u0 um k :
  (k < N)%nat ->
  pass_law kt Fs N u u0 0 k = run kt (fun _ => - Fs) (fun _ => Fs) u um (kt * (um - u0)) k.
Proof.
  intros Hk. unfold pass_law, jenkins_law. rewrite (slider_run _ _ _ _ _ um).
  simpl. apply run_ext. intros i Hi. apply repeat_small. lia.
Qed.

Lemma pass_law_S kt Fs N u u0 n k :
  (0 < N)%nat -> (k < N)%nat ->
  pass_law kt Fs N u u0 (S n) k =
  run kt (fun _ => - Fs) (fun _ => Fs) u (u (N - 1)%nat) (pass_law kt Fs N u u0 n (N - 1)) k.
Proof.
  intros HN Hk. unfold pass_law, jenkins_law.
  rewrite slider_next; auto; try apply periodic_const; [|apply periodic_repeat; exact HN].
  rewrite repeat_small by lia.
  replace (S n * N - 1)%nat with (n * N + (N - 1))%nat by nia.
  apply run_ext. intros i Hi. apply repeat_small. lia.
Qed.

(** derivative recursion over all time, for repeated samples *)
Fixpoint dlaw (kt Fs : R) (u : nat -> R) (c : nat -> vec) (u0 : R) (k : nat) : vec :=
  match k with
  | O => if Rltb Fs (Rabs (kt * (u O - u0))) then (fun _ => 0)
         else (fun i => kt * (c O i - (if Nat.eqb i 0 then 1 else 0)))
  | S j => if Rltb Fs (Rabs (jenkins_law kt Fs u u0 j + kt * (u (S j) - u j))) then (fun _ => 0)
           else (fun i => kt * (c (S j) i - c j i) + dlaw kt Fs u c u0 j i)
  end.

Definition dpass_law (kt Fs : R) (N : nat) (u : nat -> R) (c : nat -> vec) (u0 : R) (n k : nat) : vec :=
  dlaw kt Fs (repeat_samples N u) (fun t => c (t mod N)) u0 (n * N + k)%nat.

Lemma dlaw_drun kt Fs u c u0 k :
  forall i, dlaw kt Fs u c u0 k i =
  drun kt Fs u c u0 0 (fun c => if Nat.eqb c 0 then 1 else 0) (fun _ => 0) k i.
Proof.
  induction k as [|k IH]; intros i; cbn [dlaw drun].
  - rewrite Rplus_0_l. destruct (Rltb _ _); ring.
  - unfold jenkins_law. rewrite (slider_run _ _ _ _ u0 u0).
    replace (kt * (u0 - u0)) with 0 by ring.
    destruct (Rltb _ _); [reflexivity|]. rewrite IH. reflexivity.
Qed.

Lemma dpass_law_0 kt Fs N u c u0 k i :
  (k < N)%nat ->
  dpass_law kt Fs N u c u0 0 k i =
  drun kt Fs u c u0 0 (fun c => if Nat.eqb c 0 then 1 else 0) (fun _ => 0) k i.
Proof.
  intros Hk. unfold dpass_law. rewrite dlaw_drun. simpl. apply drun_ext.
  - intros j Hj. apply repeat_small. lia.
  - intros j i' Hj. rewrite Nat.mod_small by lia. reflexivity.
Qed.

Lemma dpass_law_S kt Fs N u c u0 n k :
  (0 < N)%nat -> (k < N)%nat ->
  forall i, dpass_law kt Fs N u c u0 (S n) k i =
  drun kt Fs u c (u (N - 1)%nat) (pass_law kt Fs N u u0 n (N - 1)) (c (N - 1)%nat)
       (dpass_law kt Fs N u c u0 n (N - 1)) k i.
Proof.
  intros HN. unfold dpass_law.
  set (uu := repeat_samples N u). set (cc := fun t => c (t mod N)).
  assert (Muu : forall m j, (j < N)%nat -> uu (m * N + j)%nat = u j).
  { intros m j Hj. unfold uu, repeat_samples. f_equal. rewrite Nat.add_comm, Nat.mod_add by lia.
    apply Nat.mod_small. exact Hj. }
  assert (Mcc : forall m j, (j < N)%nat -> cc (m * N + j)%nat = c j).
  { intros m j Hj. unfold cc. f_equal. rewrite Nat.add_comm, Nat.mod_add by lia.
    apply Nat.mod_small. exact Hj. }
  induction k as [|k IH]; intros Hk i.
  - replace (S n * N + 0)%nat with (S (n * N + (N - 1))) by nia.
    cbn [dlaw drun]. fold (pass_law kt Fs N u u0 n (N - 1)).
    rewrite (Muu n (N - 1)%nat), (Mcc n (N - 1)%nat) by lia.
    replace (S (n * N + (N - 1))) with (S n * N + 0)%nat by nia.
    rewrite Muu, Mcc by lia. reflexivity.
  - replace (S n * N + S k)%nat with (S (S n * N + k)) by nia.
    cbn [dlaw drun].
    rewrite (Muu (S n) k), (Mcc (S n) k) by lia.
    replace (S (S n * N + k)) with (S n * N + S k)%nat by nia.
    rewrite Muu, Mcc by lia.
    change (jenkins_law kt Fs uu u0 (S n * N + k)) with (pass_law kt Fs N u u0 (S n) k).
    rewrite pass_law_S by lia. destruct (Rltb _ _); [reflexivity|].
    rewrite IH by lia. reflexivity.
Qed.

(** What JenkinsForce.local_force_history returns, exactly. *)
Lemma jenkins_history_spec s N u cst u0 m atol rtol :
  (0 < N)%nat -> 0 <= j_Fs s -> 0 <= atol \/ 0 <= rtol ->
  exists s' os,
    jenkins_local_force_history s (rows N u cst) u0 m atol rtol = Ok (s', os) /\
    length os = N /\ same_params s s' /\
    let f0 := pass_law (j_kt s) (j_Fs s) N u u0 0 (N - 1) in
    let second := not_converged atol rtol (Rabs (f0 - 0)) f0 && Nat.ltb 1 m in
    forall k, (k < N)%nat ->
      nth k (map fst os) 0 = pass_law (j_kt s) (j_Fs s) N u u0 (if second then 1 else 0) k /\
      forall i, nth k (map snd os) (fun _ => 0) i
                = dpass_law (j_kt s) (j_Fs s) N u cst u0 (if second then 1 else 0) k i.
Proof.
  intros HN H0 Htol.
  unfold jenkins_local_force_history, local_force_history.
  set (s0 := j_init_history_harmonic s u0).
  destruct (pass_forces s0 N u cst u0 0 (fun c => if Nat.eqb c 0 then 1 else 0) (fun _ => 0) HN)
    as (s1 & os1 & dh1 & Et & El & Ef & Efd & Eh & Edh & Edh' & Ep);
    [exact H0|reflexivity|reflexivity|].
  destruct (rows N u cst) as [|r rs] eqn:Er.
  { exfalso. assert (length (rows N u cst) = 0)%nat by (rewrite Er; reflexivity).
    rewrite rows_length in H. lia. }
  rewrite <- Er in *.
  rewrite Et. cbn [bind].
  change (j_kt s0) with (j_kt s) in *. change (j_Fs s0) with (j_Fs s) in *.
  assert (Hf0 : forall k, (k < N)%nat ->
            nth k (map fst os1) 0 = pass_law (j_kt s) (j_Fs s) N u u0 0 k).
  { intros k Hk. rewrite Ef by exact Hk. rewrite (pass_law_0 _ _ _ _ _ u0) by exact Hk.
    replace (j_kt s * (u0 - u0)) with 0 by ring. reflexivity. }
  assert (Hd0 : forall k i, (k < N)%nat -> nth k (map snd os1) (fun _ => 0) i
            = dpass_law (j_kt s) (j_Fs s) N u cst u0 0 k i).
  { intros k i Hk. rewrite Efd by exact Hk. rewrite dpass_law_0 by exact Hk. reflexivity. }
  assert (Hlast : last_force os1 = pass_law (j_kt s) (j_Fs s) N u u0 0 (N - 1)).
  { unfold last_force. rewrite last_nth, map_length, El. apply Hf0. lia. }
  rewrite Hlast. cbn [read_fp].
  set (f0 := pass_law (j_kt s) (j_Fs s) N u u0 0 (N - 1)) in *.
  destruct m as [|[|m]].
  - exists s1, os1. rewrite andb_false_r. simpl. repeat split; auto; apply Ep.
  - exists s1, os1. rewrite andb_false_r. simpl. repeat split; auto; apply Ep.
  - replace (S (S m) - 1)%nat with (S m) by lia. cbn [repeat_loop]. rewrite Hlast.
    replace (Nat.ltb 1 (S (S m))) with true by reflexivity. rewrite andb_true_r.
    destruct (not_converged atol rtol (Rabs (f0 - 0)) f0) eqn:Enc.
    + destruct dh1 as [dum dx].
      destruct (pass_forces s1 N u cst (u (N - 1)%nat) (nth (N - 1) (map fst os1) 0) dum dx HN)
        as (s2 & os2 & dh2 & Et2 & El2 & Ef2 & Efd2 & Eh2 & Edh2 & _ & Ep2);
        [destruct Ep as (_ & -> & _); exact H0|exact Eh|exact Edh|].
      rewrite Et2. cbn [bind]. cbn [read_fp].
      replace (Rabs (last_force os2 - last_force os2)) with 0
        by (rewrite Rminus_diag_eq by reflexivity; rewrite Rabs_R0; reflexivity).
      rewrite repeat_loop_stops by exact Htol.
      exists s2, os2.
      destruct Ep as (Ek & EF & E3 & E4). destruct Ep2 as (Ek2 & EF2 & E32 & E42).
      split; [reflexivity|]. split; [exact El2|].
      split; [change (same_params s0 s2); repeat split; congruence|].
      intros k Hk. split.
      * rewrite Ef2 by exact Hk. rewrite Ek, EF.
        rewrite pass_law_S by assumption. rewrite Hf0 by lia. reflexivity.
      * intros i. rewrite Efd2 by exact Hk. rewrite Ek, EF.
        injection Edh' as -> ->. rewrite dpass_law_S by assumption. rewrite Hf0 by lia.
        apply drun_ext_state. intros i'. apply Hd0. lia.
    + exists s1, os1. repeat split; auto; apply Ep.
Qed.

Lemma pass_law_steady kt Fs N u u0 :
  (0 < N)%nat -> 0 <= Fs ->
  steady_state N (jenkins_law kt Fs (repeat_samples N u) u0) (pass_law kt Fs N u u0 1).
Proof.
  intros HN H0. destruct (slider_steady kt N (fun _ => - Fs) (fun _ => Fs) (repeat_samples N u) HN)
    with (u0 := u0) as [n0 H];
    [intros; lra|apply periodic_const|apply periodic_const|apply periodic_repeat; exact HN|].
  exists n0. intros n k Hn Hk. unfold jenkins_law at 1. rewrite H by assumption.
  unfold pass_law, jenkins_law. f_equal. lia.
Qed.
