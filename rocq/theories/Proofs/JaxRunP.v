From Coq Require Import Reals List Arith Bool ZArith Lia Lra Psatz FunctionalExtensionality.
From Verif.Lib Require Import RSum Py.
From Verif.Spec Require Import Solver.
From Verif.Model Require Import JaxSolver.
From Verif.Proofs Require Import JaxP.
Import ListNotations.
Open Scope R_scope.

(** the step fraction is in (0, 1] whatever the residual function returns *)
Lemma ls_loop_range n fn ss tol X d G0 : forall iters b b', 0 <= b_a0 b < b_a1 b -> b_a1 b <= 1 -> ls_loop iters n fn ss tol X d G0 b = Ok b' -> 0 <= b_a0 b' < b_a1 b' /\ b_a1 b' <= 1.
Proof.
  induction iters as [|iters IH]; intros b b' H1 H2 H; [injection H as <-; auto|]. cbn [ls_loop] in H. apply bind_inv in H. destruct H as ([Rm Jm] & _ & H). cbv zeta in H.
  set (b1 := if oneg (omul (odot n d Rm) (b_g0 b)) then _ else _) in H.
  assert (B : 0 <= b_a0 b1 < b_a1 b1 /\ b_a1 b1 <= 1) by (unfold b1; destruct (oneg _); cbn [b_a0 b_a1]; lra).
  destruct (_ && _)%bool; [injection H as <-; exact B|]. destruct (_ && _)%bool; [injection H as <-; exact B|]. apply (IH b1 b'); [apply B|apply B|exact H].
Qed.

Lemma line_range_any n c fn X Rx d al Ra b : line_search n c fn X Rx d = Ok (al, Ra, b) -> 0 < al <= 1.
Proof.
  unfold line_search. cbv zeta. intros H. apply bind_inv in H. destruct H as ([R1 J1] & _ & H).
  destruct (opos _); [injection H as <- <- <-; lra|]. destruct (_ && _)%bool; [injection H as <- <- <-; lra|].
  apply bind_inv in H. destruct H as (b' & HL & H). apply ls_loop_range in HL; [|cbn [b_a0 b_a1]; lra|cbn [b_a1]; lra].
  destruct (Req_EM_T _ 0) as [Z|Z]; injection H as <- <- <-; [lra|]. destruct (_ || _)%bool; [|lra]. lra.
Qed.

Lemma count_rev {A} (f : A -> bool) l : List.length (filter f (rev l)) = List.length (filter f l).
Proof.
  induction l as [|x l IH]; [reflexivity|]. cbn [rev]. rewrite filter_app, app_length, IH. cbn [filter]. destruct (f x); cbn; lia.
Qed.

Lemma mod_zero k : (0 mod k = 0)%nat.
Proof. destruct k; [reflexivity|apply Nat.mod_0_l; discriminate]. Qed.

Section Run.
  Variables (n : nat) (c : config) (lu : mat -> vec -> option vec) (fn : residual) (X0 : vec).
  Notation rf := (c_reform_freq c).
  Notation flag j := (Nat.eqb (j mod rf) 0).

  Definition meas (X Rs d : nat -> vec) (j : nat) : measures :=
    mkMeas (quantity n X Rs d j Rtol) (quantity n X Rs d j Etol) (quantity n X Rs d j Xtol)
           (quantity n X Rs d j RtolRel) (quantity n X Rs d j EtolRel) (quantity n X Rs d j XtolRel).

  Definition met (l : list tol_name) (m : measures) : Prop := exists k, In k l /\ below (error_value m k) (tolerance c k).

  Record inv (i : nat) (t : state) (X Rs d : nat -> vec) (al : nat -> R) : Prop := {
    v_it : forall j, (j < i)%nat -> iteration n rf fn lu X Rs d al j;
    v_ls : c_ls_iters c = 0%nat -> forall j, (j < i)%nat -> al j = 1;
    v_X0 : X 0%nat = X0;
    v_X : t_X t = X i;
    v_ind : t_ind t = (i mod rf)%nat;
    v_dX : t_dXm1 t = if Nat.eqb i 0 then None else Some (diff X (i - 1));
    v_Rm : (0 < i)%nat -> t_Rm1 t = Rs (i - 1)%nat;
    v_rf : (0 < i)%nat -> (0 < rf)%nat;
    v_pairs : (i mod rf <> 0)%nat -> t_pairs t = with_p n (last_pairs X Rs (i - 1) (i mod rf - 1)) /\
                exists R0, fn (X (i - i mod rf)%nat) true = Ok (R0, Some (t_lu t));
    v_0 : (0 < i)%nat -> t_r0 t = norm n (Rs 0%nat) /\ t_u0 t = norm n (d 0%nat) /\
                t_e0 t = if Nat.leb i 1 then None else option_map Rabs (energy n X Rs 1);
    v_meas : t_meas t = if Nat.eqb i 0 then None else Some (meas X Rs d (i - 1));
    v_calls : t_calls t = rev (map (fun j => (X j, flag j)) (seq 0 i));
    v_nfev : t_nfev t = i;
    v_njev : t_njev t = List.length (filter snd (t_calls t));
    v_R : (0 < i)%nat -> t_R t = Some (Rs (i - 1)%nat);
    v_J : (0 < i)%nat -> exists R0, fn (X (i - 1 - (i - 1) mod rf)%nat) true = Ok (R0, t_J t) }.

  Definition agree (i : nat) (X X' : nat -> vec) : Prop := forall j, (j <= i)%nat -> X' j = X j.

  Lemma pairs_ext i k X X' Rs Rs' : agree i X X' -> agree i Rs Rs' -> (0 < i)%nat -> last_pairs X' Rs' i k = last_pairs X Rs i k.
  Proof.
    intros HX HR Hi. unfold last_pairs. apply map_ext_in. intros m _. unfold diff. rewrite !HX, !HR by lia. reflexivity.
  Qed.

  Lemma iteration_ext i X X' Rs Rs' d d' al al' : agree (S i) X X' -> agree i Rs Rs' -> d' i = d i -> al' i = al i ->
    iteration n rf fn lu X Rs d al i -> iteration n rf fn lu X' Rs' d' al' i.
  Proof.
    intros HX HR Hd Ha (A & B & C & D & E). unfold iteration. rewrite Hd, Ha, !HX, !HR by lia. split; [exact A|]. split; [exact B|]. split; [exact C|]. split; [exact D|].
    intros Hm. assert (Hi : (0 < i)%nat) by (destruct i; [|lia]; exfalso; apply Hm; apply mod_zero).
    destruct (E Hm) as (R0 & J & E1 & E2 & E3). exists R0, J. split; [exact E1|]. split.
    - unfold diff in *. rewrite !HX, !HR by lia. exact E2.
    - intros H0 HH k. rewrite (pairs_ext i (i mod rf) X X' Rs Rs') by (try assumption; intros j Hj; apply HX; lia). apply E3. exact HH.
  Qed.

  Definition put {A} (q : nat -> A) (i : nat) (v : A) : nat -> A := fun j => if Nat.eqb j i then v else q j.
  Lemma put_same {A} (q : nat -> A) i v : put q i v i = v. Proof. unfold put. rewrite Nat.eqb_refl. reflexivity. Qed.
  Lemma put_other {A} (q : nat -> A) i v j : j <> i -> put q i v j = q j. Proof. intros H. unfold put. rewrite (proj2 (Nat.eqb_neq j i) H). reflexivity. Qed.

  Lemma start_inv : inv 0 (start X0) (fun _ => X0) (fun _ => vzero) (fun _ => vzero) (fun _ => 1).
  Proof.
    constructor; cbn; try lia; try reflexivity; intros; try lia.
    - symmetry. apply mod_zero.
    - exfalso. apply H. apply mod_zero.
  Qed.

  (** what [direction] does *)
  Lemma direction_spec i t X Rs d al t1 o : inv i t X Rs d al -> direction n c lu fn t = Ok (t1, o) ->
    t_X t1 = X i /\ t_calls t1 = (X i, flag i) :: t_calls t /\ t_nfev t1 = S i /\ t_njev t1 = List.length (filter snd (t_calls t1)) /\
    t_dXm1 t1 = t_dXm1 t /\ t_r0 t1 = t_r0 t /\ t_u0 t1 = t_u0 t /\ t_e0 t1 = t_e0 t /\ t_ind t1 = t_ind t /\ t_meas t1 = t_meas t /\
    (exists Jo, fn (X i) (flag i) = Ok (t_R t1, Jo)) /\ (exists R0, fn (X (i - i mod rf)%nat) true = Ok (R0, t_J t1)) /\
    match o with
    | None => True
    | Some (Rr, dd) => (0 < rf)%nat /\ t_R t1 = Some Rr /\ (exists R0, fn (X (i - i mod rf)%nat) true = Ok (R0, Some (t_lu t1))) /\
        t_pairs t1 = with_p n (last_pairs X (put Rs i Rr) i (i mod rf)) /\
        ((i mod rf = 0)%nat -> exists J q, fn (X i) true = Ok (Some Rr, Some J) /\ lu J Rr = Some q /\ forall k, dd k = - q k) /\
        ((i mod rf <> 0)%nat -> dot n (diff X (i - 1)) (diff (put Rs i Rr) (i - 1)) <> 0 /\
            forall H0, (forall v, lu (t_lu t1) v = Some (H0 v)) -> dd = bfgs_inverse n H0 (last_pairs X (put Rs i Rr) i (i mod rf)) (fun k => - Rr k))
    end.
  Proof.
    intros V H. unfold direction in H. rewrite (v_ind _ _ _ _ _ _ V), (v_X _ _ _ _ _ _ V) in H.
    assert (VI : (i mod rf)%nat = t_ind t) by (symmetry; apply V).
    pose proof (v_njev _ _ _ _ _ _ V) as NJ. pose proof (v_nfev _ _ _ _ _ _ V) as NF.
    destruct (Nat.eqb_spec (i mod rf) 0) as [Z|Z].
    - rewrite Z. replace (i - 0)%nat with i by lia. apply bind_inv in H. destruct H as ([Ro Jo] & HF & H). cbv zeta in H.
      assert (G : forall (A B : Prop), A -> (A -> B) -> A /\ B) by tauto.
      destruct Ro as [Rr|]; [|injection H as <- <-; cbn; rewrite NF, NJ; repeat split; try (eexists; exact HF); try exact VI].
      destruct Jo as [J|]; [|injection H as <- <-; cbn; rewrite NF, NJ; repeat split; try (eexists; exact HF); try exact VI].
      assert (Hrf : (0 < rf)%nat) by (destruct (c_reform_freq c); [discriminate|lia]).
      assert (H' : match lu J Rr with
        | Some q => Ok (mkSt (X i) (t_dXm1 t) (t_Rm1 t) (i mod rf) [] J (t_r0 t) (t_u0 t) (t_e0 t) (Some Rr) (Some J) (t_meas t) (S (t_nfev t)) (S (t_njev t)) ((X i, true) :: t_calls t), Some (Rr, fun k => - q k))
        | None => Ok (mkSt (X i) (t_dXm1 t) (t_Rm1 t) (i mod rf) [] J (t_r0 t) (t_u0 t) (t_e0 t) (Some Rr) (Some J) (t_meas t) (S (t_nfev t)) (S (t_njev t)) ((X i, true) :: t_calls t), None)
        end = Ok (t1, o)) by (destruct (c_reform_freq c); [lia|exact H]).
      clear H. rename H' into H.
      destruct (lu J Rr) as [q|] eqn:El; injection H as <- <-; cbn [t_X t_calls t_nfev t_njev t_dXm1 t_r0 t_u0 t_e0 t_ind t_meas t_R t_J t_lu t_pairs filter snd List.length]; rewrite NF, NJ.
      + repeat split; try (eexists; exact HF); try exact VI; try exact Hrf; try match goal with Q : 0%nat <> 0%nat |- _ => contradiction (Q eq_refl) end.
        intros _. exists J, q. auto.
      + repeat split; try (eexists; exact HF); try exact VI.
    - assert (Hi : (0 < i)%nat) by (destruct i; [|lia]; exfalso; apply Z; apply mod_zero).
      destruct (v_pairs _ _ _ _ _ _ V Z) as (VP & RJ & VL). destruct (v_J _ _ _ _ _ _ V Hi) as (R0 & VJ).
      pose proof (v_rf _ _ _ _ _ _ V Hi) as Hrf.
      assert (EJ : (i - 1 - (i - 1) mod rf = i - i mod rf)%nat).
      { assert (M : ((i - 1) mod rf = i mod rf - 1)%nat).
        { pose proof (Nat.div_mod i rf ltac:(lia)) as D. symmetry. apply (Nat.mod_unique (i - 1) rf (i / rf)); [pose proof (Nat.mod_upper_bound i rf ltac:(lia)); lia|lia]. }
        rewrite M. lia. }
      rewrite EJ in VJ.
      apply bind_inv in H. destruct H as ([Ro Jo] & HF & H). cbv zeta in H. rewrite (v_dX _ _ _ _ _ _ V), (proj2 (Nat.eqb_neq i 0) ltac:(lia)) in H. rewrite (v_Rm _ _ _ _ _ _ V Hi) in H.
      destruct Ro as [Rr|]; [|injection H as <- <-; cbn [t_X t_calls t_nfev t_njev t_dXm1 t_r0 t_u0 t_e0 t_ind t_meas t_R t_J t_lu t_pairs filter snd List.length]; rewrite NF, NJ; repeat split; try exact VI; [rewrite (v_dX _ _ _ _ _ _ V), (proj2 (Nat.eqb_neq i 0) ltac:(lia)); reflexivity|eexists; exact HF|eexists; exact VJ]].
      assert (EY : (fun k => Rr k - Rs (i - 1)%nat k) = diff (put Rs i Rr) (i - 1)).
      { unfold diff. replace (S (i - 1)) with i by lia. rewrite put_same, put_other by lia. reflexivity. }
      rewrite EY in H. destruct (Req_EM_T _ 0) as [Q|Q].
      { injection H as <- <-. cbn [t_X t_calls t_nfev t_njev t_dXm1 t_r0 t_u0 t_e0 t_ind t_meas t_R t_J t_lu t_pairs filter snd List.length]. rewrite NF, NJ. repeat split; try exact VI; [rewrite (v_dX _ _ _ _ _ _ V), (proj2 (Nat.eqb_neq i 0) ltac:(lia)); reflexivity|eexists; exact HF|eexists; exact VJ]. }
      assert (EP : (diff X (i - 1), diff (put Rs i Rr) (i - 1), 1 / dot n (diff X (i - 1)) (diff (put Rs i Rr) (i - 1))) :: t_pairs t = with_p n (last_pairs X (put Rs i Rr) i (i mod rf))).
      { rewrite VP. destruct (i mod rf)%nat as [|k] eqn:Ek; [contradiction|]. replace (S k - 1)%nat with k by lia.
        unfold last_pairs. cbn [seq map with_p fst snd]. replace (i - 1 - 0)%nat with (i - 1)%nat by lia. f_equal. rewrite <- seq_shift, map_map. unfold with_p. rewrite !map_map.
        assert (Hk : (k < i - 1 + 1)%nat) by (pose proof (Nat.mod_le i rf ltac:(lia)); lia).
        apply map_ext_in. intros m Hm. apply in_seq in Hm. replace (i - 1 - S m)%nat with (i - 1 - 1 - m)%nat by lia. cbn [fst snd].
        assert (ED : diff (put Rs i Rr) (i - 1 - 1 - m) = diff Rs (i - 1 - 1 - m)) by (unfold diff; rewrite !put_other by lia; reflexivity). rewrite ED. reflexivity. }
      rewrite EP in H. destruct (bfgs_direction n (lu (t_lu t)) _ Rr) as [dd|] eqn:EB; injection H as <- <-; cbn [t_X t_calls t_nfev t_njev t_dXm1 t_r0 t_u0 t_e0 t_ind t_meas t_R t_J t_lu t_pairs filter snd List.length]; rewrite NF, NJ.
      + repeat split; try exact VI; [rewrite (v_dX _ _ _ _ _ _ V), (proj2 (Nat.eqb_neq i 0) ltac:(lia)); reflexivity|eexists; exact HF|eexists; exact VJ|exact Hrf|eexists; exact VL|contradiction|exact Q|].
        intros H0 HH. rewrite (bfgs_direction_spec n _ H0 _ _ HH) in EB. injection EB as <-. reflexivity.
      + repeat split; try exact VI; [rewrite (v_dX _ _ _ _ _ _ V), (proj2 (Nat.eqb_neq i 0) ltac:(lia)); reflexivity|eexists; exact HF|eexists; exact VJ].
  Qed.

  Lemma mod_next i : (0 < rf)%nat -> ((i mod rf + 1) mod rf = S i mod rf)%nat.
  Proof. intros H. rewrite Nat.add_mod_idemp_l by lia. f_equal. lia. Qed.

  Lemma mod_prev i : (0 < rf)%nat -> (S i mod rf <> 0)%nat -> (S i mod rf - 1 = i mod rf)%nat.
  Proof.
    intros H Z. pose proof (Nat.div_mod (S i) rf ltac:(lia)) as D. apply (Nat.mod_unique i rf (S i / rf)); [pose proof (Nat.mod_upper_bound (S i) rf ltac:(lia)); lia|lia].
  Qed.

  Lemma advance_spec i t X Rs d al t1 Rr dd t2 conv : inv i t X Rs d al -> direction n c lu fn t = Ok (t1, Some (Rr, dd)) ->
    advance n c fn i t1 Rr dd = Ok (t2, conv) ->
    exists X' Rs' d' al', inv (S i) t2 X' Rs' d' al' /\ agree i X X' /\ (forall j, (j < i)%nat -> meas X' Rs' d' j = meas X Rs d j) /\
      check_convg (c_stopping c) c (meas X' Rs' d' i) false = Ok conv.
  Proof.
    intros V HD H. pose proof (direction_spec _ _ _ _ _ _ _ _ V HD) as (D1 & D2 & D3 & D4 & D5 & D6 & D7 & D8 & D9 & D10 & D11 & D12 & D13 & D14 & D15 & D16 & D17 & D18).
    unfold advance in H. cbv zeta in H. apply bind_inv in H. destruct H as (step & HS & H).
    assert (ST : exists a, 0 < a <= 1 /\ (c_ls_iters c = 0%nat -> a = 1) /\ step = fun k => a * dd k).
    { destruct (Nat.ltb_spec 0 (c_ls_iters c)) as [L|L].
      - apply bind_inv in HS. destruct HS as ([[a Ra] b] & HL & HS). injection HS as <-. exists a. split; [exact (line_range_any _ _ _ _ _ _ _ _ _ HL)|]. split; [lia|reflexivity].
      - injection HS as <-. exists 1. split; [lra|]. split; [reflexivity|]. apply functional_extensionality. intros k. ring. }
    destruct ST as (a & Ha & Ha1 & ->). apply bind_inv in H. destruct H as (cv & HC & H). injection H as <- <-.
    set (X' := put X (S i) (fun k => t_X t1 k + a * dd k)). set (Rs' := put Rs i Rr). set (d' := put d i dd). set (al' := put al i a).
    assert (AX : agree i X X') by (intros j Hj; unfold X'; apply put_other; lia).
    assert (AR : forall j, (j < i)%nat -> Rs' j = Rs j) by (intros j Hj; unfold Rs'; apply put_other; lia).
    assert (Ad : forall j, (j < i)%nat -> d' j = d j) by (intros j Hj; unfold d'; apply put_other; lia).
    assert (EX : X' (S i) = fun k => X i k + a * dd k) by (unfold X'; rewrite put_same, D1; reflexivity).
    assert (ER : Rs' i = Rr) by apply put_same. assert (Ed : d' i = dd) by apply put_same. assert (Ea : al' i = a) by apply put_same.
    assert (EN : forall j, (j < i)%nat -> energy n X' Rs' j = energy n X Rs j).
    { intros j Hj. unfold energy. destruct (Nat.eqb_spec j 0); [reflexivity|]. unfold diff. rewrite !AX, AR by lia. reflexivity. }
    assert (PE : forall k, (0 < i)%nat -> last_pairs X' Rs' i k = last_pairs X Rs' i k).
    { intros k Hi. unfold last_pairs. apply map_ext_in. intros m _. unfold diff. rewrite !AX by lia. reflexivity. }
    assert (Z0 : (i mod rf <> 0)%nat -> (0 < i)%nat) by (intros Z; destruct i; [|lia]; exfalso; apply Z; apply mod_zero).
    assert (IT : iteration n rf fn lu X' Rs' d' al' i).
    { unfold iteration. rewrite ER, Ed, Ea, (AX i) by lia. rewrite D14 in D11. split; [exact D11|]. split; [intros k; rewrite EX; reflexivity|]. split; [exact Ha|]. split; [exact D17|].
      intros Z. destruct (D18 Z) as [Q1 Q2]. destruct D15 as [R0 D15]. exists R0, (t_lu t1). rewrite AX by lia. split; [exact D15|]. split.
      - specialize (Z0 Z). unfold diff in *. rewrite !AX by lia. exact Q1.
      - intros H0 HH k. rewrite (Q2 H0 HH). rewrite PE by (apply Z0; exact Z). reflexivity. }
    assert (EM : mkMeas (Some (sqrt (dot n Rr Rr))) (if Nat.eqb i 0 then None else odot n Rr (t_dXm1 t1)) (Some (sqrt (dot n dd dd)))
        (odiv (Some (sqrt (dot n Rr Rr))) (Some (if Nat.eqb i 0 then sqrt (dot n Rr Rr) else t_r0 t1)))
        (odiv (if Nat.eqb i 0 then None else odot n Rr (t_dXm1 t1))
           (if Nat.eqb i 0 then None else if Nat.eqb i 1 then option_map Rabs (if Nat.eqb i 0 then None else odot n Rr (t_dXm1 t1)) else t_e0 t1))
        (odiv (Some (sqrt (dot n dd dd))) (Some (if Nat.eqb i 0 then sqrt (dot n dd dd) else t_u0 t1))) = meas X' Rs' d' i).
    { unfold meas. unfold quantity. rewrite ER, Ed. unfold norm, energy. rewrite ER, D5, D6, D7, D8, (v_dX _ _ _ _ _ _ V).
      destruct (Nat.eqb_spec i 0) as [->|Hi].
      - rewrite ER, Ed. reflexivity.
      - destruct (v_0 _ _ _ _ _ _ V ltac:(lia)) as (W1 & W2 & W3). rewrite W1, W2, W3. rewrite (AR 0%nat), (Ad 0%nat) by lia.
        assert (DI : diff X' (i - 1) = diff X (i - 1)) by (unfold diff; rewrite !AX by lia; reflexivity). rewrite DI. cbn [Nat.eqb].
        destruct (Nat.eqb_spec i 1) as [->|Hi1].
        + replace (1 - 1)%nat with 0%nat in * by lia. rewrite DI, ER. reflexivity.
        + destruct (Nat.leb_spec i 1); [lia|]. fold (energy n X' Rs' 1). rewrite <- (EN 1%nat) by lia. unfold energy. cbn [Nat.eqb]. reflexivity. }
    cbv beta in HC. rewrite EM in HC.
    exists X', Rs', d', al'. split; [|split; [exact AX|split; [|exact HC]]].
    2:{ intros j Hj. unfold meas, quantity. rewrite !AR, !Ad by lia. rewrite !EN by lia. unfold energy. destruct (Nat.eqb_spec j 0) as [->|Hj0]; [reflexivity|].
        assert (E1 : diff X' (j - 1) = diff X (j - 1)) by (unfold diff; rewrite !AX by lia; reflexivity).
        cbn [Nat.eqb]. assert (E2 : diff X' (1 - 1) = diff X (1 - 1)) by (unfold diff; rewrite !AX by lia; reflexivity). rewrite E2, (AR 1%nat) by lia. reflexivity. }
    constructor; cbn [t_X t_dXm1 t_Rm1 t_ind t_pairs t_lu t_r0 t_u0 t_e0 t_R t_J t_meas t_nfev t_njev t_calls].
    - intros j Hj. destruct (Nat.eq_dec j i) as [->|Ne]; [exact IT|]. apply (iteration_ext j X X' Rs Rs' d d' al al'); [intros q Hq; apply AX; lia|intros q Hq; apply AR; lia|apply Ad; lia|apply put_other; exact Ne|]. apply V. lia.
    - intros L j Hj. destruct (Nat.eq_dec j i) as [->|Ne]; [rewrite Ea; apply Ha1; exact L|]. unfold al'. rewrite put_other by exact Ne. apply (v_ls _ _ _ _ _ _ V L). lia.
    - rewrite AX by lia. apply V.
    - rewrite EX, D1. reflexivity.
    - rewrite D9, (v_ind _ _ _ _ _ _ V). apply mod_next. exact D13.
    - cbn [Nat.eqb]. f_equal. unfold diff. replace (S i - 1)%nat with i by lia. rewrite EX, (AX i) by lia. apply functional_extensionality. intros k. ring.
    - intros _. replace (S i - 1)%nat with i by lia. symmetry. exact ER.
    - intros _. exact D13.
    - intros Z. assert (ME : (S i - S i mod rf = i - i mod rf)%nat) by (pose proof (mod_prev i D13 Z); lia). rewrite mod_prev by assumption. replace (S i - 1)%nat with i by lia. rewrite ME. split.
      + destruct (Nat.eq_dec i 0) as [->|Hi]; [rewrite D16, mod_zero; reflexivity|]. rewrite PE by lia. exact D16.
      + rewrite AX by lia. exact D15.
    - intros _. destruct (Nat.eqb_spec i 0) as [->|Hi].
      + rewrite ER, Ed. repeat split.
      + destruct (v_0 _ _ _ _ _ _ V ltac:(lia)) as (W1 & W2 & W3). rewrite D6, D7, D8, W1, W2, W3, (AR 0%nat), (Ad 0%nat) by lia. repeat split.
        destruct (Nat.eqb_spec i 1) as [->|Hi1].
        * cbn [Nat.leb]. rewrite D5, (v_dX _ _ _ _ _ _ V). cbn [Nat.eqb odot option_map energy]. unfold energy. cbn [Nat.eqb option_map]. rewrite ER. unfold diff. rewrite !AX by lia. reflexivity.
        * destruct (Nat.leb_spec i 1); [lia|]. destruct (Nat.leb_spec (S i) 1); [lia|]. rewrite EN by lia. reflexivity.
    - cbn [Nat.eqb]. replace (S i - 1)%nat with i by lia. f_equal. exact EM.
    - rewrite D2, (v_calls _ _ _ _ _ _ V). rewrite seq_S, map_app, rev_app_distr. cbn [map rev app Nat.add]. rewrite AX by lia. f_equal. f_equal. apply map_ext_in. intros j Hj. apply in_seq in Hj. rewrite AX by lia. reflexivity.
    - exact D3.
    - rewrite D4. reflexivity.
    - intros _. rewrite D14. replace (S i - 1)%nat with i by lia. rewrite ER. reflexivity.
    - intros _. replace (S i - 1)%nat with i by lia. rewrite AX by lia. exact D12.
  Qed.

  (** the whole loop *)
  Lemma loop_spec : forall todo i t X Rs d al t' e, inv i t X Rs d al -> (forall j, (j < i)%nat -> ~ met (c_stopping c) (meas X Rs d j)) ->
    newton_loop todo n c lu fn i t = Ok (t', e) ->
    exists m X' Rs' d' al', (i <= m <= i + todo)%nat /\
      (forall j, (S j < m)%nat -> ~ met (c_stopping c) (meas X' Rs' d' j)) /\
      match e with
      | Exhausted => m = (i + todo)%nat /\ inv m t' X' Rs' d' al' /\ ((0 < m)%nat -> ~ met (c_stopping c) (meas X' Rs' d' (m - 1)))
      | Converged => (i < m)%nat /\ inv m t' X' Rs' d' al' /\ met (c_stopping c) (meas X' Rs' d' (m - 1))
      | NanStop => (m < i + todo)%nat /\ ((0 < m)%nat -> ~ met (c_stopping c) (meas X' Rs' d' (m - 1))) /\
          exists t0, inv m t0 X' Rs' d' al' /\ direction n c lu fn t0 = Ok (t', None)
      end.
  Proof.
    induction todo as [|todo IH]; intros i t X Rs d al t' e V HN H.
    - injection H as <- <-. exists i, X, Rs, d, al. split; [lia|]. split; [intros j Hj; apply HN; lia|]. split; [lia|]. split; [exact V|]. intros Hi. apply HN. lia.
    - cbn [newton_loop] in H. apply bind_inv in H. destruct H as ([t1 o] & HD & H). destruct o as [[Rr dd]|].
      + apply bind_inv in H. destruct H as ([t2 conv] & HA & H). destruct (advance_spec _ _ _ _ _ _ _ _ _ _ _ V HD HA) as (X' & Rs' & d' & al' & V' & AX & AM & HC).
        pose proof (check_iff _ _ _ _ HC) as CI. destruct conv.
        * injection H as <- <-. exists (S i), X', Rs', d', al'. split; [lia|]. split; [intros j Hj; rewrite AM by lia; apply HN; lia|].
          split; [lia|]. split; [exact V'|]. replace (S i - 1)%nat with i by lia. apply CI. reflexivity.
        * destruct (IH (S i) t2 X' Rs' d' al' t' e V') as (m & X2 & Rs2 & d2 & al2 & Q1 & Q2 & Q3); [|exact H|].
          -- intros j Hj. destruct (Nat.eq_dec j i) as [->|Ne]; [intros M; apply CI in M; discriminate|]. rewrite AM by lia. apply HN. lia.
          -- exists m, X2, Rs2, d2, al2. split; [lia|]. split; [exact Q2|]. destruct e; [|destruct Q3 as [A B]; split; [lia|exact B]|destruct Q3 as [A B]; split; [lia|exact B]].
             destruct Q3 as (A & B). split; [lia|exact B].
      + injection H as <- <-. exists i, X, Rs, d, al. split; [lia|]. split; [intros j Hj; apply HN; lia|]. split; [lia|]. split; [intros Hi; apply HN; lia|]. exists t. auto.
  Qed.

  Lemma run_spec a : solve_with n c lu fn X0 = Ok a ->
    exists m X Rs d al, let L := List.length (a_calls a) in
      X 0%nat = X0 /\ a_X a = X m /\ (1 <= L <= c_max_steps c)%nat /\ (m = L \/ L = S m) /\
      a_calls a = map (fun j => (X j, flag j)) (seq 0 L) /\ s_nfev (a_sol a) = L /\ s_njev (a_sol a) = List.length (filter snd (a_calls a)) /\
      (forall j, (j < m)%nat -> iteration n rf fn lu X Rs d al j) /\
      (c_ls_iters c = 0%nat -> forall j, (j < m)%nat -> al j = 1) /\
      (exists Jo, fn (X (L - 1)%nat) (flag (L - 1)) = Ok (a_R a, Jo)) /\
      (exists R0, fn (X (L - 1 - (L - 1) mod rf)%nat) true = Ok (R0, a_J a)) /\
      (forall j, (S j < m)%nat -> ~ met (c_stopping c) (meas X Rs d j)) /\
      (s_success (a_sol a) = true -> (m = L)%nat /\
         (met (c_stopping c) (meas X Rs d (m - 1)) \/ m = c_max_steps c /\ met (c_accepting c) (meas X Rs d (m - 1)))) /\
      (s_success (a_sol a) = false -> m = L ->
         m = c_max_steps c /\ ~ met (c_stopping c) (meas X Rs d (m - 1)) /\ ~ met (c_accepting c) (meas X Rs d (m - 1))).
  Proof.
    unfold solve_with. intros H. apply bind_inv in H. destruct H as ([t e] & HL & H). apply bind_inv in H. destruct H as (suc & HS & H). injection H as <-.
    destruct (loop_spec _ _ _ _ _ _ _ _ _ start_inv ltac:(intros j Hj; lia) HL) as (m & X & Rs & d & al & Q1 & Q2 & Q3). cbn [Nat.add] in *.
    exists m, X, Rs, d, al. cbv zeta. cbn [a_X a_R a_J a_sol a_calls s_success s_nfev s_njev].
    assert (FIN : forall t0, inv m t0 X Rs d al -> (0 < m)%nat -> t0 = t ->
      (X 0%nat = X0 /\ t_X t = X m /\ List.length (rev (t_calls t)) = m /\ rev (t_calls t) = map (fun j => (X j, flag j)) (seq 0 m) /\ t_nfev t = m /\ t_njev t = List.length (filter snd (rev (t_calls t))) /\
       (exists Jo, fn (X (m - 1)%nat) (flag (m - 1)) = Ok (t_R t, Jo)) /\ exists R0, fn (X (m - 1 - (m - 1) mod rf)%nat) true = Ok (R0, t_J t))).
    { intros t0 V Hm ->. split; [apply V|]. split; [apply V|]. rewrite (v_calls _ _ _ _ _ _ V), rev_involutive. split; [rewrite map_length, seq_length; reflexivity|]. split; [reflexivity|]. split; [apply V|].
      split; [rewrite (v_njev _ _ _ _ _ _ V), (v_calls _ _ _ _ _ _ V), count_rev; reflexivity|]. split; [|apply (v_J _ _ _ _ _ _ V Hm)].
      destruct (v_it _ _ _ _ _ _ V (m - 1)%nat ltac:(lia)) as [[Jo I] _]. exists Jo. rewrite (v_R _ _ _ _ _ _ V Hm). exact I. }
    destruct e.
    - destruct Q3 as (A & B & t0 & V & HD). injection HS as <-.
      pose proof (direction_spec _ _ _ _ _ _ _ _ V HD) as (D1 & D2 & D3 & D4 & D5 & D6 & D7 & D8 & D9 & D10 & D11 & D12 & _).
      assert (EC : rev (t_calls t) = map (fun j => (X j, flag j)) (seq 0 (S m))).
      { rewrite D2. cbn [rev]. rewrite (v_calls _ _ _ _ _ _ V), rev_involutive, seq_S, map_app. reflexivity. }
      assert (EL : List.length (rev (t_calls t)) = S m) by (rewrite EC, map_length, seq_length; reflexivity).
      rewrite EL. replace (S m - 1)%nat with m by lia.
      split; [apply V|]. split; [exact D1|]. split; [lia|]. split; [right; reflexivity|]. split; [exact EC|]. split; [exact D3|].
      split; [rewrite D4, count_rev; reflexivity|]. split; [apply V|]. split; [apply V|]. split; [exact D11|]. split; [exact D12|]. split; [exact Q2|]. split; [discriminate|]. intros _ Q. lia.
    - destruct Q3 as (A & V & M). injection HS as <-. destruct (FIN t V ltac:(lia) eq_refl) as (F1 & F2 & F3 & F4 & F5 & F6 & F7 & F8). rewrite F3.
      split; [exact F1|]. split; [exact F2|]. split; [lia|]. split; [left; reflexivity|]. split; [exact F4|]. split; [exact F5|]. split; [exact F6|]. split; [apply V|]. split; [apply V|].
      split; [exact F7|]. split; [exact F8|]. split; [exact Q2|]. split; [intros _; split; [reflexivity|left; exact M]|discriminate].
    - destruct Q3 as (A & V & M). rewrite (v_meas _ _ _ _ _ _ V) in HS. destruct (Nat.eqb_spec m 0) as [Z|Z]; [discriminate|].
      destruct (FIN t V ltac:(lia) eq_refl) as (F1 & F2 & F3 & F4 & F5 & F6 & F7 & F8). rewrite F3. pose proof (check_iff _ _ _ _ HS) as CI.
      split; [exact F1|]. split; [exact F2|]. split; [lia|]. split; [left; reflexivity|]. split; [exact F4|]. split; [exact F5|]. split; [exact F6|]. split; [apply V|]. split; [apply V|].
      split; [exact F7|]. split; [exact F8|]. split; [exact Q2|]. split.
      + intros ->. split; [reflexivity|]. right. split; [exact A|]. apply CI. reflexivity.
      + intros -> _. split; [exact A|]. split; [apply M; lia|]. intros Q. apply CI in Q. discriminate.
  Qed.
End Run.
