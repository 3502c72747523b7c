(** Forces of the rough contact element: static evaluation and alternating frequency time evaluation. *)
From Coq Require Import Reals Lra Lia Arith List Bool FunctionalExtensionality.
From Verif.Lib Require Import RSum Calc Py.
From Verif.Spec Require Import Calculus Harmonic Slider Rough RoughCalls.
From Verif.Model Require Import Harmonic LocalForces Aft JaxDual JaxFloat RoughContact.
From Verif.Proofs Require Import HarmonicP AftP JaxDualP JaxFrictionP JaxFloatP RoughNormalP RoughStaticP RoughCallsP RoughHistoryP RoughSteadyP RoughCasesP SliderP.
Import ListNotations.
Open Scope R_scope.

Lemma all_values_true n x : (forall t, (t < n)%nat -> finite (x t)) -> all_values n x = true.
Proof. intros H. apply forallb_forall. intros t Ht. apply in_seq in Ht. destruct (H t ltac:(lia)) as [v Hv]. rewrite Hv. reflexivity. Qed.
Lemma fv_get x a : fv x a -> getR (fval x) = a.
Proof. intros H. rewrite H. reflexivity. Qed.

Lemma jax_aft_force N nnl Q T h lc F U w : admissible h -> (0 < nnl)%nat -> (1 < length (components h))%nat -> (forall V, lc (seeded nnl V) = Ok (F V)) ->
  exists dU dw, jax_aft N nnl Q T lc U w h = Ok (aft_global N nnl T (fun d c => dv (F (join nnl h (loc N nnl Q h U) w) c d)), dU, dw) /\
  (fun c d => dseed (fun i => if Nat.ltb i (aft_Nhc h * nnl) then aft_Unl N Q U (i / nnl) (i mod nnl) else w) (c * nnl + d)%nat) = seeded nnl (join nnl h (loc N nnl Q h U) w).
Proof.
  intros Ha Hnnl Htwo HF. set (nhc := length (components h)) in *. rewrite (nhc_aft h). fold nhc.
  assert (EV : (fun c d => dseed (fun i => if (i <? nhc * nnl)%nat then aft_Unl N Q U (i / nnl) (i mod nnl) else w) (c * nnl + d)%nat) = seeded nnl (join nnl h (loc N nnl Q h U) w)).
  { unfold seeded. extensionality c. extensionality d. unfold dseed. f_equal. unfold join. fold nhc. destruct (Nat.ltb_spec (c * nnl + d) (nhc * nnl)); [|reflexivity].
    destruct (block_form nhc nnl (c * nnl + d) H) as (c' & d' & Hc' & Hd' & E). rewrite E. destruct (divmod_block nnl c' d' Hd') as [-> ->]. symmetry. apply loc_Unl; assumption. }
  unfold jax_aft. rewrite (nhc_ok h Ha). cbn [bind]. rewrite (nhc_aft h). fold nhc.
  destruct (Nat.eqb_spec nhc 0); [lia|]. assert (ED : ((nhc * nnl + 1) / nhc = nnl)%nat) by (rewrite (Nat.mul_comm nhc nnl), Nat.div_add_l by lia; rewrite Nat.div_small by lia; lia).
  rewrite ED. rewrite (Nat.mul_comm nnl nhc), Nat.eqb_refl. cbn [negb]. rewrite EV, HF. cbn [bind]. do 2 eexists. split; reflexivity.
Qed.

Section RoughAft.
  Variables (s : solid) (r : rough) (N : nat) (Q T : mat) (st : rough_state) (h : list nat) (Nt : nat).
  Hypothesis Hs : physical s.
  Hypothesis Hmat : r_mat r = mat_of s.
  Hypothesis Hgap : forall i, (i < r_n r)%nat -> 0 <= r_meso r + r_gaps r i.
  Hypothesis Hmu : 0 <= rs_mu st.
  Hypothesis Hmodel : model_ok (r_model r).
  Hypothesis Ha : admissible h.
  Hypothesis HN : (2 * list_max h + 1 < Nt)%nat.
  Hypothesis Hev : Nat.even Nt = true.
  Let nhc := length (components h).
  Hypothesis Htwo : (1 < nhc)%nat.

  Lemma aft_rows U w n : exists F J unlt, rough_aft r N Q T st U w h Nt (S n) = Ok (Some F, J) /\
    (forall t d, (t < Nt)%nat -> (d < 3)%nat -> dv (unlt t d) = local_motion N Q h U d (sample_phase Nt t)) /\
    forall c i, (c < nhc)%nat -> (i < N)%nat -> F (c * N + i)%nat =
      rsum 3 (fun d => T i d * fourier_coef Nt (fun t => getR (fval (rough_history r (rs_mu st) Nt unlt (rs_aft_u0 st) (S n) t d))) (nth c (components h) (Cos O))).
  Proof.
    assert (HNt : (0 < Nt)%nat) by lia.
    destruct (seeded_samples 3 h Nt Ha HN Hev ltac:(lia)) as (unl & E & S).
    set (hist := fun V => rough_history r (rs_mu st) Nt (unl V) (rs_aft_u0 st) (Datatypes.S n)).
    destruct (gfc_dual_grad h Nt Ha HN 0 (fun V t d => fdual_get (hist V t d))) as (F & EF & VF & _). fold nhc in VF.
    set (G := fun V c d => mkF (if all_values Nt (fun t => hist V t d) then Some (dv (F V c d)) else None) (if all_tangents Nt (fun t => hist V t d) then Some (dt (F V c d)) else None)).
    assert (EL : forall V, rough_local r (rs_mu st) (rs_aft_u0 st) h Nt (Datatypes.S n) (seeded 3 V) = Ok (G V)).
    { intros V. unfold rough_local. rewrite E. cbn [bind]. fold (hist V). rewrite EF. cbn [bind]. reflexivity. }
    assert (Rows : forall V t, (t < Nt)%nat -> row_ok s r (rs_mu st) Nt (unl V) (rs_aft_u0 st) (n * Nt + t) t (hist V t)) by (intros V t Ht; apply history_value; assumption).
    assert (Fin : forall V t d, (t < Nt)%nat -> (d < 3)%nat -> finite (hist V t d)).
    { intros V t d Ht Hd. destruct (Rows V t Ht) as [A B]. destruct (Nat.eq_dec d 2) as [->|]; [eexists; exact A|]. destruct (B d ltac:(lia)) as (f & Hf & _). eexists. exact Hf. }
    assert (AV : forall V d, (d < 3)%nat -> all_values Nt (fun t => hist V t d) = true) by (intros V d Hd; apply all_values_true; intros t Ht; apply Fin; assumption).
    unfold rough_aft.
    destruct (jax_aft_force N 3 Q T h (fun Ul => do G <- rough_local r (rs_mu st) (rs_aft_u0 st) h Nt (Datatypes.S n) Ul; Ok (fun c d => fdual_get (G c d))) (fun V c d => fdual_get (G V c d)) U w Ha ltac:(lia) Htwo) as (dU & dw & EJ & ES).
    { intros V. rewrite EL. reflexivity. }
    rewrite EJ. cbn [bind]. rewrite ES, EL. cbn [bind]. set (V := join 3 h (loc N 3 Q h U) w) in *. rewrite (nhc_aft h). fold nhc.
    assert (AG : all_values (nhc * 3) (fun p => G V (p / 3)%nat (p mod 3)%nat) = true).
    { apply all_values_true. intros p Hp. exists (dv (F V (p / 3)%nat (p mod 3)%nat)). unfold fv, G. cbn [fval]. rewrite AV; [reflexivity|]. apply Nat.mod_upper_bound. lia. }
    rewrite AG. do 3 eexists. split; [reflexivity|]. split.
    2:{ intros c i Hc Hi. unfold aft_global. destruct (divmod_block N c i Hi) as [-> ->]. unfold matvec. apply rsum_ext. intros d Hd. f_equal. unfold G, fdual_get. cbn [fval ftan dv]. rewrite AV by exact Hd. cbn [getR].
      rewrite (proj1 (VF V c d Hc)). reflexivity. }
    intros t d Ht Hd. rewrite (proj1 (S t d Ht Hd)). rewrite <- (lser_loc N 3 Q h U d) by exact Hd. unfold lser. apply (series_ext h). intros c Hc. unfold V, join. fold nhc in Hc |- *. destruct (Nat.ltb_spec (c * 3 + d) (nhc * 3)); [reflexivity|lia].
  Qed.

  Lemma aft_forces U w n : exists F J, rough_aft r N Q T st U w h Nt (S n) = Ok (Some F, J) /\
    exists f : nat -> nat -> R,
      (forall c i, (c < nhc)%nat -> (i < N)%nat -> F (c * N + i)%nat = rsum 3 (fun d => T i d * fourier_coef Nt (f d) (nth c (components h) (Cos O)))) /\
      forall t, (t < Nt)%nat ->
        let u := fun d t => local_motion N Q h U d (sample_phase Nt t) in
        exists um, largest Nt (u 2%nat) um /\
        let g := fun i => r_meso r + r_gaps r i in
        let fn := fun i => cycle_force s (um - g i) (u 2%nat t - g i) in
        f 2%nat t = rsum (r_n r) (fun i => r_weights r i * fn i) /\
        forall d, (d < 2)%nat ->
          (r_model r = TAN -> f d t = rsum (r_n r) (fun i => r_weights r i *
             cycle_friction s (rs_mu st) (um - g i) (repeat_samples Nt (fun t => u 2%nat t - g i)) (repeat_samples Nt (u d)) (rs_aft_u0 st d) (n * Nt + t))) /\
          ((forall i, (i < r_n r)%nat -> 0 <= r_weights r i) -> Rabs (f d t) <= rs_mu st * f 2%nat t).
  Proof.
    assert (HNt : (0 < Nt)%nat) by lia. destruct (aft_rows U w n) as (F & J & unlt & E & EU & EF). exists F, J. split; [exact E|].
    exists (fun d t => getR (fval (rough_history r (rs_mu st) Nt unlt (rs_aft_u0 st) (S n) t d))). split; [exact EF|].
    assert (Rows : forall t, (t < Nt)%nat -> row_ok s r (rs_mu st) Nt unlt (rs_aft_u0 st) (n * Nt + t) t (rough_history r (rs_mu st) Nt unlt (rs_aft_u0 st) (S n) t)) by (intros t Ht; apply history_value; assumption).
    intros t Ht. cbv zeta.
    exists (vmax Nt (fun t => dv (unlt t 2%nat))). split.
    { destruct (vmax_spec Nt (fun t => dv (unlt t 2%nat)) HNt) as [M1 (t' & Ht' & M2)]. split.
      - intros t'' Ht''. rewrite <- EU by lia. apply (M1 t'' Ht'').
      - exists t'. split; [exact Ht'|]. rewrite <- EU by lia. symmetry. exact M2. }
    destruct (Rows t Ht) as [A B]. set (um := vmax Nt (fun t0 => dv (unlt t0 2%nat))) in *.
    rewrite (fv_get _ _ A). rewrite EU by lia. split; [reflexivity|].
    intros d Hd. destruct (B d Hd) as (f & Hf & Ef & Bf). rewrite (fv_get _ _ Hf). rewrite EU in Bf by lia. split; [|exact Bf].
    intros Em. rewrite (Ef Em). apply rsum_ext. intros i Hi. f_equal. f_equal.
    + extensionality k. unfold repeat_samples. rewrite EU; [reflexivity|apply Nat.mod_upper_bound; lia|lia].
    + extensionality k. unfold repeat_samples. rewrite EU; [reflexivity|apply Nat.mod_upper_bound; lia|lia].
  Qed.
End RoughAft.

(** ---- static forces ---- *)
Lemma static_forces s r N Q (T : mat) u0 st cs X upd : physical s -> r_mat r = mat_of s -> (forall i, (i < r_n r)%nat -> 0 <= r_meso r + r_gaps r i) -> 0 <= r_mu r -> model_ok (r_model r) ->
  rough_new r u0 = Ok st ->
  let res := snd (rough_force r N Q (rough_run r N Q st cs) X upd) in
  let mu := rough_mu_after (r_mu r) cs in
  let g := fun i => r_meso r + r_gaps r i in
  let M := fun i => memory_after s (g i) (rough_moves (r_mu r) N Q cs) in
  let u := fun d => rsum N (fun j => Q d j * X j) in
  let fn := fun i => asperity_force s (mem_d (M i)) (mem_F (M i)) (u 2%nat - g i) in
  (forall i, (i < r_n r)%nat -> fval (st_fn res i) = Some (fn i) /\ fval (st_a res i) = Some (asperity_radius s (mem_d (M i)) (mem_F (M i)) (u 2%nat - g i)) /\
     (r_model r = TAN -> forall d, fval (st_fxy res i 0%nat d) = Some (asperity_friction s mu (mem_d (M i)) (mem_F (M i)) (u 2%nat - g i) (u d - mem_u (M i) d) (mem_f (M i) d)))) /\
  exists f : nat -> R, force_values T res = Some (fun p => rsum 3 (fun d => T p d * f d)) /\
    f 2%nat = rsum (r_n r) (fun i => r_weights r i * fn i) /\
    forall d, (d < 2)%nat ->
      (r_model r = TAN -> f d = rsum (r_n r) (fun i => r_weights r i * asperity_friction s mu (mem_d (M i)) (mem_F (M i)) (u 2%nat - g i) (u d - mem_u (M i) d) (mem_f (M i) d))) /\
      ((forall i, (i < r_n r)%nat -> 0 <= r_weights r i) -> Rabs (f d) <= mu * f 2%nat).
Proof.
  intros Hs Hmat Hgap Hmu Hmodel Hnew. cbv zeta. destruct (tracks_run s r N Q Hs Hmat Hgap Hmu Hmodel u0 st cs Hnew) as (Em & Hm & HM). cbv zeta in *. set (st' := rough_run r N Q st cs) in *.
  cbn [rough_force snd]. destruct (static_values s r Hs Hmat Hmodel st' (seeded_local N Q X) (matvec N Q X) (fun i => memory_after s (r_meso r + r_gaps r i) (rough_moves (r_mu r) N Q cs)) Hm (fun d => eq_refl) HM) as (A & B & C).
  cbv zeta in *. set (res := static_force r st' (seeded_local N Q X)) in *. rewrite Em in *. split.
  - intros i Hi. destruct (A i Hi) as (A1 & A2 & _ & A4). split; [exact A1|]. split; [exact A2|]. intros Et. rewrite Et in A4. exact A4.
  - exists (fun d => getR (fval (st_f res d))). split.
    { unfold force_values. rewrite all_values_true; [reflexivity|]. intros d Hd. destruct (Nat.eq_dec d 2) as [->|]; [eexists; exact B|]. destruct (C d ltac:(lia)) as (f & Hf & _). eexists. exact Hf. }
    rewrite (fv_get _ _ B). split; [reflexivity|]. intros d Hd. destruct (C d Hd) as (f & Hf & Ef & Bf). rewrite (fv_get _ _ Hf). split; assumption.
Qed.

(** ---- steady histories ---- *)
Lemma steady_histories s r mu Nt unlt start n : physical s -> r_mat r = mat_of s -> (forall i, (i < r_n r)%nat -> 0 <= r_meso r + r_gaps r i) -> 0 <= mu -> r_model r = TAN -> (0 < Nt)%nat ->
  (forall i, (i < r_n r)%nat -> (exists t um, (t < Nt)%nat /\ largest Nt (fun t => unlt t 2%nat) um /\ cycle_force s (um - (r_meso r + r_gaps r i)) (unlt t 2%nat - (r_meso r + r_gaps r i)) = 0) \/ (forall t, (t < Nt)%nat -> unlt t 2%nat = unlt O 2%nat)) ->
  forall st, rs_mu st = mu -> forall t d, (t < Nt)%nat -> (d < 3)%nat -> rough_local_force_history r st Nt unlt start (2 + n) t d = rough_local_force_history r st Nt unlt start 2 t d.
Proof.
  intros Hs Hmat Hgap Hmu Hmodel HNt Hst st Est t d Ht Hd. unfold rough_local_force_history. rewrite Est. assert (Hok : model_ok (r_model r)) by (rewrite Hmodel; exact I).
  destruct (history_value s r mu Nt (fun t d => dconst (unlt t d)) start Hs Hmat Hgap Hmu Hok HNt (S n) t Ht) as [A B].
  destruct (history_value s r mu Nt (fun t d => dconst (unlt t d)) start Hs Hmat Hgap Hmu Hok HNt 1 t Ht) as [A' B']. change (2 + n)%nat with (S (S n)).
  destruct (Nat.eq_dec d 2) as [->|Hne]; [unfold fv in A, A'; rewrite A, A'; reflexivity|].
  destruct (B d ltac:(lia)) as (f & Hf & Ef & _). destruct (B' d ltac:(lia)) as (f' & Hf' & Ef' & _). unfold fv in Hf, Hf'. rewrite Hf, Hf'. f_equal. rewrite (Ef Hmodel), (Ef' Hmodel). apply rsum_ext. intros i Hi. f_equal.
  cbn [dconst dv]. set (um := vmax Nt (fun t0 => unlt t0 2%nat)).
  assert (St : let f := cycle_friction s mu (um - (r_meso r + r_gaps r i)) (repeat_samples Nt (fun t => unlt t 2%nat - (r_meso r + r_gaps r i))) (repeat_samples Nt (fun t => unlt t d)) (start d) in steady_state Nt f (fun k => f (Nt + k)%nat) /\
     forall n k, (1 <= n)%nat -> (k < Nt)%nat -> f (n * Nt + k)%nat = f (Nt + k)%nat).
  { cbv zeta. set (ff := cycle_friction _ _ _ _ _ _).
    destruct (Hst i Hi) as [(t' & um' & Ht' & Hl & H0)|Hc].
    - assert (um' = um) as ->. { destruct Hl as [L1 (t1 & L2 & L3)]. destruct (vmax_spec Nt (fun t => unlt t 2%nat) HNt) as [M1 (t2 & M2 & M3)]. fold um in M1, M3. specialize (L1 t2 M2). specialize (M1 t1 L2). lra. }
      split; [apply (friction_open s mu _ (start d) Nt (fun t => unlt t 2%nat - (r_meso r + r_gaps r i)) (fun t => unlt t d) Hs Hmu HNt t' Ht' H0)|].
      intros p k Hp Hk. apply (friction_open_pass s mu _ (start d) Nt (fun t => unlt t 2%nat - (r_meso r + r_gaps r i)) (fun t => unlt t d) Hs Hmu HNt t' Ht' H0); assumption.
    - assert (Hc' : forall t, (t < Nt)%nat -> unlt t 2%nat - (r_meso r + r_gaps r i) = unlt O 2%nat - (r_meso r + r_gaps r i)) by (intros t0 Ht0; rewrite (Hc t0 Ht0); reflexivity).
      split; [apply (friction_constant s mu _ (start d) Nt (fun t => unlt t 2%nat - (r_meso r + r_gaps r i)) (fun t => unlt t d) Hs Hmu HNt _ Hc')|].
      intros p k Hp Hk. apply (friction_constant_pass s mu _ (start d) Nt (fun t => unlt t 2%nat - (r_meso r + r_gaps r i)) (fun t => unlt t d) Hs Hmu HNt _ Hc'); assumption. }
  destruct St as [_ St]. rewrite (St (S n) t ltac:(lia) Ht). rewrite (St 1%nat t ltac:(lia) Ht). reflexivity.
Qed.

(** ---- witnesses ---- *)
Definition steel_contact : rough := mkRough (mat_of steel) 1 (fun _ => 0) (fun _ => 1) 0 TAN (1/2).
Definition mat3 : mat := fun i j => if Nat.eqb i j then 1 else 0.
Definition press (x : R) : vec := fun d => match d with 2%nat => x | _ => 0 end.
Lemma press_local x d : (d < 3)%nat -> rsum 3 (fun j => mat3 d j * press x j) = press x d.
Proof. intros Hd. destruct d as [|[|[|d]]]; [..|lia]; cbn; ring. Qed.

Lemma out_of_contact_case : exists st x f, rough_new steel_contact (U0Scalar 0) = Ok st /\
  let res := snd (rough_force steel_contact 3 mat3 (rough_run steel_contact 3 mat3 st [RForce (press (2 * yield_interference steel)) true]) (press x) false) in
  x < 0 /\ 0 < f /\ fval (st_fn res 0%nat) = Some f /\ force_values mat3 res = Some (fun p => rsum 3 (fun d => mat3 p d * press f d)).
Proof.
  set (dy := yield_interference steel). pose proof steel_physical as Hs. assert (Hdy : 0 < dy) by (apply yield_pos; exact Hs).
  set (E := effective_modulus steel). set (F := plastic_law steel (2 * dy)). set (db := permanent E (s_R steel) (2 * dy) F).
  assert (HF : 0 < F) by (apply plastic_pos; [exact Hs|lra]). pose proof steel_plastic as HP. fold dy in HP. fold F in HP.
  assert (HH : 0 < solid_hertz steel (2 * dy)) by (apply hertz_pos; [apply effective_pos; exact Hs|cbn; lra|lra]).
  assert (Hdb : db < 0). { unfold db, permanent. fold (solid_hertz steel (2 * dy)). fold E. change (hertz E (s_R steel) (2 * dy)) with (solid_hertz steel (2 * dy)).
    assert (1 < F / solid_hertz steel (2 * dy)) by (apply (Rmult_lt_reg_r (solid_hertz steel (2 * dy))); [exact HH|]; unfold Rdiv; rewrite Rmult_assoc, Rinv_l by lra; lra). nra. }
  set (cs := [RForce (press (2 * dy)) true]). eexists. exists (db / 2). set (f := solid_unloading steel (2 * dy) F (db / 2)). exists f. split; [reflexivity|]. cbv zeta.
  set (st := init_history _).
  pose proof (static_forces steel steel_contact 3 mat3 mat3 (U0Scalar 0) st cs (press (db / 2)) false Hs eq_refl (fun i _ => ltac:(cbn; lra)) ltac:(cbn; lra) I eq_refl) as K. cbv zeta in K.
  set (res := snd (rough_force steel_contact 3 mat3 (rough_run steel_contact 3 mat3 st cs) (press (db / 2)) false)) in *.
  assert (Mem : memory_after steel (0 + 0) (rough_moves (1/2) 3 mat3 cs) = remember steel (0 + 0) (mkMemory (0 - (0 + 0)) 0 (fun _ => 0) (fun _ => 0)) (1/2, fun d => rsum 3 (fun j => mat3 d j * press (2 * dy) j))) by reflexivity.
  cbn [r_meso r_gaps r_mu steel_contact r_n r_weights r_model] in K. rewrite Mem in K. clear Mem.
  assert (Hyl : yield_limit steel < 2 * dy) by (unfold yield_limit; fold dy; lra). assert (Hyp : 0 < yield_limit steel) by (unfold yield_limit; fold dy; lra).
  assert (Pf : asperity_force steel (0 - (0 + 0)) 0 (2 * dy) = F).
  { replace (0 - (0 + 0)) with (0 - 0) by ring. rewrite (peak_force steel Hs) by lra. destruct (Rlt_dec _ _); [lra|]. destruct (Rlt_dec _ _); [reflexivity|lra]. }
  cbn [remember mem_d mem_F mem_u mem_f fst snd] in K. rewrite !press_local in K by lia. cbn [press] in K. replace (2 * dy - (0 + 0)) with (2 * dy) in K by ring. rewrite Pf in K. rewrite (Rmax_right 0 F), (Rmax_right (0 - (0 + 0)) (2 * dy)) in K by lra.
  replace (db / 2 - (0 + 0)) with (db / 2) in K by ring.
  assert (Ff : asperity_force steel (2 * dy) F (db / 2) = f).
  { unfold asperity_force. rewrite Rmax_left by lra. destruct (Rlt_dec (2 * dy) (yield_limit steel)); [lra|]. destruct (Rlt_dec _ (db / 2)) as [Z|_]; [pose proof (Rmax_l (2 * dy) (yield_limit steel)); lra|].
    destruct (Rlt_dec 0 (Rmin (2 * dy) F)) as [|Z]; [reflexivity|]. exfalso. apply Z. apply Rmin_glb_lt; lra. }
  rewrite Ff in K. destruct K as [K1 (fv & K2 & K3 & K4)]. assert (Fp : 0 < f).
  { unfold f, solid_unloading, unloading. cbv zeta. fold E. fold db. destruct (Rlt_dec db (db / 2)); [|lra]. apply Rmult_lt_0_compat; [exact HF|]. assert (0 < (db / 2 - db) / (2 * dy - db)) by (apply Rdiv_lt_0_compat; lra). apply Rmult_lt_0_compat; [assumption|apply sqrt_lt_R0; assumption]. }
  split; [lra|]. split; [exact Fp|]. split; [apply (K1 0%nat); lia|]. rewrite K2. f_equal. apply functional_extensionality. intros p. cbn [rsum] in K3.
  assert (Z : forall d, (d < 2)%nat -> fv d = 0).
  { intros d Hd. destruct (K4 d Hd) as [Kt _]. rewrite (Kt eq_refl). match goal with |- rsum 1 ?f = 0 => change (rsum 1 f) with (0 + f 0%nat) end. cbn beta. rewrite Rplus_0_l, Rmult_1_l. unfold asperity_friction. cbv zeta. rewrite !press_local by lia.
    assert (Pd : press (db / 2) d = 0 /\ press (2 * dy) d = 0) by (destruct d as [|[|d]]; [split; reflexivity..|lia]). destruct Pd as [-> ->].
    match goal with |- clamp _ _ (clamp _ _ (0 + ?a * (0 - 0)) + ?b * (0 - 0)) = 0 => replace (0 + a * (0 - 0)) with 0 by ring; generalize b end. intros b.
    rewrite Ff. replace (2 * dy - (0 + 0)) with (2 * dy) by ring. rewrite Pf. change (rough_mu_after (1/2) cs) with (1/2). replace (b * (0 - 0)) with 0 by ring. rewrite (clamp_id (- (1 / 2 * F))), clamp_id by lra. ring. }
  cbn [rsum]. rewrite (Z 0%nat), (Z 1%nat), K3 by lia. cbn [press]. ring.
Qed.

Lemma yield_gap_case s : physical s -> let r := mkRough (mat_of s) 1 (fun _ => 0) (fun _ => 1) 0 TAN (1/2) in exists st, rough_new r (U0Scalar 0) = Ok st /\
  forall x, let res := snd (rough_force r 3 mat3 st (press x) false) in
    (x < yield_limit s -> fval (st_fn res 0%nat) = Some (solid_hertz s x)) /\ (x = yield_limit s -> fval (st_fn res 0%nat) = Some 0) /\ (yield_limit s < x -> fval (st_fn res 0%nat) = Some (plastic_law s x)).
Proof.
  intros Hs r. eexists. split; [reflexivity|]. intros x. cbv zeta. set (st := init_history _).
  pose proof (static_forces s r 3 mat3 mat3 (U0Scalar 0) st [] (press x) false Hs eq_refl (fun i _ => ltac:(cbn; lra)) ltac:(cbn; lra) I eq_refl) as [K _]. cbv zeta in K. destruct (K 0%nat ltac:(cbn; lia)) as [A _]. clear K.
  change (rough_run r 3 mat3 st []) with st in A. rewrite A. rewrite press_local by lia. cbn [r_meso r_gaps r press r_mu]. change (rough_moves (1/2) 3 mat3 []) with (@nil (R * vec)).
  destruct (yield_gap s (0 + 0) Hs ltac:(lra)) as (Y1 & Y2 & Y3). cbv zeta in *. replace (x - (0 + 0)) with x by ring. split; [|split].
  - intros H. f_equal. apply Y1. exact H.
  - intros ->. f_equal. exact Y2.
  - intros H. f_equal. apply Y3. exact H.
Qed.

Lemma model_not_0 r : r_model r <> MIF 0 -> model_ok (r_model r).
Proof. intros H. destruct (r_model r) as [|[|k]]; cbn; [exact I|congruence|lia]. Qed.

Lemma out_of_contact_witness : exists s r N Q st cs X f, physical s /\ r_mat r = new_material (s_E s) (s_nu s) (s_R s) (s_Et s) (s_Sy s) /\ (forall i, (i < r_n r)%nat -> 0 <= r_meso r + r_gaps r i) /\
  rough_new r (U0Scalar 0) = Ok st /\ rsum N (fun j => Q 2%nat j * X j) < r_meso r + r_gaps r 0%nat /\
  fval (st_fn (snd (rough_force r N Q (rough_run r N Q st cs) X false)) 0%nat) = Some f /\ 0 < f.
Proof.
  destruct out_of_contact_case as (st & x & f & E & Hx & Hf & Ef & _). exists steel, steel_contact, 3%nat, mat3, st, [RForce (press (2 * yield_interference steel)) true], (press x), f.
  split; [exact steel_physical|]. split; [reflexivity|]. split; [intros; cbn; lra|]. split; [exact E|]. split; [rewrite press_local by lia; cbn; lra|]. split; [exact Ef|exact Hf].
Qed.

Lemma ratchet_witness n : exists s r st Nt unlt a b, physical s /\ r_mat r = new_material (s_E s) (s_nu s) (s_R s) (s_Et s) (s_Sy s) /\ (forall i, (i < r_n r)%nat -> 0 <= r_meso r + r_gaps r i) /\ rough_new r (U0Scalar 0) = Ok st /\ (0 < Nt)%nat /\
  rough_local_force_history r st Nt unlt (fun _ => 0) (S n) 0 0 = Some a /\ rough_local_force_history r st Nt unlt (fun _ => 0) (S (S n)) 0 0 = Some b /\ a <> b.
Proof.
  destruct (ratchet_never n) as (unlt & H). exists soft, ratchet_contact. eexists. destruct (H (init_history (mkRS 1 0 (fun _ => Some 0) (fun _ => 0) (fun _ _ _ => Some 0) (fun _ _ => Some 0) (fun d => if Nat.ltb d 2 then 0 else 0))) eq_refl) as (a & b & A & B & C).
  exists 2%nat, unlt, a, b. split; [exact soft_physical|]. split; [reflexivity|]. split; [intros; cbn; lra|]. split; [reflexivity|]. split; [lia|]. split; [exact A|]. split; [exact B|exact C].
Qed.

(** a yielded asperity *)
Lemma yielded_case : physical steel /\ let M := memory_after steel 0 [(1/2, press (2 * yield_interference steel))] in
  yield_limit steel < mem_d M /\ 0 < mem_F M /\ solid_hertz steel (mem_d M) < mem_F M.
Proof.
  pose proof steel_physical as Hs. split; [exact Hs|]. cbv zeta. pose proof (yield_pos steel Hs) as Hdy. cbn [memory_after fold_left remember mem_d mem_F snd press]. set (dy := yield_interference steel) in *. rewrite Rminus_0_r.
  assert (Hyl : 0 < yield_limit steel < 2 * dy) by (unfold yield_limit; fold dy; lra). replace (0 - 0) with 0 by ring. rewrite Rmax_right by lra. rewrite Rminus_0_r.
  assert (Pf : asperity_force steel 0 0 (2 * dy) = plastic_law steel (2 * dy)).
  { replace 0 with (0 - 0) at 1 by ring. rewrite (peak_force steel Hs) by lra. destruct (Rlt_dec _ _); [lra|]. destruct (Rlt_dec _ _); [reflexivity|lra]. }
  rewrite Pf. pose proof (plastic_pos steel Hs (2 * dy) ltac:(lra)). rewrite Rmax_right by lra. split; [lra|]. split; [assumption|apply steel_plastic].
Qed.

(** an asperity that separates once per cycle *)
Lemma separating_case : let u := fun t => match t with O => 1 | _ => -1 end in
  largest 2 u 1 /\ cycle_force soft (1 - 0) (u 1%nat - 0) = 0 /\ 0 < cycle_force soft (1 - 0) (u O - 0).
Proof.
  cbv zeta. split; [|split].
  - split; [intros [|t] Ht; lra|]. exists O. split; [lia|reflexivity].
  - unfold cycle_force. pose proof soft_limit. destruct (Rlt_dec (1 - 0) _); [|lra]. unfold solid_hertz. apply hertz_open. lra.
  - unfold cycle_force. pose proof soft_limit. destruct (Rlt_dec (1 - 0) _); [|lra]. apply hertz_pos; [rewrite soft_modulus; lra|cbn; lra|lra].
Qed.

Lemma memory_out s g : physical s -> 0 <= g -> forall mvs x, let M := memory_after s g mvs in
  (mem_F M <= solid_hertz s (mem_d M) -> x <= 0 -> asperity_force s (mem_d M) (mem_F M) x = 0) /\
  (mem_d M < yield_limit s -> mem_F M <= solid_hertz s (mem_d M)) /\
  (yield_limit s <= mem_d M -> x <= mem_d M -> x <= permanent (effective_modulus s) (s_R s) (mem_d M) (mem_F M) -> asperity_force s (mem_d M) (mem_F M) x = 0).
Proof.
  intros Hs Hg mvs x. cbv zeta. split; [apply memory_separated; assumption|]. split.
  - intros Hd. right. apply (memory_elastic s g Hs Hg mvs 0 Hd).
  - intros Hd Hx Hp. apply (memory_open s g mvs x Hx). destruct (Rlt_dec _ _); [lra|exact Hp].
Qed.
Lemma yield_limit_witness s : physical s ->
  let r := mkRough (new_material (s_E s) (s_nu s) (s_R s) (s_Et s) (s_Sy s)) 1 (fun _ => 0) (fun _ => 1) 0 TAN (1/2) in
  exists Q st, rough_new r (U0Scalar 0) = Ok st /\ forall x, exists X, rsum 3 (fun j => Q 2%nat j * X j) = x /\
    let res := snd (rough_force r 3 Q st X false) in
    (x < yield_limit s -> fval (st_fn res 0%nat) = Some (solid_hertz s x)) /\
    (x = yield_limit s -> fval (st_fn res 0%nat) = Some 0) /\
    (yield_limit s < x -> fval (st_fn res 0%nat) = Some (plastic_law s x)).
Proof.
  intros Hs r. destruct (yield_gap_case s Hs) as (st & E & H). exists mat3, st. split; [exact E|]. intros x. exists (press x). split; [apply (press_local x 2); lia|]. exact (H x).
Qed.
Lemma static_friction s r N Q u0 st cs X upd : physical s -> r_mat r = mat_of s -> (forall i, (i < r_n r)%nat -> 0 <= r_meso r + r_gaps r i) -> 0 <= r_mu r -> r_model r = TAN -> rough_new r u0 = Ok st ->
  let res := snd (rough_force r N Q (rough_run r N Q st cs) X upd) in
  let mu := rough_mu_after (r_mu r) cs in
  let g := fun i => r_meso r + r_gaps r i in
  let M := fun i => memory_after s (g i) (rough_moves (r_mu r) N Q cs) in
  let u := fun d => rsum N (fun j => Q d j * X j) in
  forall i d, (i < r_n r)%nat -> exists f fn,
    fval (st_fxy res i 0%nat d) = Some f /\ fval (st_fn res i) = Some fn /\
    f = asperity_friction s mu (mem_d (M i)) (mem_F (M i)) (u 2%nat - g i) (u d - mem_u (M i) d) (mem_f (M i) d) /\
    Rabs f <= mu * fn.
Proof.
  intros Hs Hmat Hgap Hmu Hmodel Hnew. cbv zeta. intros i d Hi. assert (Hok : model_ok (r_model r)) by (rewrite Hmodel; exact I).
  destruct (static_forces s r N Q (fun _ _ => 0) u0 st cs X upd Hs Hmat Hgap Hmu Hok Hnew) as [A _]. cbv zeta in A. destruct (A i Hi) as (A1 & _ & A3). specialize (A3 Hmodel d).
  do 2 eexists. split; [exact A3|]. split; [exact A1|]. split; [reflexivity|]. unfold asperity_friction. cbv zeta. apply Rabs_le. apply clamp_range.
  destruct (tracks_run s r N Q Hs Hmat Hgap Hmu Hok u0 st cs Hnew) as (Em & Hm & _). cbv zeta in *. rewrite Em in Hm.
  pose proof (memory_nonneg s (r_meso r + r_gaps r i) Hs (Hgap i Hi) (rough_moves (r_mu r) N Q cs) (rsum N (fun j => Q 2%nat j * X j) - (r_meso r + r_gaps r i))) as Hn. pose proof (Rmult_le_pos _ _ Hm Hn). lra.
Qed.
Lemma static_limit s r N Q (T : mat) u0 st cs X upd : physical s -> r_mat r = mat_of s -> (forall i, (i < r_n r)%nat -> 0 <= r_meso r + r_gaps r i) -> 0 <= r_mu r -> model_ok (r_model r) -> rough_new r u0 = Ok st ->
  (forall i, (i < r_n r)%nat -> 0 <= r_weights r i) ->
  exists f : nat -> R, force_values T (snd (rough_force r N Q (rough_run r N Q st cs) X upd)) = Some (fun p => rsum 3 (fun d => T p d * f d)) /\
    forall d, (d < 2)%nat -> Rabs (f d) <= rough_mu_after (r_mu r) cs * f 2%nat.
Proof.
  intros Hs Hmat Hgap Hmu Hok Hnew Hw. destruct (static_forces s r N Q T u0 st cs X upd Hs Hmat Hgap Hmu Hok Hnew) as [_ (f & A & _ & B)]. exists f. split; [exact A|]. intros d Hd. apply (B d Hd). exact Hw.
Qed.
