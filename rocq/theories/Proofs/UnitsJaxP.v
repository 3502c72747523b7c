(** The JAX elements in other units. *)
From Coq Require Import Reals List Arith Bool Lra Lia FunctionalExtensionality.
From Verif.Lib Require Import RSum Py.
From Verif.Spec Require Import Harmonic Elements Slider Coordinates Units.
From Verif.Model Require Import Harmonic LocalForces Aft VibSys SysElements Jenkins Iwan JaxDual JaxFloat JaxFriction RoughContact SysHistory SysHarmonic.
From Verif.Proofs Require Import AftP CoordinatesP UnitsFloatP UnitsRoughP UnitsP UnitsElementP UnitsStateP.
Import ListNotations.
Open Scope R_scope.

Section Jax.
  Variable u : units.
  Hypothesis Hu : positive_units u.
  Let L := u_length u.
  Let F := u_force u.
  Let W := u_freq u.
  Let HL : 0 < L. Proof. exact (proj1 Hu). Qed.
  Let HF : 0 < F. Proof. exact (proj1 (proj2 Hu)). Qed.
  Let HW : 0 < W. Proof. exact (proj2 (proj2 Hu)). Qed.
  Let kE : u_stiffness u = F / L. Proof. reflexivity. Qed.
  Let kL : u_stiffness u * L = F. Proof. rewrite kE. field. lra. Qed.

  (** columns of samples or coefficients *)
  Definition cols (tau : vec) (nn : nat) (c : R) (x y : nat -> nat -> dual) : Prop := forall t d, (d < nn)%nat -> dsc tau c (x t d) (y t d).

  Definition local_sc (h : list nat) (nn : nat) (l l' : (nat -> nat -> dual) -> result (nat -> nat -> dual)) : Prop :=
    forall tau X Y, NoDup h -> (0 < aft_Nhc h)%nat -> (forall c d, (c < aft_Nhc h)%nat -> (d < nn)%nat -> dsc tau L (X c d) (Y c d)) -> same_result (cols tau nn F) (l X) (l' Y).

  (** the seeds: local displacements, the frequency behind them *)
  Definition seeds (n : nat) : vec := fun i => if Nat.ltb i n then / L else / W.
  Lemma seeds_in N nnl Q U V w h c d : times L U V -> (c < aft_Nhc h)%nat -> (d < nnl)%nat ->
    dsc (seeds (aft_Nhc h * nnl)) L (dseed (fun i => if Nat.ltb i (aft_Nhc h * nnl) then aft_Unl N Q U (i / nnl) (i mod nnl) else w) (c * nnl + d)%nat)
      (dseed (fun i => if Nat.ltb i (aft_Nhc h * nnl) then aft_Unl N Q V (i / nnl) (i mod nnl) else W * w) (c * nnl + d)%nat).
  Proof.
    intros HV Hc Hd. assert (B : Nat.ltb (c * nnl + d) (aft_Nhc h * nnl) = true) by (apply Nat.ltb_lt; nia). apply dseed_sc.
    - rewrite B. apply Unl_times, HV.
    - unfold seeds. rewrite B. field. lra.
  Qed.

  Lemma jax_in N nnl Q T l l' U V w h : times L U V -> local_sc h nnl l l' -> same_result (scaled3 u) (jax_aft N nnl Q T l U w h) (jax_aft N nnl Q T l' V (W * w) h).
  Proof.
    intros HV Hl. unfold jax_aft. cbv zeta. destruct (Nhc h) as [nhc'|e] eqn:EN; [|reflexivity]. cbn [bind]. pose proof (nhc_nodup h nhc' EN) as Hn.
    assert (E1 : nhc' = aft_Nhc h) by (unfold Nhc in EN; destruct (Nat.eqb _ _) in EN; [injection EN as <-; reflexivity|discriminate]).
    destruct (Nat.eqb_spec nhc' 0) as [|H0]; [reflexivity|]. match goal with |- context [negb ?b] => destruct (negb b) end; [reflexivity|].
    eapply bind_map; [apply (Hl (seeds (aft_Nhc h * nnl))); [exact Hn|lia|]|]; [intros c d Hc Hd; apply (seeds_in N nnl Q U V w h c d HV Hc Hd)|].
    intros G G' HG. cbn [same_result]. split; [|split].
    - intros r. cbn [fst]. unfold aft_global, matvec. rewrite <- rsum_scal_l. apply rsum_ext. intros d Hd. rewrite (proj1 (HG (r / N)%nat d Hd)). fold F. ring.
    - apply dU_times. intros r s Hs. assert (0 < nnl)%nat by nia. rewrite (proj2 (HG (r / nnl)%nat (r mod nnl)%nat ltac:(apply Nat.mod_upper_bound; lia))).
      unfold seeds. apply Nat.ltb_lt in Hs. rewrite Hs, kE. field. lra.
    - intros r. cbn [snd]. unfold matvec. rewrite <- rsum_scal_l. apply rsum_ext. intros d Hd. assert (0 < nnl)%nat by lia.
      rewrite (proj2 (HG ((d * aft_Nhc h + r / N) / nnl)%nat ((d * aft_Nhc h + r / N) mod nnl)%nat ltac:(apply Nat.mod_upper_bound; lia))). unfold seeds. rewrite Nat.ltb_irrefl. fold F W. field. lra.
  Qed.

  (** ** Jenkins *)
  Section Cols.
    Variable tau : vec.
    Lemma aset_sc nn c x y r a b : cols tau nn c x y -> (forall d, (d < nn)%nat -> dsc tau c (a d) (b d)) -> cols tau nn c (aset x r a) (aset y r b).
    Proof. intros H K t d Hd. unfold aset. destruct (Nat.eqb t r); [apply K, Hd|apply H, Hd]. Qed.

    Lemma loops_sc nn c (f g : nat -> (nat -> nat -> dual) -> nat -> nat -> dual) a b : (forall i x y, cols tau nn c x y -> cols tau nn c (f i x) (g i y)) ->
      forall (l : list nat) x y, cols tau nn c x y -> cols tau nn c (fold_left (fun ft _ => fori_loop a b f ft) l x) (fold_left (fun ft _ => fori_loop a b g ft) l y).
    Proof.
      intros H. assert (I : forall x y, cols tau nn c x y -> cols tau nn c (fori_loop a b f x) (fori_loop a b g y)).
      { unfold fori_loop. generalize (seq a (b - a)) as m. induction m as [|i m IH]; intros x y E; cbn [fold_left]; [exact E|]. apply IH, H, E. }
      induction l as [|i l IH]; intros x y E; cbn [fold_left]; [exact E|]. apply IH, I, E.
    Qed.

    Lemma spring_step nn k (x y : nat -> nat -> dual) i j d : cols tau nn L x y -> (d < nn)%nat -> dsc tau F (dscal k (dsub (x i d) (x j d))) (dscal (u_stiffness u * k) (dsub (y i d) (y j d))).
    Proof. intros H Hd. apply (dscal_sc tau (u_stiffness u) L); [apply dsub_sc; apply H, Hd|reflexivity|symmetry; exact kL]. Qed.

    Lemma jj_history_sc Nt nn x y kt Fs a b : cols tau nn L x y -> dsc tau L a b -> cols tau nn F (jj_history Nt x kt Fs a) (jj_history Nt y (u_stiffness u * kt) (F * Fs) b).
    Proof.
      intros H Ha. unfold jj_history. cbv zeta. apply loops_sc.
      - intros i f g E. unfold jj_body. cbv zeta. apply aset_sc; [exact E|]. intros d Hd.
        apply dmax_sc; [exact HF| |apply dconst_sc; ring]. apply dmin_sc; [exact HF| |apply dconst_sc; reflexivity].
        apply dadd_sc; [apply (spring_step nn); assumption|apply E, Hd].
      - apply aset_sc; [intros t d _; apply dconst_sc; ring|]. intros d Hd. apply (dscal_sc tau (u_stiffness u) L); [|reflexivity|symmetry; exact kL]. apply dsub_sc; [apply H, Hd|exact Ha].
    Qed.

    (** ** elastic dry friction *)
    Definition pars_units (P : eldry_pars) : eldry_pars := mkEP (u_stiffness u * ep_kt P) (u_stiffness u * ep_kn P) (ep_mu P) (L * ep_gap P).

    Lemma normal_in p ne c : (c < p * ne)%nat -> (normal_col p c < p * ne)%nat.
    Proof. intros H. unfold normal_col. assert (0 < p)%nat by nia. assert (c / p < ne)%nat by (apply Nat.div_lt_upper_bound; lia). nia. Qed.

    Lemma normal_force_sc kn gap a b : dsc tau L a b ->
      dsc tau F (dmax (dscal kn (dsub a (dconst gap))) (dconst 0)) (dmax (dscal (u_stiffness u * kn) (dsub b (dconst (L * gap)))) (dconst 0)).
    Proof.
      intros H. apply dmax_sc; [exact HF| |apply dconst_sc; ring]. apply (dscal_sc tau (u_stiffness u) L); [|reflexivity|symmetry; exact kL]. apply dsub_sc; [exact H|apply dconst_sc; reflexivity].
    Qed.

    Lemma ed_history_sc Nt p ne P x y a b : cols tau (p * ne) L x y -> (forall d, (d < p * ne)%nat -> dsc tau L (a d) (b d)) ->
      cols tau (p * ne) F (ed_history Nt p P x a) (ed_history Nt p (pars_units P) y b).
    Proof.
      intros H Ha. assert (N0 : cols tau (p * ne) F (ed_normal p P x) (ed_normal p (pars_units P) y)).
      { intros t d Hd. unfold ed_normal. destruct (is_normal p d); [|apply dconst_sc; ring]. cbn [pars_units ep_kn ep_gap]. apply normal_force_sc, H, Hd. }
      unfold ed_history. cbv zeta. apply loops_sc.
      - intros i f g E. unfold ed_body. cbv zeta. apply aset_sc; [exact E|]. intros d Hd. destruct (is_normal p d); [apply E, Hd|]. cbn [pars_units ep_kt ep_mu].
        assert (S : forall m, dsc tau F (dscal m (f i (normal_col p d))) (dscal m (g i (normal_col p d)))) by (intros m; apply (dscal_sc tau 1 F); [apply E, normal_in, Hd|ring|ring]).
        apply dmax_sc; [exact HF| |apply S]. apply dmin_sc; [exact HF| |apply S]. apply dadd_sc; [apply (spring_step (p * ne)); assumption|apply E, Hd].
      - apply aset_sc; [exact N0|]. intros d Hd. destruct (is_normal p d); [apply N0, Hd|]. cbn [pars_units ep_kt].
        apply (dscal_sc tau (u_stiffness u) L); [|reflexivity|symmetry; exact kL]. apply dsub_sc; [apply H, Hd|apply Ha, Hd].
    Qed.

    Lemma dwhere_sc c b x x' y y' : dsc tau c x x' -> dsc tau c y y' -> dsc tau c (dwhere b x y) (dwhere b x' y').
    Proof. intros H K. destruct b; assumption. Qed.

    Lemma ed_static_sc p P x y up fp fp' c : (forall d, dsc tau L (x d) (y d)) -> dsc tau F (ed_static p P x up fp c) (ed_static p (pars_units P) y (fun d => L * up d) fp' c).
    Proof.
      intros H. unfold ed_static. cbv zeta. cbn [pars_units ep_kt ep_kn ep_mu ep_gap].
      assert (NF : forall d, dsc tau F (dmax (dscal (ep_kn P) (dsub (x d) (dconst (ep_gap P)))) (dconst 0)) (dmax (dscal (u_stiffness u * ep_kn P) (dsub (y d) (dconst (L * ep_gap P)))) (dconst 0))) by (intros d; apply normal_force_sc, H).
      destruct (is_normal p c); [apply NF|].
      assert (S : forall m, dsc tau F (dscal m (dmax (dscal (ep_kn P) (dsub (x (normal_col p c)) (dconst (ep_gap P)))) (dconst 0)))
        (dscal m (dmax (dscal (u_stiffness u * ep_kn P) (dsub (y (normal_col p c)) (dconst (L * ep_gap P)))) (dconst 0)))) by (intros m; apply (dscal_sc tau 1 F); [apply NF|ring|ring]).
      assert (K : dsc tau F (dscal (ep_kt P) (dsub (x c) (dconst (up c)))) (dscal (u_stiffness u * ep_kt P) (dsub (y c) (dconst (L * up c))))).
      { apply (dscal_sc tau (u_stiffness u) L); [|reflexivity|symmetry; exact kL]. apply dsub_sc; [apply H|apply dconst_sc; reflexivity]. }
      pose proof (S (ep_mu P)) as S1. pose proof (S (- ep_mu P)) as S2.
      set (l1 := dscal (ep_mu P) (dmax _ _)) in *. set (l1' := dscal (ep_mu P) (dmax (dscal (u_stiffness u * _) _) _)) in *. set (l2 := dscal (- ep_mu P) (dmax _ _)) in *. set (l2' := dscal (- ep_mu P) (dmax (dscal (u_stiffness u * _) _) _)) in *.
      set (k := dscal (ep_kt P) _) in *. set (k' := dscal (u_stiffness u * ep_kt P) _) in *. clearbody l1 l1' l2 l2' k k'.
      assert (C1 : dsc tau F (dwhere (Rltb (dv k) (dv l1)) k l1) (dwhere (Rltb (dv k') (dv l1')) k' l1')).
      { rewrite (proj1 K), (proj1 S1), Rltb_scale by exact HF. apply dwhere_sc; assumption. }
      set (m := dwhere _ k l1) in *. set (m' := dwhere _ k' l1') in *. clearbody m m'. rewrite (proj1 C1), (proj1 S2), Rltb_scale by exact HF. apply dwhere_sc; assumption.
    Qed.
  End Cols.

  Lemma jj_local_in kt Fs u0 h Nt : local_sc h 1 (jj_local kt Fs u0 h Nt) (jj_local (u_stiffness u * kt) (F * Fs) (option_map (Rmult L) u0) h Nt).
  Proof.
    intros tau X Y Hn H0 H. unfold jj_local. eapply bind_map; [apply (ts_dual_sc tau L Nt h 1 X Y Hn H)|]. intros [n x] [m y] [E HX]. cbn [fst snd] in E, HX. subst m.
    apply gfc_dual_sc. apply jj_history_sc; [exact HX|]. destruct u0 as [x0|]; cbn [option_map]; [apply dconst_sc; reflexivity|apply H; lia].
  Qed.
  Lemma ed_local_in p ne P u0 h Nt : local_sc h (p * ne) (ed_local p P u0 h Nt) (ed_local p (pars_units P) (option_map (fun v d => L * v d) u0) h Nt).
  Proof.
    intros tau X Y Hn H0 H. unfold ed_local. eapply bind_map; [apply (ts_dual_sc tau L Nt h (p * ne) X Y Hn H)|]. intros [n x] [m y] [E HX]. cbn [fst snd] in E, HX. subst m.
    apply gfc_dual_sc. apply ed_history_sc; [exact HX|]. intros d Hd. destruct u0 as [x0|]; cbn [option_map]; [apply dconst_sc; reflexivity|apply H; [lia|exact Hd]].
  Qed.

  (** ** rough contact *)
  Lemma rough_local_in tau r mu v h Nt rep X Y : r_model r = TAN -> NoDup h -> (forall c d, (c < aft_Nhc h)%nat -> (d < 3)%nat -> dsc tau L (X c d) (Y c d)) ->
    same_result (fun p q => forall c d, (d < 3)%nat -> fsc tau F (p c d) (q c d)) (rough_local r mu v h Nt rep X) (rough_local (rough_units u r) mu (fun d => L * v d) h Nt rep Y).
  Proof.
    intros HT Hn H. unfold rough_local. eapply bind_map; [apply (ts_dual_sc tau L Nt h 3 X Y Hn H)|]. intros [n x] [m y] [E HX]. cbn [fst snd] in E, HX. subst m. cbv zeta.
    pose proof (history_sc u tau Hu r mu n x y v (fun d => L * v d) rep HT HX (fun d => eq_refl)) as HH. fold F in HH.
    eapply bind_map; [apply (gfc_dual_sc tau F h n 3)|].
    - intros t d Hd. apply get_sc. apply HH, Hd.
    - intros G G' HG. cbn [same_result]. intros c d Hd. destruct (HG c d Hd) as [A B].
      rewrite (values_sc tau F n (fun t => rough_history r mu n x v rep t d) (fun t => rough_history (rough_units u r) mu n y (fun d => L * v d) rep t d)) by (intros t; apply HH, Hd).
      rewrite (tangents_sc tau F n (fun t => rough_history r mu n x v rep t d) (fun t => rough_history (rough_units u r) mu n y (fun d => L * v d) rep t d)) by (intros t; apply HH, Hd).
      split; cbn [fval ftan].
      + destruct (all_values n _); [exact A|exact I].
      + destruct (all_tangents n _); [exact B|exact I].
  Qed.

  Lemma rough_local_sc r mu v h Nt rep : r_model r = TAN ->
    local_sc h 3 (fun Ul => do G <- rough_local r mu v h Nt rep Ul; Ok (fun c d => fdual_get (G c d))) (fun Ul => do G <- rough_local (rough_units u r) mu (fun d => L * v d) h Nt rep Ul; Ok (fun c d => fdual_get (G c d))).
  Proof.
    intros HT tau X Y Hn _ H. eapply bind_map; [apply (rough_local_in tau r mu v h Nt rep X Y HT Hn H)|]. intros G G' HG. cbn [same_result]. intros c d Hd. apply get_sc, HG, Hd.
  Qed.

  Lemma all_values_range n (x y : nat -> fdual) : (forall t, (t < n)%nat -> is_some (fval (y t)) = is_some (fval (x t))) -> all_values n y = all_values n x.
  Proof.
    intros H. unfold all_values. assert (I : forall l, (forall t, In t l -> (t < n)%nat) -> forallb (fun t => is_some (fval (y t))) l = forallb (fun t => is_some (fval (x t))) l).
    { induction l as [|t l IH]; intros Hl; [reflexivity|]. cbn [forallb]. rewrite H by (apply Hl; left; reflexivity). rewrite IH; [reflexivity|]. intros s Hs. apply Hl. right. exact Hs. }
    apply I. intros t Ht. apply in_seq in Ht. lia.
  Qed.
  Lemma all_tangents_range n (x y : nat -> fdual) : (forall t, (t < n)%nat -> is_some (ftan (y t)) = is_some (ftan (x t))) -> all_tangents n y = all_tangents n x.
  Proof.
    intros H. unfold all_tangents. assert (I : forall l, (forall t, In t l -> (t < n)%nat) -> forallb (fun t => is_some (ftan (y t))) l = forallb (fun t => is_some (ftan (x t))) l).
    { induction l as [|t l IH]; intros Hl; [reflexivity|]. cbn [forallb]. rewrite H by (apply Hl; left; reflexivity). rewrite IH; [reflexivity|]. intros s Hs. apply Hl. right. exact Hs. }
    apply I. intros t Ht. apply in_seq in Ht. lia.
  Qed.

  Lemma rough_in N Q T r s U V w h Nt rep : r_model r = TAN -> times L U V ->
    same_result (fun a b => both (times F) (fst a) (fst b) /\ both (fun p q => mtimes (u_stiffness u) (fst p) (fst q) /\ times (F / W) (snd p) (snd q)) (snd a) (snd b))
      (rough_aft r N Q T s U w h Nt rep) (rough_aft (rough_units u r) N Q T (rough_state_units u s) V (W * w) h Nt rep).
  Proof.
    intros HT HV. unfold rough_aft. cbv zeta. cbn [rs_mu rs_aft_u0 rough_state_units]. fold L.
    assert (HJ := jax_in N 3 Q T _ _ U V w h HV (rough_local_sc r (rs_mu s) (rs_aft_u0 s) h Nt rep HT)).
    destruct (jax_aft N 3 Q T (fun Ul => do G <- rough_local r (rs_mu s) (rs_aft_u0 s) h Nt rep Ul; Ok (fun c d => fdual_get (G c d))) U w h) as [[[F1 J1] d1]|e1] eqn:E1.
    2:{ destruct (jax_aft N 3 Q T _ V (W * w) h) as [[[F2 J2] d2]|e2]; [contradiction|]. exact HJ. }
    destruct (jax_aft N 3 Q T _ V (W * w) h) as [[[F2 J2] d2]|e2]; [|contradiction]. destruct HJ as (A & B & C). cbn [fst snd] in A, B, C. cbn [bind].
    assert (Hn : NoDup h) by (unfold jax_aft in E1; destruct (Nhc h) as [m|] eqn:EN; [apply (nhc_nodup h m EN)|discriminate]).
    eapply bind_map; [apply (rough_local_in (seeds (aft_Nhc h * 3)) r (rs_mu s) (rs_aft_u0 s) h Nt rep); [exact HT|exact Hn|]|].
    - intros c d Hc Hd. apply (seeds_in N 3 Q U V w h c d HV Hc Hd).
    - intros G G' HG. cbn [same_result fst snd].
      rewrite (all_values_range _ (fun p => G (p / 3)%nat (p mod 3)%nat) (fun p => G' (p / 3)%nat (p mod 3)%nat)).
      2:{ intros t _. destruct (HG (t / 3)%nat (t mod 3)%nat ltac:(apply Nat.mod_upper_bound; lia)) as [S _]. unfold osc in S. destruct (fval (G _ _)), (fval (G' _ _)); try contradiction; reflexivity. }
      rewrite (all_tangents_range _ (fun p => G (p / 3)%nat (p mod 3)%nat) (fun p => G' (p / 3)%nat (p mod 3)%nat)).
      2:{ intros t _. destruct (HG (t / 3)%nat (t mod 3)%nat ltac:(apply Nat.mod_upper_bound; lia)) as [_ S]. unfold tsc in S. destruct (ftan (G _ _)), (ftan (G' _ _)); try contradiction; reflexivity. }
      split; [destruct (all_values _ _); [exact A|exact I]|destruct (all_tangents _ _); [split; [exact B|exact C]|exact I]].
  Qed.
End Jax.
