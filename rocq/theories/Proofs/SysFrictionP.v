From Coq Require Import Reals Lra List Bool.
From Verif.Lib Require Import Py.
From Verif.Model Require Import SysFriction.
Import ListNotations.
Open Scope R_scope.

(** same element as built, whatever is in use *)
Definition as_built (b x : fric) : Prop :=
  match b, x with FrSwitch _ r p, FrSwitch _ r' p' => r' = r /\ p' = p | FrIwan, FrIwan | FrNone, FrNone => True | _, _ => False end.

Lemma as_built_refl l : Forall2 as_built l l.
Proof. induction l as [|x l IH]; constructor; [destruct x; simpl; auto|exact IH]. Qed.

Lemma set_as_built b : forall l, Forall2 as_built b l -> Forall2 as_built b (fst (sys_set_prestress_mu l)).
Proof.
  induction b as [|x b IH]; intros l H; inversion H as [|? y ? l' Hxy Hl]; subst; [constructor|]. destruct y; cbn [sys_set_prestress_mu].
  - specialize (IH l' Hl). destruct (sys_set_prestress_mu l') as [l1 e]. constructor; [|exact IH]. destruct x; simpl in *; tauto.
  - constructor; assumption.
  - specialize (IH l' Hl). destruct (sys_set_prestress_mu l') as [l1 e]. constructor; [|exact IH]. exact Hxy.
Qed.

Lemma reset_as_built b : forall l, Forall2 as_built b l -> Forall2 as_built b (fst (sys_reset_real_mu l)).
Proof.
  cbn. induction b as [|x b IH]; intros l H; inversion H as [|? y ? l' Hxy Hl]; subst; [constructor|]. cbn [map]. constructor; [|apply IH; exact Hl]. destruct x, y; simpl in *; tauto.
Qed.

Lemma calls_as_built b cs : forall l, Forall2 as_built b l -> Forall2 as_built b (fcalls_exec l cs).
Proof.
  unfold fcalls_exec. induction cs as [|c cs IH]; intros l H; [exact H|]. cbn [fold_left]. apply IH. destruct c; [apply set_as_built|apply reset_as_built]; exact H.
Qed.

(** freshly built systems *)
Definition fresh (l : list fric) : Prop := forall x, In x l -> (exists f, x = fric_new f) \/ x = FrIwan \/ x = FrNone.

Lemma reset_restores l cs : fresh l -> fcalls_exec l (cs ++ [FReset]) = l.
Proof.
  intros Hf. unfold fcalls_exec. rewrite fold_left_app. cbn [fold_left fcall_exec]. fold (fcalls_exec l cs). pose proof (calls_as_built l cs l (as_built_refl l)) as H.
  cbn [sys_reset_real_mu fst]. revert Hf H. generalize (fcalls_exec l cs). induction l as [|x l IH]; intros m Hf H; inversion H as [|? y ? m' Hxy Hm]; subst; [reflexivity|]. cbn [map]. f_equal.
  - destruct (Hf x (or_introl eq_refl)) as [[f ->]|[-> | ->]]; destruct y; cbn in Hxy; try tauto. destruct Hxy as [-> ->]. reflexivity.
  - apply IH; [intros z Hz; apply Hf; right; exact Hz|exact Hm].
Qed.

Lemma set_frictionless l cs : fresh l -> ~ In FrIwan l ->
  snd (fcall_exec (fcalls_exec l cs) FSet) = None /\ forall c r p, In (FrSwitch c r p) (fcalls_exec l (cs ++ [FSet])) -> c = 0.
Proof.
  intros Hf Hi. unfold fcalls_exec at 2. rewrite fold_left_app. cbn [fold_left fcall_exec]. fold (fcalls_exec l cs). pose proof (calls_as_built l cs l (as_built_refl l)) as H.
  revert Hf Hi H. generalize (fcalls_exec l cs). induction l as [|x l IH]; intros m Hf Hi H; inversion H as [|? y ? m' Hxy Hm]; subst; [split; [reflexivity|intros ? ? ? []]|].
  destruct (IH m') as [A B]; [intros z Hz; apply Hf; right; exact Hz|intros Hz; apply Hi; right; exact Hz|exact Hm|]. cbn [fcall_exec] in *.
  destruct (Hf x (or_introl eq_refl)) as [[f ->]|[-> | ->]]; destruct y; cbn in Hxy; try tauto.
  - destruct Hxy as [-> ->]. cbn [sys_set_prestress_mu]. destruct (sys_set_prestress_mu m') as [l1 e]. cbn [fst snd] in *. split; [exact A|]. intros c r p [E|E]; [injection E as <- _ _; reflexivity|exact (B c r p E)].
  - exfalso. apply Hi. left. reflexivity.
  - cbn [sys_set_prestress_mu]. destruct (sys_set_prestress_mu m') as [l1 e]. cbn [fst snd] in *. split; [exact A|]. intros c r p [E|E]; [discriminate|exact (B c r p E)].
Qed.

Lemma set_stops_halfway : exists l, fresh l /\ snd (fcall_exec l FSet) = Some AssertionError /\ (exists c r p, In (FrSwitch c r p) (fcalls_exec l [FSet]) /\ c = 0 /\ r <> 0) /\ exists c r p, In (FrSwitch c r p) (fcalls_exec l [FSet]) /\ c <> 0.
Proof.
  exists [fric_new 1; FrIwan; fric_new 2]. split; [intros x [<-|[<-|[<-|[]]]]; [left; exists 1; reflexivity|auto|left; exists 2; reflexivity]|]. split; [reflexivity|]. split.
  - exists 0, 1, 0. split; [left; reflexivity|]. split; lra.
  - exists 2, 2, 0. split; [right; right; left; reflexivity|lra].
Qed.
