(** The forces of a system under a common static load history, independent of the stored state of the elements. *)
From Coq Require Import Reals List Arith Bool.
From Verif.Lib Require Import RSum.
From Verif.Spec Require Import System Slider Rough.
Import ListNotations.
Open Scope R_scope.

(** A static law gives the global forces at the displacements X, given the earlier loads (oldest first) and whether the real friction
    (true) or the prestress friction, zero, is in force.  A load is the friction in force and the displacements. *)
Definition load := (bool * (nat -> R))%type.
Definition static_law := list load -> bool -> (nat -> R) -> (nat -> R).

(** local displacement d of an element *)
Definition local_at (N : nat) (Q : nat -> nat -> R) (X : nat -> R) (d : nat) : R := rsum N (fun j => Q d j * X j).
Definition friction_in_force (real : bool) (x : R) : R := if real then x else 0.

(** no history *)
Definition elastic_static (F : (nat -> R) -> (nat -> R)) : static_law := fun _ _ X => F X.

(** Slider of stiffness kt, at rest at 0, taken through moves of a limit and a displacement: last displacement and force. *)
Definition slide (kt : R) (st mv : R * R) : R * R := (snd mv, clamp (- fst mv) (fst mv) (snd st + kt * (snd mv - fst st))).
Definition slide_all (kt : R) (moves : list (R * R)) : R * R := fold_left (slide kt) moves (0, 0).
Definition jenkins_static (N : nat) (Q T : nat -> nat -> R) (kt Fs : R) : static_law := fun loads real X i =>
  T i O * snd (slide_all kt (map (fun l => (friction_in_force (fst l) Fs, local_at N Q (snd l) O)) (loads ++ [(real, X)]))).

(** parallel sliders with constant limits *)
Definition iwan_static (N : nat) (Q T : nat -> nat -> R) (n : nat) (w phi : nat -> R) : static_law := fun loads _ X i =>
  T i O * bank_after n w phi (map (fun l => local_at N Q (snd l) O) loads ++ [local_at N Q X O]).

(** Elastic dry friction: the sliders are centred on the last load (see C27). *)
Definition eldry_static (p ne N : nat) (Q T : nat -> nat -> R) (kt kn mu gap : R) : static_law := fun loads real X i =>
  rsum (p * ne) (fun d => T i d * contact_history p kt kn (friction_in_force real mu) gap (fun d _ => local_at N Q X d)
    (local_at N Q (last (map snd loads) (fun _ => 0))) d 0).

(** Rough contact with asperities of gap g i and weight w i, which remember the loads. *)
Definition rough_static (N : nat) (Q T : nat -> nat -> R) (s : solid) (mu : R) (n : nat) (g w : nat -> R) : static_law := fun loads real X i =>
  let M := fun a => memory_after s (g a) (map (fun l => (friction_in_force (fst l) mu, local_at N Q (snd l))) loads) in
  let x := fun a => local_at N Q X 2 - g a in
  rsum 3 (fun d => T i d * rsum n (fun a => w a *
    if Nat.ltb d 2 then asperity_friction s (friction_in_force real mu) (mem_d (M a)) (mem_F (M a)) (x a) (local_at N Q X d - mem_u (M a) d) (mem_f (M a) d)
    else asperity_force s (mem_d (M a)) (mem_F (M a)) (x a))).

(** sum of the forces of all elements *)
Definition total_static (laws : list static_law) (loads : list load) (real : bool) (X : nat -> R) (i : nat) : R :=
  fold_right (fun law acc => law loads real X i + acc) 0 laws.
