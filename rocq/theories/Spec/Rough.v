(** Vocabulary for the rough contact properties: contact mechanics of one asperity. *)
From Coq Require Import Reals Arith List.
From Verif.Lib Require Import RSum.
From Verif.Spec Require Import Slider.
Import ListNotations.
Open Scope R_scope.

(** Hertz contact: E effective modulus, Re effective radius, d interference *)
Definition hertz (E Re d : R) : R := if Rlt_dec 0 d then 4/3 * E * sqrt Re * (d * sqrt d) else 0.

(** permanent deformation of an asperity that carried the force Fm at the interference dm (Brake 2015) *)
Definition permanent (E Re dm Fm : R) : R := dm * (1 - Fm / hertz E Re dm).
(** elastic unloading from (dm, Fm) to the permanent deformation: three-halves power law *)
Definition unloading (E Re dm Fm x : R) : R :=
  let p := (x - permanent E Re dm Fm) / (dm - permanent E Re dm Fm) in
  if Rlt_dec (permanent E Re dm Fm) x then Fm * (p * sqrt p) else 0.
(** flattened radius and contact radius on the unloading curve *)
Definition flattened (E Re dm Fm : R) : R := (Fm / (4/3 * E)) ^ 2 / (dm - permanent E Re dm Fm) ^ 3.
Definition unloading_radius (E Re dm Fm x : R) : R :=
  if Rlt_dec (permanent E Re dm Fm) x then sqrt (flattened E Re dm Fm * (x - permanent E Re dm Fm)) else 0.

(** the arguments of the constructor: elastic modulus, Poisson ratio, effective radius, hardening modulus and yield stress *)
Record solid := mkSolid { s_E : R; s_nu : R; s_R : R; s_Et : R; s_Sy : R }.
Definition physical (s : solid) : Prop := 0 < s_E s /\ -1 < s_nu s < 1 /\ 0 < s_R s /\ 0 <= s_Et s < s_E s /\ 0 < s_Sy s.

(** effective modulus, Mindlin's shear modulus, ratio of mean pressure to yield stress, yield interference *)
Definition effective_modulus (s : solid) : R := s_E s / (2 * (1 - s_nu s ^ 2)).
Definition mindlin_modulus (s : solid) : R := s_E s / (4 * (1 + s_nu s) * (2 - s_nu s)).
Definition hardness_ratio (s : solid) : R := 1295/1000 * exp (736/1000 * s_nu s).
Definition yield_interference (s : solid) : R := 4 * s_R s * (PI * hardness_ratio s * s_Sy s / (4 * effective_modulus s)) ^ 2.
Definition solid_hertz (s : solid) : R -> R := hertz (effective_modulus s) (s_R s).
Definition solid_unloading (s : solid) : R -> R -> R -> R := unloading (effective_modulus s) (s_R s).

(** Loading beyond 1.9 times the yield interference (Ghaednia et al. 2019): contact radius a, hardness H (relative to the yield stress),
    fully plastic force, and mixture with Hertz contact by the hardening modulus. *)
Definition plastic_share (s : solid) (d : R) : R :=
  if Rlt_dec (s_Et s / s_E s) (/ 2 ^ 52) then 1 else
  exp (- (2 * sqrt (s_E s / s_Sy s) * Rpower (s_Et s / s_E s) (1 - (d - yield_interference s) / (4 * s_R s)))
       / ((4 - 3 * exp (- (2 * sqrt (s_E s / s_Sy s) * (s_Et s / s_E s)))) * (1 - s_Et s / s_E s))).
Definition plastic_radius_law (s : solid) (d : R) : R :=
  let x := d / yield_interference s in
  let ae := sqrt (s_R s * d) in
  let ap := 2 * s_R s * (PI * hardness_ratio s * s_Sy s / (4 * effective_modulus s))
            * sqrt (x * Rpower (x / (19/10)) (14/100 * exp (23 * s_Sy s / (2 * effective_modulus s)))) in
  ae + (ap - ae) * plastic_share s d.
Definition plastic_law (s : solid) (d : R) : R :=
  let x := d / yield_interference s in
  let H := 284/100 - 92/100 * (1 - cos (PI * plastic_radius_law s d / (2 * s_R s))) in
  let Fp := solid_hertz s (yield_interference s)
            * (exp (- (1/4) * Rpower x (5/12)) * Rpower x (3/2) + 4 * H / hardness_ratio s * (1 - exp (- (1/25) * Rpower x (5/9))) * x) in
  let lambda := exp (- (33/10) * (s_Et s / s_E s)) in
  (1 - lambda) * solid_hertz s d + lambda * Fp.

(** Force at the interference x of an asperity that remembers the largest interference dm and the largest force Fm. *)
Definition yield_limit (s : solid) : R := 19/10 * yield_interference s.
Definition asperity_force (s : solid) (dm Fm x : R) : R :=
  if Rlt_dec (Rmax dm x) (yield_limit s) then solid_hertz s x
  else if Rlt_dec (Rmax dm (yield_limit s)) x then plastic_law s x
  else if Rlt_dec 0 (Rmin dm Fm) then solid_unloading s dm Fm x else 0.
(** its contact radius *)
Definition asperity_radius (s : solid) (dm Fm x : R) : R :=
  if Rlt_dec (Rmax dm x) (yield_limit s) then (if Rlt_dec 0 x then sqrt (s_R s * x) else 0)
  else if Rlt_dec (Rmax dm (yield_limit s)) x then plastic_radius_law s x
  else if Rlt_dec 0 (Rmin dm Fm) then unloading_radius (effective_modulus s) (s_R s) dm Fm x else 0.
(** its tangential force in one direction after a tangential step du, starting from the tangential force f: the contact area has Mindlin's
    stiffness 8 G a and slips at mu times the normal force *)
Definition asperity_friction (s : solid) (mu dm Fm x du f : R) : R :=
  let fn := asperity_force s dm Fm x in
  clamp (- (mu * fn)) (mu * fn) (f + 8 * mindlin_modulus s * asperity_radius s dm Fm x * du).

(** What an asperity with gap g remembers: largest interference, largest normal force, last displacement and tangential forces.  A move is
    a friction coefficient and displacements 0, 1 (tangential) and 2 (normal). *)
Record memory := mkMemory { mem_d : R; mem_F : R; mem_u : nat -> R; mem_f : nat -> R }.
Definition remember (s : solid) (g : R) (M : memory) (mv : R * (nat -> R)) : memory :=
  let x := snd mv 2%nat - g in
  mkMemory (Rmax (mem_d M) x) (Rmax (mem_F M) (asperity_force s (mem_d M) (mem_F M) x)) (snd mv)
           (fun d => asperity_friction s (fst mv) (mem_d M) (mem_F M) x (snd mv d - mem_u M d) (mem_f M d)).
(** after the given moves, oldest first, starting from an unloaded contact at rest *)
Definition memory_after (s : solid) (g : R) (mvs : list (R * (nat -> R))) : memory :=
  fold_left (remember s g) mvs (mkMemory (0 - g) 0 (fun _ => 0) (fun _ => 0)).

(** Force and contact radius at the interference x during a cycle with the largest interference peak, which loads the asperity first. *)
Definition cycle_force (s : solid) (peak x : R) : R :=
  if Rlt_dec peak (yield_limit s) then solid_hertz s x
  else if Rlt_dec (yield_limit s) peak then solid_unloading s peak (plastic_law s peak) x else 0.
Definition cycle_radius (s : solid) (peak x : R) : R :=
  if Rlt_dec peak (yield_limit s) then (if Rlt_dec 0 x then sqrt (s_R s * x) else 0)
  else if Rlt_dec (yield_limit s) peak then unloading_radius (effective_modulus s) (s_R s) peak (plastic_law s peak) x else 0.

(** Tangential force of one asperity whose stiffness and friction limit change with time: the force of step k is that of step k-1 plus
    stiffness (k) * (u k - u (k-1)), limited to [-limit k, limit k]; the slider starts force-free at u0. *)
Fixpoint mindlin (kt limit u : nat -> R) (u0 : R) (k : nat) : R :=
  match k with
  | O => clamp (- limit O) (limit O) (kt O * (u O - u0))
  | S j => clamp (- limit (S j)) (limit (S j)) (mindlin kt limit u u0 j + kt (S j) * (u (S j) - u j))
  end.

(** m is the largest of the first n entries of v *)
Definition largest (n : nat) (v : nat -> R) (m : R) : Prop := (forall t, (t < n)%nat -> v t <= m) /\ exists t, (t < n)%nat /\ v t = m.

(** tangential force at step k of an asperity with the interferences x k in a cycle with the largest interference peak, and tangential
    displacements u k, starting force-free at u0 *)
Definition cycle_friction (s : solid) (mu peak : R) (x u : nat -> R) (u0 : R) (k : nat) : R :=
  mindlin (fun k => 8 * mindlin_modulus s * cycle_radius s peak (x k)) (fun k => mu * cycle_force s peak (x k)) u u0 k.
