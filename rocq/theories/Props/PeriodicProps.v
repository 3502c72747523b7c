(** Property C79: harmonic balance and shooting find the periodic motions of the same equations. *)
From Coq Require Import Reals List Arith Bool Lia Lra.
From Verif.Lib Require Import RSum Py.
From Verif.Spec Require Import Harmonic Elements System Galerkin Periodic.
From Verif.Model Require Import Harmonic VibSys SysElements.
From Verif.Proofs Require Import PeriodicP ShootMotionP LipschitzP PeriodicCaseP.
Import ListNotations.
Open Scope R_scope.

(** * C79 *)
(** A motion that is a finite Fourier series with the harmonics h and solves M u'' + C u' + K u + f(u, u') = g is a zero of hbm_res, for any
    number of elements and whatever harmonics their forces have. *)
Theorem C79_harmonic_balance : forall s h Nt X Fl laws v, admissible h -> (2 * list_max h < Nt)%nat ->
  let n := (length (components h) * vs_N s)%nat in
  Forall2 (harmonic_law (vs_N s) h Nt) (vs_forces s) laws -> X n <> 0 ->
  solves_motion (vs_N s) (vs_M s) (vs_C s) (vs_K s) laws (motion (vs_N s) h Fl (X n)) always (motion (vs_N s) h X (X n)) v ->
  exists Rr G, hbm_res s X Fl h Nt true = Ok (Rr, Some G) /\ forall r, (r < n)%nat -> Rr r = 0.
Proof. exact exact_hbm. Qed.
Print Assumptions C79_harmonic_balance.

(** With exact time integration the residual of shooting_res is zero exactly when a motion of the system starts in the given state and
    repeats after one period.  Missing: several elements (C57_all_forces_refuted) and cubic damping (below). *)
Theorem C79_shooting_partial : forall ivp inv s f law Uw Fl,
  let N := vs_N s in let w := Uw (2 * N)%nat in let T := 2 * PI / w in
  vs_forces s = [f] -> displacement_law N f law -> lipschitz_law N law -> inverse_of N (vs_M s) (inv (vs_M s)) -> 0 < w ->
  integrates (2 * N) ivp (fun t y => shooting_state_space inv t y s Fl w) T (shooting_y0 N Uw) ->
  exists Rr J l mono, shooting_res ivp inv s Uw Fl = Ok (Rr, J, l, mono) /\
    ((forall i, (i < 2 * N)%nat -> Rr i = 0) <->
     exists u v, solves_motion N (vs_M s) (vs_C s) (vs_K s) [law] (first_harmonic_forcing N Fl w) always u v /\
       (forall j, (j < N)%nat -> u j 0 = Uw j) /\ (forall j, (j < N)%nat -> v j 0 = Uw (N + j)%nat) /\
       forall j t, (j < N)%nat -> u j (t + T) = u j t).
Proof. exact shooting_iff. Qed.
Print Assumptions C79_shooting_partial.

(** The motion from a given start is unique, so the state at the start determines the periodic motion. *)
Theorem C79_unique_motion : forall N M Minv C K law g T u v u' v', inverse_of N M Minv -> lipschitz_law N law -> 0 <= T ->
  solves_motion N M C K [law] g (fun t => 0 <= t <= T) u v -> solves_motion N M C K [law] g (fun t => 0 <= t <= T) u' v' ->
  (forall j, (j < N)%nat -> u j 0 = u' j 0) -> (forall j, (j < N)%nat -> v j 0 = v' j 0) ->
  forall j t, (j < N)%nat -> 0 <= t <= T -> u j t = u' j t /\ v j t = v' j t.
Proof. exact unique_motion. Qed.
Print Assumptions C79_unique_motion.

(** The state at time zero of a motion with a finite Fourier series, which harmonic balance finds by C79_harmonic_balance, is a zero of
    shooting_res with the same forcing. *)
Theorem C79_agree_partial : forall ivp inv s f law h Nt X Fl v Gl,
  let N := vs_N s in let n := (length (components h) * N)%nat in let w := X n in let T := 2 * PI / w in
  admissible h -> (2 * list_max h < Nt)%nat -> vs_forces s = [f] -> spring_law N h Nt f law -> inverse_of N (vs_M s) (inv (vs_M s)) -> 0 < w ->
  (forall i t, (i < N)%nat -> motion N h Fl w i t = first_harmonic_forcing N Gl w i t) ->
  solves_motion N (vs_M s) (vs_C s) (vs_K s) [law] (motion N h Fl w) always (motion N h X w) v ->
  let Uw := shooting_state N (fun j => motion N h X w j 0) (fun j => v j 0) w in
  integrates (2 * N) ivp (fun t y => shooting_state_space inv t y s Gl w) T (shooting_y0 N Uw) ->
  (exists Rr G, hbm_res s X Fl h Nt true = Ok (Rr, Some G) /\ forall r, (r < n)%nat -> Rr r = 0) /\
  (exists Rr J l mono, shooting_res ivp inv s Uw Gl = Ok (Rr, J, l, mono) /\ forall i, (i < 2 * N)%nat -> Rr i = 0).
Proof. exact both_methods. Qed.
Print Assumptions C79_agree_partial.

(** Elements with such laws: all springs, the unilateral spring and the conservative Iwan element; harmonic balance also has the cubic damper. *)
Theorem C79_elements : forall N nnl Q T h Nt, admissible h -> (2 * list_max h + 1 < Nt)%nat -> Nat.even Nt = true ->
  (forall k, spring_law N h Nt (cubic_nl N nnl Q T k) (local_forces N nnl Q T (fun d u _ => k d * u ^ 3))) /\
  (forall k, spring_law N h Nt (quintic_nl N nnl Q T k) (local_forces N nnl Q T (fun d u _ => k d * u ^ 5))) /\
  (forall cnl E qq, spring_law N h Nt (poly_nl N nnl cnl Q T E qq) (poly_forces N nnl cnl Q T E qq)) /\
  (forall k Np delta, (forall d, (d < nnl)%nat -> 0 <= k d) ->
    spring_law N h Nt (unilateral_nl N nnl Q T k Np delta) (local_forces N nnl Q T (fun d u _ => unilateral_law (k d) (Np d) (delta d) u))) /\
  (forall kt Fs chi beta, 0 < kt -> 0 < Fs -> -1 < chi -> 0 <= beta ->
    spring_law N h Nt (iwan_nl N nnl Q T kt Fs chi beta) (local_forces N nnl Q T (fun _ u _ => iwan_backbone kt Fs chi beta u))) /\
  (forall c, harmonic_law N h Nt (damping_nl N nnl Q T c) (local_forces N nnl Q T (fun d _ v => c d * v ^ 3))).
Proof. exact (fun N nnl Q T h Nt Ha HN He => conj (cubic_law N nnl Q T h Nt Ha HN He) (conj (quintic_law N nnl Q T h Nt Ha HN He) (conj (poly_law N nnl Q T h Nt Ha HN He)
  (conj (unilateral_spring_law N nnl Q T h Nt Ha HN He) (conj (iwan_law N nnl Q T h Nt Ha HN He) (damping_law N nnl Q T h Nt Ha HN He)))))). Qed.
Print Assumptions C79_elements.

(** Shooting passes displacements to the cubic damper, whose method force takes velocities.  It then returns a zero residual for a state from
    which no periodic motion of the system with the damper starts. *)
Theorem C79_damper_refuted : exists ivp inv s c law Uw Fl Rr J l mono,
  vs_N s = 1%nat /\ vs_forces s = [damping_nl 1 1 mid mid c] /\
  (forall h Nt, admissible h -> (2 * list_max h + 1 < Nt)%nat -> Nat.even Nt = true -> harmonic_law 1 h Nt (damping_nl 1 1 mid mid c) law) /\
  inverse_of 1 (vs_M s) (inv (vs_M s)) /\ Uw 2%nat = 1 /\
  integrates 2 ivp (fun t y => shooting_state_space inv t y s Fl 1) (2 * PI / 1) (shooting_y0 1 Uw) /\
  shooting_res ivp inv s Uw Fl = Ok (Rr, J, l, mono) /\ (forall i, (i < 2)%nat -> Rr i = 0) /\
  ~ exists u v, solves_motion 1 (vs_M s) (vs_C s) (vs_K s) [law] (first_harmonic_forcing 1 Fl 1) always u v /\
     u O 0 = Uw O /\ v O 0 = Uw 1%nat /\ forall t, u O (t + 2 * PI / 1) = u O t.
Proof. exact damper_refuted. Qed.
Print Assumptions C79_damper_refuted.

(** A damped system with two degrees of freedom and the polynomial force |u|^2 u moves on the circle (cos t, sin t): all hypotheses hold. *)
Example C79_case : exists ivp inv s f law h Nt X Fl v,
  vs_N s = 2%nat /\ vs_forces s = [f] /\ admissible h /\ (2 * list_max h < Nt)%nat /\ X (length (components h) * 2)%nat = 1 /\
  spring_law 2 h Nt f law /\ inverse_of 2 (vs_M s) (inv (vs_M s)) /\
  (forall i t, (i < 2)%nat -> motion 2 h Fl 1 i t = first_harmonic_forcing 2 Fl 1 i t) /\
  solves_motion 2 (vs_M s) (vs_C s) (vs_K s) [law] (motion 2 h Fl 1) always (motion 2 h X 1) v /\
  integrates (2 * 2) ivp (fun t y => shooting_state_space inv t y s Fl 1) (2 * PI / 1) (shooting_y0 2 (shooting_state 2 (fun j => motion 2 h X 1 j 0) (fun j => v j 0) 1)) /\
  (forall t, motion 2 h X 1 O t = cos t /\ motion 2 h X 1 1%nat t = sin t) /\
  (forall (u z : vec), law u z O = (u O ^ 2 + u 1%nat ^ 2) * u O /\ law u z 1%nat = (u O ^ 2 + u 1%nat ^ 2) * u 1%nat).
Proof. exact circle_case. Qed.
Print Assumptions C79_case.
