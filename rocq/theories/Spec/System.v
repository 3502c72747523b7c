(** Vocabulary of the properties of VibrationSystem. *)
From Coq Require Import Reals List Arith Bool.
From Verif.Lib Require Import RSum Py.
From Verif.Spec Require Import Calculus Harmonic.
From Verif.Model Require Import VibSys.
Import ListNotations.
Open Scope R_scope.

(** matrix with n columns J followed by the column l *)
Definition hcat (n : nat) (J : mat) (l : vec) : mat := fun i j => if Nat.ltb j n then J i j else l i.

(** the static force of f is defined everywhere and differentiable at U with the returned derivative *)
Definition static_smooth (N : nat) (U : vec) (f : nlforce) : Prop :=
  exists (F : vec -> vec) (dF : mat),
    (forall U', exists dF', nl_force f U' = Ok (F U', dF')) /\
    nl_force f U = Ok (F U, dF) /\ is_jacobian N N F U dF.

(** the same for the harmonic force (n = number of harmonic unknowns) and the frequency *)
Definition aft_smooth (n : nat) (h : list nat) (Nt : nat) (U : vec) (w : R) (f : nlforce) : Prop :=
  exists (F : vec -> R -> vec) (dU : mat) (dw : vec),
    (forall U' w', exists dU' dw', nl_aft f U' w' h Nt = Ok (F U' w', dU', dw')) /\
    nl_aft f U w h Nt = Ok (F U w, dU, dw) /\ is_joint_jacobian n n F U w dU dw.

(** a residual function with m equations and n+1 unknowns that returns its value, the derivative by the
    first n unknowns and the derivative by the last unknown: both derivatives are exact at X *)
Definition exact_residual (n m : nat) (res : vec -> result (vec * option (mat * vec))) (X : vec) : Prop :=
  exists (Rf : vec -> vec) (J : mat) (l : vec),
    (forall X', exists G, res X' = Ok (Rf X', Some G)) /\
    res X = Ok (Rf X, Some (J, l)) /\ is_jacobian (n + 1) m Rf X (hcat n J l).

(** the motion with harmonic coefficients U and frequency w solves M u'' + C u' + K u + f(t) = g(t) at every time *)
Definition equation_of_motion (N : nat) (h : list nat) (M C K : mat) (U : vec) (w : R) (f g : nat -> R -> R) : Prop :=
  exists v a : nat -> R -> R,
    (forall j t, (j < N)%nat -> derivable_pt_lim (motion N h U w j) t (v j t)) /\
    (forall j t, (j < N)%nat -> derivable_pt_lim (v j) t (a j t)) /\
    forall i t, (i < N)%nat ->
      rsum N (fun j => M i j * a j t + C i j * v j t + K i j * motion N h U w j t) + f i t = g i t.

(** sum over a list *)
Definition lsum {A} (f : A -> R) (l : list A) : R := fold_right Rplus 0 (map f l).

(** constant part of a harmonic force on degree of freedom i *)
Definition static_part (h : list nat) (Fl : vec) (i : nat) : R := if in_dec Nat.eq_dec O h then Fl i else 0.

(** sum of the harmonic forces with coefficients outs, at time t *)
Definition total_motion (N : nat) (h : list nat) (outs : list (vec * mat * vec)) (w : R) (i : nat) (t : R) : R :=
  lsum (fun o => motion N h (fst (fst o)) w i t) outs.

(** part of the motion in harmonic k *)
Definition harmonic_part (k N : nat) (h : list nat) (U : vec) (w : R) (j : nat) (t : R) : R :=
  rsum (length (components h)) (fun c =>
    match nth c (components h) (Cos O) with
    | Cos m | Sin m => if Nat.eqb m k then U (c * N + j)%nat * basis h c (w * t) else 0
    end).

(** the harmonic lists accepted by the amplitude and EPMC residuals: harmonic 1 comes first (after harmonic 0) *)
Definition starts_with_1 (h : list nat) : Prop := exists rest, h = 1%nat :: rest \/ h = 0%nat :: 1%nat :: rest.

(** first harmonic of the recovered displacement recov . u *)
Definition recovered (N : nat) (h : list nat) (recov U : vec) (w t : R) : R :=
  rsum N (fun j => recov j * harmonic_part 1 N h U w j t).

(** cosine and sine coefficient of the first harmonic *)
Definition first_cos (N : nat) (h : list nat) (U : vec) : vec := fun j => harmonic_part 1 N h U 1 j 0.
Definition first_sin (N : nat) (h : list nat) (U : vec) : vec := fun j => harmonic_part 1 N h U 1 j (PI / 2).

(** U with all but the static coefficients multiplied by 10^la *)
Definition amplitude_scaled (N : nat) (h : list nat) (U : vec) (la : R) : vec := fun r =>
  if (if in_dec Nat.eq_dec O h then Nat.ltb r N else false) then U r else Rpower 10 la * U r.

(** sum of the products of the non-static coefficients *)
Definition dynamic_dot (N : nat) (h : list nat) (F U : vec) : R :=
  rsum (length (components h)) (fun c =>
    match nth c (components h) (Cos O) with
    | Cos O => 0
    | _ => rsum N (fun j => F (c * N + j)%nat * U (c * N + j)%nat)
    end).

(** modal mass of the first harmonic: u_c' M u_c + u_s' M u_s *)
Definition modal_mass (N : nat) (h : list nat) (M : mat) (U : vec) : R :=
  rsum N (fun i => rsum N (fun j => M i j *
    (first_cos N h U i * first_cos N h U j + first_sin N h U i * first_sin N h U j))).

(** cosine and sine coefficient of harmonic k *)
Definition harm_cos (k N : nat) (h : list nat) (U : vec) : vec := fun j => harmonic_part k N h U 1 j 0.
Definition harm_sin (k N : nat) (h : list nat) (U : vec) : vec := fun j => harmonic_part k N h U 1 j (PI / 2 / INR k).

(** inner product of the parts of F and U in harmonic k (twice the mean over one period of their product) *)
Definition harmonic_product (k N : nat) (h : list nat) (F U : vec) : R :=
  rsum N (fun j => harm_cos k N h F j * harm_cos k N h U j + harm_sin k N h F j * harm_sin k N h U j).

(** h is split at harmonic k: the harmonics before it are lower, those after it are higher *)
Definition ordered_at (k : nat) (h : list nat) : Prop :=
  exists low high, h = low ++ k :: high /\ (0 < k)%nat /\
    (forall x, In x low -> (x < k)%nat) /\ (forall x, In x high -> (k < x)%nat).

(** the coefficients of the harmonics below k *)
Definition below (k N : nat) (h : list nat) (U : vec) : vec := fun r =>
  if Nat.ltb r (length (components (filter (fun x => Nat.ltb x k) h)) * N) then U r else 0.

(** part of F and U in harmonic k seen through a filter phi: F along phi, U along phi with the mass matrix *)
Definition filtered_product (k N : nat) (h : list nat) (M : mat) (phi F U : vec) : R :=
  let pm := fun j => rsum N (fun i => phi i * M i j) in
  dot N phi (harm_cos k N h F) * dot N pm (harm_cos k N h U) + dot N phi (harm_sin k N h F) * dot N pm (harm_sin k N h U).

(** squared size of the parts of F and U compared by the VPRNM equation *)
Definition superharmonic_force (k N : nat) (h : list nat) (flt : option vec) (F : vec) : R :=
  match flt with
  | None => harmonic_product k N h F F
  | Some phi => dot N phi (harm_cos k N h F) ^ 2 + dot N phi (harm_sin k N h F) ^ 2
  end.
Definition superharmonic_response (k N : nat) (h : list nat) (M : mat) (flt : option vec) (U : vec) : R :=
  match flt with
  | None => harmonic_product k N h U U
  | Some phi => let pm := fun j => rsum N (fun i => phi i * M i j) in
                dot N pm (harm_cos k N h U) ^ 2 + dot N pm (harm_sin k N h U) ^ 2
  end.

(** inner product of the superharmonic parts, with and without filter *)
Definition vprnm_product (k N : nat) (h : list nat) (M : mat) (flt : option vec) (F U : vec) : R :=
  match flt with None => harmonic_product k N h F U | Some phi => filtered_product k N h M phi F U end.

(** derivative of a scalar function of a vector and a frequency *)
Definition is_joint_gradient (n : nat) (f : vec -> R -> R) (X : vec) (w : R) (G : vec) (Gw : R) : Prop :=
  forall (g : R -> vec) (v : vec) (om : R -> R) (dom t0 : R),
    (forall j, (j < n)%nat -> g t0 j = X j) -> om t0 = w ->
    (forall j, (j < n)%nat -> derivable_pt_lim (fun t => g t j) t0 (v j)) ->
    derivable_pt_lim om t0 dom ->
    derivable_pt_lim (fun t => f (g t) (om t)) t0 (rsum n (fun j => G j * v j) + Gw * dom).

(** sum of the harmonic coefficients of the forces *)
Definition total_coefs (outs : list (vec * mat * vec)) : vec := fun i => lsum (fun o => fst (fst o) i) outs.

(** the selected indices below n, in order *)
Definition selected (p : nat -> bool) (n : nat) : list nat := filter p (seq 0 n).
(** entries of base degrees of freedom among the n harmonic unknowns of an N degree-of-freedom system, and the others *)
Definition base_entries (N n : nat) (base : nat -> bool) : list nat := selected (fun i => base (i mod N)) n.
Definition free_entries (N n : nat) (base : nat -> bool) : list nat := selected (fun i => negb (base (i mod N))) n.

(** V is the full vector [U, w]: prescribed values at the base entries, unknowns at the free entries, frequency last *)
Definition assembled (N n : nat) (base : nat -> bool) (Uw Ub V : vec) : Prop :=
  (forall k, (k < length (base_entries N n base))%nat -> V (nth k (base_entries N n base) O) = Ub k) /\
  (forall k, (k < length (free_entries N n base))%nat -> V (nth k (free_entries N n base) O) = Uw k) /\
  V n = Uw (length (free_entries N n base)).

(** V holds all modes of (K, M) as columns, mass normalised, with positive squared frequencies *)
Definition all_modes (N : nat) (K M : mat) (wnsq : vec) (V : mat) : Prop :=
  (forall m, (m < N)%nat -> 0 < wnsq m) /\
  (forall m i, (m < N)%nat -> (i < N)%nat -> rsum N (fun j => K i j * V j m) = wnsq m * rsum N (fun j => M i j * V j m)) /\
  (forall m l, (m < N)%nat -> (l < N)%nat -> rsum N (fun i => V i m * rsum N (fun j => M i j * V j l)) = if Nat.eqb m l then 1 else 0).

(** no undamped mode at frequency w, for the damping a M + b K *)
Definition no_resonance (N : nat) (a b w : R) (wnsq : vec) : Prop :=
  forall m, (m < N)%nat -> (wnsq m - w ^ 2) ^ 2 + (w * (a + b * wnsq m)) ^ 2 <> 0.

(** coefficients of a motion with one harmonic *)
Definition cos_sin (N : nat) (xc xs : vec) : vec := fun i => if Nat.ltb i N then xc i else xs (i - N)%nat.

(** the equation of motion of the degrees of freedom outside the base, all other rows being free *)
Definition base_motion_equation (N : nat) (base : nat -> bool) (M C K : mat) (xc xs : vec) (w : R) : Prop :=
  exists reaction, (forall i t, (i < N)%nat -> base i = false -> reaction i t = 0) /\
    equation_of_motion N [1%nat] M C K (cos_sin N xc xs) w (fun _ _ => 0) reaction.

(** view a triple (residual, derivative, derivative) as a residual with gradients *)
Definition some_grad (r : result (vec * mat * vec)) : result (vec * option (mat * vec)) :=
  match r with Ok (F, J, l) => Ok (F, Some (J, l)) | Err e => Err e end.

(** the damping matrix a user expects after a call set_new_C(C, ab) when it was [current] before *)
Definition intended_damping (M K current : mat) (call : option mat * option (R * R)) : mat :=
  match snd call with
  | Some (a, b) => fun i j => a * M i j + b * K i j
  | None => match fst call with Some C => C | None => current end
  end.

(** the equations of motion at one instant: displacements u, velocities v, accelerations a, forces f, external forces g *)
Definition newton (N : nat) (M C K : mat) (u v a f g : vec) : Prop :=
  forall i, (i < N)%nat -> matvec N M a i + matvec N C v i + matvec N K u i + f i = g i.

(** B is the inverse of A *)
Definition inverse_of (n : nat) (A B : mat) : Prop :=
  forall i j, (i < n)%nat -> (j < n)%nat -> rsum n (fun k => A i k * B k j) = if Nat.eqb i j then 1 else 0.

(** solve_ivp integrates exactly: it returns the flow [Phi t z w] of the D first equations (at time t, started in z, with
    frequency w), followed by the derivative of Phi by z and the derivative of Phi by w; [rate t y w] is the right hand side *)
Definition exact_integration (D : nat) (ivp : (R -> vec -> result vec) -> R -> vec -> result vec)
           (rate : R -> vec -> R -> result vec) (y0 : vec -> vec) (Phi : R -> vec -> R -> vec) : Prop :=
  forall T z w, T <> 0 -> exists y dy,
    ivp (fun t y => rate t y w) T (y0 z) = Ok y /\ rate T y w = Ok dy /\
    (forall i, (i < D)%nat -> y i = Phi T z w i) /\
    forall (g : R -> vec) (v : vec) (om tau : R -> R) (dom dtau t0 : R),
      (forall j, (j < D)%nat -> g t0 j = z j) -> om t0 = w -> tau t0 = T ->
      (forall j, (j < D)%nat -> derivable_pt_lim (fun t => g t j) t0 (v j)) ->
      derivable_pt_lim om t0 dom -> derivable_pt_lim tau t0 dtau ->
      forall i, (i < D)%nat -> derivable_pt_lim (fun t => Phi (tau t) (g t) (om t) i) t0
        (dy i * dtau + rsum D (fun j => y (D + (i * D + j))%nat * v j) + y (D + D * D + i)%nat * dom).

(** lam = (re, im) is an eigenvalue of the real matrix A: A (u + i v) = lam (u + i v) for some u + i v <> 0 *)
Definition eigenvalue (n : nat) (A : mat) (lam : R * R) : Prop :=
  exists u v : vec, (exists k, (k < n)%nat /\ (u k <> 0 \/ v k <> 0)) /\
    forall i, (i < n)%nat -> rsum n (fun j => A i j * u j) = fst lam * u i - snd lam * v i /\
                             rsum n (fun j => A i j * v j) = fst lam * v i + snd lam * u i.
Definition modulus (lam : R * R) : R := sqrt (fst lam ^ 2 + snd lam ^ 2).

(** the system after a sequence of set_new_C(C, ab) calls *)
Definition set_all (s : vibsys) (calls : list (option mat * option (R * R))) : vibsys :=
  fold_left (fun s c => vs_set_new_C s (fst c) (snd c)) calls s.
