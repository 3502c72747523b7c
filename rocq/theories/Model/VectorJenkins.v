(** Model of /repo/tmdsimpy/nlforces/vector_jenkins.py.
    Arrays over time are functions [nat -> _] with Nt rows; one local displacement (Nnl = 1). *)
From Coq Require Import Reals List Arith Bool.
From Verif.Lib Require Import RSum Py.
From Verif.Model Require Import Jenkins.
Import ListNotations.
Open Scope R_scope.

(** dup, dun and vector_set, vector_jenkins.py 129-133 (np.roll wraps around; vector_set[0] = False) *)
Definition vj_dup (Nt : nat) (u : nat -> R) (i : nat) : R := u i - u ((i + Nt - 1) mod Nt).
Definition vj_dun (Nt : nat) (u : nat -> R) (i : nat) : R := u ((i + 1) mod Nt) - u i.
Definition vj_vector_set (Nt : nat) (u : nat -> R) (i : nat) : bool :=
  if Nat.eqb i 0 then false
  else Reqb (Rsign (vj_dup Nt u i)) (Rsign (vj_dun Nt u i)).

(** crit_inds before wrapping, vector_jenkins.py 136-138, 152 *)
Definition vj_crit (Nt : nat) (u : nat -> R) : list nat :=
  filter (fun i => negb (vj_vector_set Nt u i)) (seq 0 Nt).

(** ft[crit] = ft_crit, vector_jenkins.py 146-147: scatter into arrays initialised with zeros *)
Fixpoint vj_scatter {A} (idx : list nat) (vals : list A) (a : nat -> A) : nat -> A :=
  match idx, vals with
  | i :: idx', v :: vals' => vj_scatter idx' vals' (fun k => if Nat.eqb k i then v else a k)
  | _, _ => a
  end.

(** consecutive pairs (crit_inds[i], crit_inds[i+1]) after appending crit_inds[0], 153, 160-162 *)
Fixpoint vj_pairs (first : nat) (l : list nat) : list (nat * nat) :=
  match l with
  | [] => []
  | [a] => [(a, first)]
  | a :: ((b :: _) as tl) => (a, b) :: vj_pairs first tl
  end.

(** body of the loop 160-187 for one pair: fill ft and dfduh on start..stop-1 *)
Definition vj_fill (kt Fs : R) (Nt : nat) (u : nat -> R) (cst : nat -> vec)
           (acc : (nat -> R) * (nat -> vec)) (p : nat * nat) : (nat -> R) * (nat -> vec) :=
  let '(ft, dfduh) := acc in
  let start := (fst p + 1)%nat in
  let stop := (snd p + Nt * (if Nat.eqb (snd p) 0 then 1 else 0))%nat in
  let trial := fun i => kt * (u i - u (start - 1)%nat) + ft (start - 1)%nat in
  let mask := fun i => Rltb Fs (Rabs (trial i)) in
  if Nat.ltb start stop then
    (fun i => if Nat.leb start i && Nat.ltb i stop
              then if mask i then Fs * Rsign (trial i) else trial i
              else ft i,
     fun i => if Nat.leb start i && Nat.ltb i stop
              then if mask i then (fun _ => 0)
                   else (fun c => kt * (cst i c - cst (start - 1)%nat c) + dfduh (start - 1)%nat c)
              else dfduh i)
  else (ft, dfduh).

(** VectorJenkins.local_force_history, vector_jenkins.py 49-193; max_repeats, atol and rtol are
    ignored and fixed to 2, 1e-10, 1e-10 in the call of the inherited loop (141-144). *)
Definition vector_jenkins_local_force_history (s : jenkins) (Nt : nat) (u : nat -> R)
           (cst : nat -> vec) (unlth0 : R) : result (jenkins * (nat -> R) * (nat -> vec)) :=
  let crit := vj_crit Nt u in
  do (s', os) <- jenkins_local_force_history s (map (fun i => (u i, cst i)) crit) unlth0
                                             2 default_tol default_tol;
  let ft := vj_scatter crit (map fst os) (fun _ => 0) in
  let dfduh := vj_scatter crit (map snd os) (fun _ _ => 0) in
  let '(ft', dfduh') := fold_left (vj_fill (j_kt s) (j_Fs s) Nt u cst)
                                  (vj_pairs (hd O crit) crit) (ft, dfduh) in
  Ok (s', ft', dfduh').
