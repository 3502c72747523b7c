(** tmdsimpy/postprocess/continuation.py and the saving callback of tmdsimpy/utils/continuation.py. *)
From Coq Require Import Reals List Arith Bool ZArith String Ascii.
From Verif.Lib Require Import RSum Py.
Import ListNotations.
Open Scope R_scope.

(** np.all(np.diff(l) > 0) *)
Fixpoint increasingb (l : list R) : bool :=
  match l with x :: t => (match t with y :: _ => Rltb x y | [] => true end && increasingb t)%bool | [] => true end.

(** np.interp(x, xp, fp, left=nan, right=nan) for one x, with its documented meaning; None is nan *)
Fixpoint np_interp (x : R) (xp fp : list R) : option R :=
  match xp, fp with
  | x0 :: xs, f0 :: fs =>
      if Rltb x x0 then None
      else match xs, fs with
           | x1 :: _, f1 :: _ => if Rltb x x1 then Some (f0 + (f1 - f0) / (x1 - x0) * (x - x0)) else np_interp x xs fs
           | _, _ => if Reqb x x0 then Some f0 else None
           end
  | _, _ => None
  end.

Definition row (tab : list vec) (j : nat) : vec := nth j tab vzero.
Definition last_column (N : nat) (tab : list vec) : list R := map (fun r => r (N - 1)%nat) tab.

(** linear_interp, postprocess/continuation.py 142-205.  [N] is the number of columns.  Returned rows are None where the code
    returns nan.  reference_values is assumed to have one entry per row (documented shape). *)
Definition linear_interp (N : nat) (tab : list vec) (new_values : list R) (reference_values : option (list R)) : result (list (option vec)) :=
  let refs := match reference_values with None => last_column N tab | Some r => r end in
  if increasingb refs then
    match refs with
    | [] => Err ValueError
    | _ =>
      let M := List.length refs in
      Ok (map (fun x =>
        match np_interp x refs (map INR (seq 0 M)) with
        | None => None
        | Some frac_ind =>
          let whole_ind := Z.to_nat (Int_part frac_ind) in
          let next_ind := Nat.min (whole_ind + 1) (M - 1) in
          let remainder_ind := frac_ind - INR whole_ind in
          Some (fun c => row tab whole_ind c + remainder_ind * (row tab next_ind c - row tab whole_ind c))
        end) new_values)
    end
  else Err AssertionError.

(** scipy.interpolate.CubicHermiteSpline for one column: the cubic on [x0, x1] (PPoly coefficients c3..c0 of scipy) *)
Definition hermite_cubic (x0 x1 y0 y1 d0 d1 : R) (x : R) : R :=
  let dx := x1 - x0 in
  let slope := (y1 - y0) / dx in
  let t := (d0 + d1 - 2 * slope) / dx in
  (t / dx) * (x - x0) ^ 3 + ((slope - d0) / dx - t) * (x - x0) ^ 2 + d0 * (x - x0) + y0.
(** interval search of PPoly: the first interval [x_j, x_(j+1)) that contains x, the last one is closed *)
Fixpoint interval_of (x : R) (xs : list R) (j : nat) : nat :=
  match xs with
  | _ :: ((x1 :: (_ :: _)) as t) => if Rltb x x1 then j else interval_of x t (S j)
  | _ => j
  end.

(** hermite_interp, postprocess/continuation.py 73-140.  lams.max() and lams.min() of an empty array raise ValueError, and so
    does CubicHermiteSpline with fewer than two points. *)
Definition hermite_interp (N : nat) (tab grad : list vec) (lams : list R) : result (list vec) :=
  let lam := last_column N tab in
  let dlam := last_column N grad in
  if increasingb lam then
    if forallb (fun d => Rltb 0 d) dlam then
      match lams with
      | [] => Err ValueError
      | _ =>
        if forallb (fun l => Rleb l (last lam 0)) lams then
          if forallb (fun l => Rleb (hd 0 lam) l) lams then
            if Nat.ltb (List.length tab) 2 then Err ValueError
            else
              Ok (map (fun l =>
                let j := interval_of l lam 0 in
                fun c => if Nat.ltb c (N - 1) then
                    hermite_cubic (nth j lam 0) (nth (S j) lam 0) (row tab j c) (row tab (S j) c)
                                  (row grad j c / nth j dlam 0) (row grad (S j) c / nth (S j) dlam 0) l
                  else l) lams)
          else Err AssertionError
        else Err AssertionError
      end
    else Err AssertionError
  else Err AssertionError.

(** np.linspace(0, stop, num) for num >= 1 *)
Definition linspace0 (stop : R) (num : nat) : list R :=
  map (fun i => if (Nat.ltb 1 num && Nat.eqb i (num - 1))%bool then stop
                else if Nat.ltb 1 num then INR i * (stop / INR (num - 1)) else 0) (seq 0 num).

(** hermite_upsample, postprocess/continuation.py 9-70, new_lams=None.  With new_lams given it is hermite_interp.
    np.interp without left and right uses the end values outside the range; the new steps are never outside. *)
Definition hermite_upsample (N : nat) (tab grad : list vec) (upsample_freq : nat) : result (list vec) :=
  let M := List.length tab in
  let new_steps := linspace0 (INR (M - 1)) ((M - 1) * upsample_freq + 1) in
  let new_lams := map (fun s => match np_interp s (map INR (seq 0 M)) (last_column N tab) with Some l => l | None => 0 end) new_steps in
  match tab with [] => Err ValueError | _ => hermite_interp N tab grad new_lams end.

(** ---- saving ---- *)
(** a file is complete or torn (its writer was killed); np.load of a torn file raises *)
Inductive content := Whole (XlamP dirP_prev : list (list R)) | Torn.
Definition files := string -> option content.
Definition set_file (fs : files) (name : string) (c : content) : files := fun n => if string_dec n name then Some c else fs n.

(** str.endswith *)
Definition ends_with (suffix s : string) : bool :=
  (Nat.leb (String.length suffix) (String.length s) &&
   if string_dec (substring (String.length s - String.length suffix) (String.length suffix) s) suffix then true else false)%bool.
(** np.savez appends ".npz" to names that do not end in it; np.load and os.path.exists do not *)
Definition savez_name (fname : string) : string := if ends_with ".npz" fname then fname else (fname ++ ".npz")%string.

(** np.vstack of the stored rows and one more row *)
Definition vstack (rows : list (list R)) (r : list R) : result (list (list R)) :=
  if forallb (fun q => Nat.eqb (List.length q) (List.length r)) rows then Ok (rows ++ [r]) else Err ValueError.

(** the arrays to be written, utils/continuation.py 99-111 *)
Definition save_data (fs : files) (XlamP dirP_prev : list R) (fname : string) : result content :=
  match fs fname with
  | Some Torn => Err ValueError
  | Some (Whole xs ds) =>
      do xs' <- vstack xs XlamP;
      do ds' <- vstack ds dirP_prev;
      Ok (Whole xs' ds')
  | None => Ok (Whole [XlamP] [dirP_prev])
  end.
(** continuation_save, utils/continuation.py 60-116 *)
Definition continuation_save (fs : files) (XlamP dirP_prev : list R) (fname : string) : result files :=
  do c <- save_data fs XlamP dirP_prev fname;
  Ok (set_file fs (savez_name fname) c).
(** the process is killed: before np.savez opens the file (first alternative) or while it writes (second; np.savez opens the
    target itself for writing, which empties it) *)
Definition save_killed (fs : files) (XlamP dirP_prev : list R) (fname : string) : list files :=
  [fs; match save_data fs XlamP dirP_prev fname with Ok _ => set_file fs (savez_name fname) Torn | Err _ => fs end].

(** a sequence of calls with the same file name *)
Fixpoint continuation_saves (fs : files) (calls : list (list R * list R)) (fname : string) : result files :=
  match calls with
  | [] => Ok fs
  | (x, d) :: rest => do fs' <- continuation_save fs x d fname; continuation_saves fs' rest fname
  end.

(** combine_callback_funs, utils/continuation.py 16-58: the calls made, in order *)
Definition combine_callback_funs {F A : Type} (call : F -> A) (funs_list : list F) : list A := map call funs_list.
