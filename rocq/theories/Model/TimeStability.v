(** postprocess/shooting.py: stability of shooting solutions.  numpy.linalg.eigvals is an argument; complex numbers are
    pairs (re, im). *)
From Coq Require Import Reals List.
From Verif.Lib Require Import RSum Py.
From Verif.Model Require Import VibSys.
Import ListNotations.
Open Scope R_scope.

(** np.max(np.abs(eigvals)) (ValueError on an empty array), postprocess/shooting.py 88 *)
Definition cabs (l : R * R) : R := sqrt (fst l * fst l + snd l * snd l).
Definition max_abs (l : list (R * R)) : result R :=
  match l with [] => Err ValueError | x :: l' => Ok (fold_left (fun m y => Rmax m (cabs y)) l' (cabs x)) end.

(** time_stability, postprocess/shooting.py 9-95, per stored point; the returned time series (copied from shooting_res) are
    left out.  Result: per point the flag and the largest modulus. *)
Fixpoint time_stability ivp inv (eigvals : mat -> list (R * R)) (s : vibsys) (XlamP : list vec) (Fl : vec)
  : result (list (bool * R)) :=
  match XlamP with
  | [] => Ok []
  | Uw :: rest =>
      do (_, _, _, mono) <- shooting_res ivp inv s Uw Fl;
      do m <- max_abs (eigvals mono);
      do tl <- time_stability ivp inv eigvals s rest Fl;
      Ok ((Rleb m 1, m) :: tl)
  end.
