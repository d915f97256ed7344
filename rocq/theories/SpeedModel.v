(** Model of solver_functions/wavespeed_estimator.py and of mesh.py smooth_wave_loc_array (269-272).

    Simplifications.  Exact arithmetic; a division of an entry by zero (inf or nan in numpy) is [NaN] for that entry.  The scalar flux of the
    stored solution at step it and position x (lines 29-44: mesh.move, reshape, make_output, make_phi) is the parameter [flux]; make_phi is
    modelled in OutModel.v.  The edge lists of lines 53-57 are not used by the code and left out. *)
From Verif Require Import Py FuncModel EstimateModel.
Local Open Scope R_scope.

(** solutions[it, ix-1] for an array of n columns: the index -1 is the last column *)
Definition before (n ix : nat) : nat := match ix with O => (n - 1)%nat | S k => k end.
(** 59-63: the two sums of step it over n positions *)
Definition dt_sum (u : nat -> nat -> R) (n it : nat) (delta_t : R) : R :=
  sumn (n - 1) (fun ix => Rabs ((u it ix - u (it - 1)%nat ix) / delta_t)).
Definition dx_sum (u : nat -> nat -> R) (n it : nat) (delta_x : R) : R :=
  sumn (n - 1) (fun ix => Rabs ((u it (ix + 1)%nat - u it (before n ix)) / delta_x)).
(** 46-69: the arrays dt and dx start as zeros and step 0 is left out of the loop; sol.t[1] needs two times *)
Definition speeds (u : nat -> nat -> R) (n : nat) (ts : list R) (delta_x : R) : result (list (result R)) :=
  t1 <- getitem ts 1 ;; t0 <- getitem ts 0 ;;
  let delta_t := t1 - t0 in
  Ok (map (fun it =>
    let dt := if (it =? 0)%nat then 0 else dt_sum u n it delta_t in
    let dx := if (it =? 0)%nat then 0 else dx_sum u n it delta_x in
    if Reqb (5 / 10 * dx) 0 then Err NaN else Ok (dt / (5 / 10 * dx))) (seq 0 (length ts))).
(** 14-69; np.linspace(0, x0 + tfinal, 1000000) *)
Definition n_positions : nat := Z.to_nat 1000000.
Definition position (n : nat) (x0 tfinal : R) (ix : nat) : R := 0 + INR ix * ((x0 + tfinal - 0) / INR (n - 1)).
Definition wavespeed_estimator (flux : nat -> R -> R) (ts : list R) (tfinal x0 : R) : result (list (result R)) :=
  let xs := position n_positions x0 tfinal in
  speeds (fun it ix => flux it (xs ix)) n_positions ts (Rabs (xs 1%nat - xs 0%nat)).

(** 74-78 *)
Definition derivative_estimator (phi : list R) (delta_x : R) : list R :=
  let n := length phi in
  map (fun ix => if (1 <=? ix)%nat && (ix <? n - 1)%nat then (nth ix phi 0 - nth (ix - 1) phi 0) / delta_x else 0) (seq 0 n).
(** 80-84 *)
Definition second_derivative_estimator (phi : list R) (delta_x : R) : list R :=
  let n := length phi in
  map (fun ix => if (1 <=? ix)%nat && (ix <? n - 2)%nat then (nth (ix + 1) phi 0 - 2 * nth ix phi 0 + nth (ix - 1) phi 0) / delta_x ^ 2 else 0) (seq 0 n).

(** numpy a[i] with a whole number i: negative ones count from the end *)
Definition getz (l : list R) (i : Z) : result R :=
  let n := Z.of_nat (length l) in
  if (i <? - n)%Z || (n <=? i)%Z then Err IndexError
  else Ok (nth (Z.to_nat (if (i <? 0)%Z then i + n else i)) l 0).
(** 101-109 and 110-119: the two loops; [step] is -1 and 1.  The fuel is the number of entries that can be looked at *)
Fixpoint search (fuel : nat) (d : list R) (i step : Z) : result Z :=
  match fuel with
  | O => Err NoTermination
  | S f => v <- getz d i ;;
      if Rleb (Rabs v) (/ 10 ^ 16) then Ok i else if Rleb (Rabs v) (/ 10 ^ 13) then Ok i else search f d (i + step)%Z step
  end.
(** 86-120; xs is not empty; max(np.abs(spatial_deriv)) of an empty array is a ValueError *)
Definition find_edge (d : list R) (il_old ir_old : Z) : result (Z * Z) :=
  match d with
  | [] => Err ValueError
  | _ => let fuel i := (2 * length d + 2 + Z.to_nat (Z.abs i))%nat in
      il <- search (fuel il_old) d il_old (-1)%Z ;; ir <- search (fuel ir_old) d ir_old 1%Z ;; Ok (il, ir)
  end.

(** mesh.py 270-272: one pass from the left over the row *)
Fixpoint smooth_row (l : list R) : list R :=
  match l with
  | x :: ((y :: _) as r) => (if Rltb x y then y else x) :: smooth_row r
  | _ => l
  end.
(** mesh.py 269-272: the row [0,3,:], read with or without index checks (the class is compiled by numba, which does not check) *)
Definition smooth_wave_loc_array (read : arr3 -> nat -> nat -> result (list R)) (a : arr3) : result (list R) := r <- read a 0%nat 3%nat ;; Ok (smooth_row r).
