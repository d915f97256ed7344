(** Model of what the option group sigma_func does after loading: opacity.py sigma_function (129-160) with its dictionary
    look-ups, and the record of heat-wave positions, derivative_saver (rhs_class.py 143-159 = rhs_class_1.py 157-173).
    Paths under /repo/moving_mesh_transport/solver_classes.  Definitions only.
    Simplifications: float64 -> R; sigma_function for one point.  A key that a dictionary lacks is a KeyError, as in
    numba's typed dictionaries.  A division by zero is an error, numba's default in compiled classes.  The points and
    energies of one cell are given as a list of pairs, as T_func (radiative_transfer.py 90-91) leaves both from the same
    array; they are not rebuilt here. *)
From Coq Require Import String.
From Verif Require Import Py FuncModel ConfigModel ClosureModel BenchModel.

(** d[k] == 1 *)
Definition option_on (d : list (string * Z)) (k : string) : result bool :=
  match assoc k d with Some z => Ok (z =? 1)%Z | None => Err KeyError end.
(** opacity.py 129-160; falling off the end returns None, which cannot be multiplied *)
Definition sigma_option (d : list (string * Z)) (v x t : R) : result R :=
  constant <- option_on d "constant" ;;
  if (constant : bool) then Ok (x * 0 + 1)
  else gaussian <- option_on d "gaussian" ;;
  if (gaussian : bool) then Ok (exp (- x ^ 2 / (2 * 2 ^ 2)))
  else siewert1 <- option_on d "siewert1" ;;
  if (siewert1 : bool) then Ok (exp (- x - 5 / 2))
  else siewert2 <- option_on d "siewert2" ;;
  if (siewert2 : bool) then Ok (exp (- x / 100000000000))
  else fake_sedov <- option_on d "fake_sedov" ;;
  if (fake_sedov : bool) then
    let c1 := 1 in
    let xi2x := xi2 x t 0 c1 v in
    let rho2 := 2 / 10 in
    Ok (exp (- xi2x ^ 2 / 2 ^ 2) * heaviside (- xi2x - c1) + rho2 * heaviside (xi2x + c1))
  else Err TypeError.

(** The lists kept by the right-hand side object (rhs_class.py 119-122 = rhs_class_1.py 130-133) *)
Record wrec := { r_times : list R; r_e : list R; r_xs : list R; r_wave : list R }.
Definition wrec0 : wrec := {| r_times := [0]; r_e := [0]; r_xs := [0]; r_wave := [0] |}.
(** 149-152: the array deriv; entry ix for 1 <= ix < size - 1, zero otherwise *)
Definition deriv_entry (e xs : list R) (ix : nat) : result R :=
  if ((1 <=? ix) && (ix <? length e - 1))%nat then
    x1 <- getitem xs (ix + 1) ;; x0 <- getitem xs ix ;;
    e1 <- getitem e (ix + 1) ;; e0 <- getitem e ix ;;
    if Reqb (x1 - x0) 0 then Err ZeroDivision else Ok ((e1 - e0) / (x1 - x0))
  else Ok 0.
Definition deriv_list (e xs : list R) : result (list R) := map_result (deriv_entry e xs) (seq 0 (length e)).
(** python max of a non-empty list *)
Definition list_max (l : list R) : result R :=
  match l with nil => Err ValueError | z :: l' => Ok (fold_left Rmax l' z) end.
(** derivative_saver (143-159): [save] is save_derivative, [last] is space == N_space - 1, [pts] the pairs of
    xs_points and e_points *)
Definition derivative_saver (save : bool) (t : R) (last : bool) (pts : list (R * R)) (w : wrec) : result wrec :=
  let w1 := if save then {| r_times := r_times w; r_e := r_e w ++ map snd pts; r_xs := r_xs w ++ map fst pts; r_wave := r_wave w |} else w in
  if last then
    deriv <- deriv_list (r_e w1) (r_xs w1) ;;
    max_deriv <- list_max (map Rabs deriv) ;;
    max_deriv_loc <- rargmin (map (fun e => Rabs (Rabs e - max_deriv)) (r_e w1)) ;;
    heat_wave_loc <- getitem (r_xs w1) max_deriv_loc ;;
    Ok {| r_times := r_times w1 ++ [t]; r_e := r_e w1; r_xs := r_xs w1; r_wave := r_wave w1 ++ [Rabs heat_wave_loc] |}
  else Ok w1.
(** the calls of a run, in order: time, last cell or not, points *)
Fixpoint saver_run (save : bool) (calls : list (R * bool * list (R * R))) (w : wrec) : result wrec :=
  match calls with
  | nil => Ok w
  | (t, last, pts) :: calls' => w1 <- derivative_saver save t last pts w ;; saver_run save calls' w1
  end.
