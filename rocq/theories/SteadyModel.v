(** Model of the solutions run_functions.py draws beside the results of the boundary source and the thick square source:
    boundary_source (205, 209), steady_state_gaussian_benchmark (342-349), siewert_bench (357-368),
    olson_henderson_bench (417-427) and moving_gaussian_shock (435-450) in
    /repo/moving_mesh_transport/solver_functions/run_functions.py.
    float64 -> R; scipy's erf and integrate.quad are parameters.  The operands of the divisions are numpy floats: a zero
    divisor gives inf or nan with a warning, for which the model has an error.  Plotting is left out. *)
From Verif Require Import Py FuncModel SedovModel.

Section Steady.
Variable erf : R -> R.
Variable quad : (R -> R) -> R -> R -> R.

(** 205, 209: fsol(xs + x0, -1), drawn for the constant opacity *)
Definition steady_constant (x0 x : R) : R := exp ((x + x0) * 1 / -1).
(** 343 *)
Definition gauss_path (x1 x2 sigma : R) : R := sqrt (PI / 2) * sigma * (erf (x2 / sqrt 2 / sigma) - erf (x1 / sqrt 2 / sigma)).
(** 344 *)
Definition steady_fsol (x x0 mu : R) : R := exp (gauss_path (- x0) x (1 / 2) / mu).
(** 345-349, one point; the list holds mus and ws *)
Definition steady_phi (x0 : R) (dirs : list (R * R)) (x : R) : R :=
  rsum (map (fun p => if Rltb (fst p) 0 then snd p * steady_fsol x x0 (fst p) else 0) dirs).

(** 445 *)
Definition mg_sigma (s t : R) : R := exp (- (s - (- 1 / 4) * t) ^ 2 / (2 * 2 ^ 2)).
(** 440, 444: the time at which the particle is at s *)
Definition mg_eta (tfinal x mu s : R) : R := (s - -5) / mu + ((-5 - x) / mu + tfinal).
(** 435-450 *)
Definition moving_gaussian_shock (tfinal x mu : R) : result R :=
  if Reqb mu 0 then Err ZeroDivision
  else if Reqb tfinal 0 then Err ZeroDivision
  else
    let mfp := quad (fun s => mg_sigma s (mg_eta tfinal x mu s)) (-5) x in
    Ok (exp (- mfp / Rabs mu) * np_heaviside0 (Rabs mu - Rabs ((x - -5) / tfinal))).
End Steady.

(** 418-419 *)
Definition oh_xs : list R := map (fun x => x - 5)
  [0; 5/10; 1; 15/10; 2; 25/10; 3; 35/10; 4; 45/10; 5; 55/10; 6; 65/10; 7; 75/10; 8; 85/10; 9; 95/10; 10].
(** 420-427 *)
Definition oh_phi (tfinal : R) : list R :=
  if Reqb tfinal 1 then
    [0; 0; 0; 0; 52/1000; 476/1000; 899/1000; 952/1000; 952/1000; 952/1000; 952/1000; 952/1000; 952/1000; 952/1000; 899/1000; 476/1000; 52/1000; 0; 0; 0; 0]
  else if Reqb tfinal 5 then
    [51/1000; 138/1000; 290/1000; 562/1000; 1035/1000; 1968/1000; 2900/1000; 3371/1000; 3636/1000; 3771/1000;
     3812/1000; 3771/1000; 3636/1000; 3371/1000; 2900/1000; 1968/1000; 1035/1000; 562/1000; 290/1000; 138/1000; 51/1000]
  else map (fun x => x * 0) oh_xs.
(** 358-368: directions, and what leaves through the left and the right side of the slab *)
Definition sw_mus : list R := [5/100; 1/10; 2/10; 3/10; 4/10; 5/10; 6/10; 7/10; 8/10; 9/10; 1].
Definition sw_left_inf : list R :=
  [89780/100000; 88784/100000; 86958/100000; 85230/100000; 83550/100000; 81900/100000; 80278/100000; 78649/100000; 77043/100000; 75450/100000; 73872/100000].
Definition sw_right_inf : list R :=
  [10220/100000; 11216/100000; 13042/100000; 14770/100000; 16450/100000; 18100/100000; 19732/100000; 21351/100000; 22957/100000; 24550/100000; 26128/100000].
