(** Model of the semi-analytic solution of the boundary-driven shock problem: uncollided_solutions.py
    integrate_quad_sedov_source (93-101), fake_sedov_integrand (117-136), fake_sedov (288-292) in
    /repo/moving_mesh_transport/solver_classes, and the benchmark run_functions.py fake_sedov (452-492) and the sum of
    fake_sedov_benchmark (526-535) in /repo/moving_mesh_transport/solver_functions.  The value of [fake_sedov] is what
    SourceModel takes as its field [sedov].
    float64 -> R; math.erf is a parameter; dividing a number by zero raises ZeroDivisionError (in the first file the
    code is compiled with numba's python error model; in the second the operands are numpy floats for which zero
    division only warns, so there the model's error stands for a nan).  Printing has no effect. *)
From Verif Require Import Py FuncModel.

Section Sedov.
Variable erf : R -> R.

(** functions.py 452-456 *)
Definition heaviside_scalar (x : R) : R := if Rltb x 0 then 0 else 1.
(** uncollided_solutions.py 121 (and run_functions.py 456): the time of emission *)
Definition emission (x0 mu t x : R) : R := (x0 - x) / mu + t.
(** uncollided_solutions.py 126: where the particle meets the shock *)
Definition meets (v0 x0 mu t0 : R) : R := (v0 * x0 - t0 * v0 * mu) / (v0 + mu).
(** uncollided_solutions.py 130-133 *)
Definition sed_t1 (v0 x0 mu t0 s : R) : R :=
  (sqrt PI * 2 * mu * erf ((v0 * (s - x0) + (1 + s + t0 * v0) * mu) / (2 * mu))) / (2 * (v0 + mu)).
Definition sed_t2 (s : R) : R := 2 / 10 * s.
(** uncollided_solutions.py 121-135 *)
Definition mfp (v0 x0 mu t x : R) : R :=
  let t0 := emission x0 mu t x in
  let b2 := meets v0 x0 mu t0 in
  let b1 := Rmax x b2 in
  let b4 := x0 in
  let b3 := Rmin x b2 in
  sed_t1 v0 x0 mu t0 b1 - sed_t1 v0 x0 mu t0 b2 + sed_t2 b3 - sed_t2 b4.
(** uncollided_solutions.py 117-136; [X0] is self.x0, [ts] is self.t0_source *)
Definition fake_sedov_integrand (v0 X0 ts mu t x : R) : result R :=
  let x0 := - X0 in
  if Reqb mu 0 then Err ZeroDivision
  else if Reqb (v0 + mu) 0 then Err ZeroDivision
  else if Reqb (t + / 10 ^ 10) 0 then Err ZeroDivision
  else Ok (exp (- mfp v0 x0 mu t x / mu) * heaviside_scalar (mu - Rabs ((x - x0) / (t + / 10 ^ 10)))
           * heaviside_scalar (Rabs (x0 - x) - mu * (t - ts))).
(** uncollided_solutions.py 93-101; the list holds mus and ws *)
Definition integrate_quad_sedov_source (dirs : list (R * R)) (func : R -> result R) : result R :=
  vals <- map_result (fun p => f <- func (fst p) ;; Ok (snd p * f)) dirs ;;
  Ok (2 * rsum vals).
(** uncollided_solutions.py 288-292, one point *)
Definition fake_sedov (v0 X0 ts : R) (dirs : list (R * R)) (x t : R) : result R :=
  integrate_quad_sedov_source dirs (fun mu => fake_sedov_integrand v0 X0 ts mu t x).

(** np.heaviside(x, 0) *)
Definition np_heaviside0 (x : R) : R := if Rltb 0 x then 1 else 0.
(** run_functions.py 452-492 *)
Definition bench_sedov (v0 ts mu tfinal x : R) : result R :=
  let x0 := -5 in
  if Reqb mu 0 then Err ZeroDivision
  else if Reqb (v0 + mu) 0 then Err ZeroDivision
  else
    let m := mfp v0 x0 mu tfinal x in
    if Rltb 40 (m / mu) then Ok 0
    else if Rltb 0 mu then
      if Reqb tfinal 0 then Err ZeroDivision
      else Ok (exp (- m / mu) * np_heaviside0 (mu - Rabs (x - x0) / tfinal) * np_heaviside0 (Rabs (x0 - x) - (tfinal - ts) * mu))
    else Ok 0.
(** run_functions.py 526-535, one point *)
Definition bench_phi (v0 ts tfinal : R) (dirs : list (R * R)) (x : R) : result R :=
  vals <- map_result (fun p => f <- bench_sedov v0 ts (fst p) tfinal x ;; Ok (snd p * f)) dirs ;;
  Ok (rsum vals).
End Sedov.
