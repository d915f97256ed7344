(** Model of the formulas of /repo/self_similar_diffusion.py: loglog_converge (13-27), RMSE (62-64) and the
    closed-form solutions (66-84).  The functions below them load runs and draw; they are not modelled.
    float64 -> R.  np.exp, np.sqrt, math.sqrt are the functions on R; where a divisor is zero or a root negative numpy
    gives inf or nan, for which the model has an error. *)
From Verif Require Import Py FuncModel.

(** 66-67 *)
Definition benchmark (xi : R) : R := 5 / 10 * (1 / sqrt PI) * exp (- xi ^ 2 / 4).
(** 68-69; [xi] is the module's global array of line 35, not computed from z *)
Definition benchmarkfull (xi z tau A : R) : result R :=
  if Rltb 0 (A * tau) then Ok (1 / sqrt (A * tau) * (5 / 10) * (1 / sqrt PI) * exp (- xi ^ 2 / 4)) else Err NaN.
(** 70-71 *)
Definition dipole_benchmark (xi : R) : R := 5 / 10 * (1 / sqrt PI) * exp (- xi ^ 2 / 4) * xi.
(** 75-77 *)
Definition gaussian_IC_bench_full (z tau omega A : R) : result R :=
  if Reqb omega 0 then Err NaN
  else if Rltb 0 (A * tau) then
    let exponential_term := - z ^ 2 / (omega ^ 2 + 4 * A * tau) in
    Ok (exp exponential_term / sqrt (A * tau) / sqrt (4 / omega ^ 2 + 1 / A / tau))
  else Err NaN.
(** 79-84 *)
Definition noniso_part_bench (z tau omega epsilon mu : R) : R :=
  let u := exp (- z ^ 2 / omega ^ 2) * (if Rltb 0 mu then 1 else 0) in
  let ubar := exp (- z ^ 2 / omega ^ 2) in
  exp (- tau / epsilon ^ 2) * (u - ubar / 2).

(** x[ix-1]; in Python x[-1] is the last entry *)
Definition before (l : list R) (ix : nat) : R := nth (match ix with O => length l - 1 | S k => k end) l 0.
(** 18-23, one entry *)
Definition loglog_slope (x error : list R) (ix : nat) : result R :=
  let t1 := nth ix x 0 in
  let t2 := before x ix in
  let y1 := nth ix error 0 in
  let y2 := before error ix in
  if Reqb y1 0 then Err ValueError
  else if Reqb t1 0 then Err ValueError
  else if Rltb 0 (y2 / y1) then
    if Rltb 0 (t2 / t1) then
      if Reqb (ln (t2 / t1)) 0 then Err ZeroDivision else Ok (- ln (y2 / y1) / ln (t2 / t1))
    else Err ValueError
  else Err ValueError.
(** 13-27; the mean of no entries is nan; error must have as many entries as x *)
Definition loglog_converge (x error : list R) (start : nat) : result R :=
  if (length x <=? start)%nat then Err ValueError
  else
    slopes <- map_result (loglog_slope x error) (seq start (length x - 1 - start)) ;;
    if (length slopes =? 0)%nat then Err NaN else Ok (rsum slopes / INR (length slopes)).
