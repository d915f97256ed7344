(** Model of the two copies of the free flight of a uniform ball outside of the package and of the study that uses one:
    /repo/uncollided_shell_test.py shell_IC_uncollided_solution (7-19), /repo/shell_convergence_plots.py
    shell_IC_uncollided_solution (50-64) and shell_source_convergence (19-47).
    float64 -> R; one radius r > 0 at a time (at r = 0 numpy divides by zero).  The stored runs and the benchmark of the
    package transport_benchmarks, which is not in the repository, are parameters; plots are left out. *)
From Verif Require Import Py FuncModel BenchModel.

(** shell_convergence_plots.py 50-64 *)
Definition plots_shell (r t : R) : R :=
  let x0 := 1 / 2 in
  let sigma_abs := 1 in
  let n0 := 1 / (4 * PI / 3 * x0 ^ 3) / (4 * PI) in
  let tt := t + / 10 ^ 12 in
  let mu_crit := Rmin 1 (Rmax (-1) (1 / 2 * (tt / r + r / tt - x0 ^ 2 / (r * tt)))) in
  n0 * 2 * PI * (1 - mu_crit) * exp (- t * sigma_abs).
(** uncollided_shell_test.py 4, 7-19 *)
Definition test_shell (r t : R) : R :=
  let x0 := 1 / 2 in
  let sigma_abs := 0 in
  let N01 := 4 * PI * x0 ^ 3 / 3 in
  let N0 := 1 / N01 in
  let n0 := N0 / (4 * PI / 3 * x0 ^ 3) / (4 * PI) / 2 in
  let tt := t + / 10 ^ 12 in
  let mu_crit := Rmin 1 (Rmax (-1) (1 / 2 * (tt / r + r / tt - x0 ^ 2 / (r * tt)))) in
  n0 * 2 * PI * (1 - mu_crit) * exp (- t * sigma_abs).
(** shell_convergence_plots.py 20-21, 23: times, cell numbers, orders *)
Definition study : list (R * list nat * nat) := [(1, [3; 5; 10; 15]%nat, 3%nat); (5, [10; 10; 10; 10]%nat, 3%nat)].
(** shell_convergence_plots.py 28-36, one time: [load t M cells] is loader.call_sol, its flux and positions;
    [bench t xs] is intg.shell_source, collided and uncollided part *)
Definition study_row (load : R -> nat -> nat -> result (list R * list R)) (bench : R -> list R -> result (list R * list R))
    (e : R * list nat * nat) : result (list R) :=
  let '(t, spaces, M) := e in
  map_result (fun space =>
    s <- load t M space ;; let '(phi, xs) := s in
    b <- bench t xs ;; let '(col, unc) := b in
    tot <- vadd col unc ;; rms phi tot) spaces.
(** shell_convergence_plots.py 19-47: RMSE_list *)
Definition shell_study load bench : result (list (list R)) := map_result (study_row load bench) study.
