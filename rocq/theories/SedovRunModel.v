(** Model of the comparison run_functions.py makes for the boundary-driven shock: RMSE (36-37) and fake_sedov_benchmark
    (515-553) in /repo/moving_mesh_transport/solver_functions/run_functions.py.  It is called after runs with several
    output times, where self.xs and self.phi hold one row per time (main_functions.py 252-256); only that case is modelled.
    float64 -> R.  psi1 and psi2 (522-524) are computed and read by nothing, they are left out, as are the plots.
    scipy's interp1d is modelled for two and more positions, which are taken as increasing (fewer are an error here). *)
From Verif Require Import Py FuncModel BenchModel SedovModel.

(** interp1d(x, y)(q), kind linear: the first interval whose right end is not below q, the last one if there is none *)
Fixpoint chord (xs ys : list R) (q : R) : R :=
  match xs, ys with
  | x0 :: ((x1 :: rest) as xs'), y0 :: ((y1 :: _) as ys') =>
      if Rleb q x1 then y0 + (y1 - y0) / (x1 - x0) * (q - x0)
      else match rest with nil => y0 + (y1 - y0) / (x1 - x0) * (q - x0) | _ => chord xs' ys' q end
  | _, _ => 0
  end.
(** 550-551: phi_interp = interp1d(self.xs[-1], self.phi) and its values; y has two dimensions, the last is interpolated *)
Definition interp_rows (xs : list R) (rows : list (list R)) (qs : list R) : result (list (list R)) :=
  lo <- getitem xs 0 ;; hi <- getneg xs 1 ;;
  if negb (forallb (fun r => (length r =? length xs)%nat) rows) then Err ValueError
  else if (length xs <? 2)%nat then Err ValueError
  else if forallb (fun q => Rleb lo q && Rleb q hi) qs then Ok (map (fun r => map (chord xs r) qs) rows) else Err ValueError.
(** 36-37 for a two-dimensional and a one-dimensional array: the second is subtracted from every row, the mean is
    over all entries *)
Definition rmse_rows (rows : list (list R)) (b : list R) : result R :=
  ds <- map_result (fun r => vsub r b) rows ;;
  match concat ds with nil => Err NaN | d => Ok (sqrt (rsum (map (fun x => x ^ 2) d) / INR (length d))) end.
(** 515-553: the number printed.  [dirs] holds self.mus and self.ws, [xs] and [phi] one row per output time *)
Definition fake_sedov_benchmark (erf : R -> R) (v0 ts tfinal : R) (dirs : list (R * R)) (xs phi : list (list R)) : result R :=
  _ <- rargmin (map (fun p => Rabs (fst p - 6 / 10)) dirs) ;;
  row <- getneg xs 1 ;; a <- getitem row 0 ;; b <- getneg row 1 ;;
  let pts := linspace a b 50 in
  bench <- map_result (bench_phi erf v0 ts tfinal dirs) pts ;;
  ev <- interp_rows row phi pts ;;
  rmse_rows ev bench.
