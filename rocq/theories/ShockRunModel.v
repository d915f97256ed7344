(** Model of the curves run_functions.py draws beside the angular flux of the moving Gaussian:
    moving_gaussian_shock_benchmark (497-513) in /repo/moving_mesh_transport/solver_functions/run_functions.py, after
    get_results (290-303).  self.xs has one dimension if eval_times is off (main_functions.py 246) and two if it is on
    (256).  With two dimensions linspace gives 25 rows; the bound x of integrate.quad is then a row, and scipy's
    comparison of the bounds raises ValueError unless the row has one position.  Tables whose rows hold fewer than
    two positions are left out (an error here).  float64 -> R; quad is a parameter; plotting is left out. *)
From Verif Require Import Py FuncModel BenchModel SedovModel SedovRunModel SteadyModel.

(** self.xs: main_functions.py 246, 256 *)
Inductive places := Single (xs : list R) | Table (rows : list (list R)).

(** 501: the direction nearest to 0.6, the first one of several *)
Definition nearest06 (mus : list R) : result R := i <- rargmin (map (fun mu => Rabs (mu - 6 / 10)) mus) ;; getitem mus i.
(** 498-510: the positions and the two curves drawn *)
Definition shock_benchmark (quad : (R -> R) -> R -> R -> R) (tfinal : R) (mus : list R) (xs : places) : result (list R * list R * list R) :=
  mu2 <- nearest06 mus ;;
  match xs with
  | Table rows => _ <- getitem rows 0 ;; _ <- getneg rows 1 ;; Err ValueError
  | Single l =>
      a <- getitem l 0 ;; b <- getneg l 1 ;;
      let sparse := linspace a b 25 in
      v <- map_result (fun x => p1 <- moving_gaussian_shock quad tfinal x 1 ;; p2 <- moving_gaussian_shock quad tfinal x mu2 ;; Ok (p1, p2)) sparse ;;
      Ok (sparse, map fst v, map snd v)
  end.
(** fake_sedov_benchmark (515-553) for both forms of self.xs: 520 takes an entry by two indices, which a list does not have *)
Definition sedov_benchmark (erf : R -> R) (v0 ts tfinal : R) (dirs : list (R * R)) (xs : places) (phi : list (list R)) : result R :=
  match xs with
  | Single _ => _ <- rargmin (map (fun p => Rabs (fst p - 6 / 10)) dirs) ;; Err IndexError
  | Table rows => fake_sedov_benchmark erf v0 ts tfinal dirs rows phi
  end.
