(** Model of the benchmark comparison: loading_and_saving/load_bench.py and the benchmark parts of solver.py
    (44-52, 63-75, 236-273).  Definitions only.  Paths under /repo/moving_mesh_transport.

    Simplifications: float64 -> R; prints, plots and the unused first branch of __call__'s else (ask_for_bench is
    always True) are dropped; scale_transport_benchmark does nothing (its test contains 1 == 0); the stored positions
    are taken as increasing, so the range of scipy's interp1d is from the first to the last; str of a float is a
    parameter [pr]. *)
From Coq Require Import String.
From Verif Require Import Py StoreModel OutModel.

(** load_bench.py 44-49 *)
Definition bench_names : list string :=
  ["plane_IC"; "square_IC"; "square_source"; "gaussian_IC"; "MMS"; "gaussian_source"; "gaussian_IC_2D"; "line_source";
   "P1_su_olson_rad"; "P1_su_olson_mat"; "P1_gaussian_rad"; "P1_gaussian_mat"; "P1_gaussian_rad_thick";
   "P1_gaussian_mat_thick"; "P1_su_olson_rad_thick"; "P1_su_olson_mat_thick"]%string.
(** 52-53 *)
Definition bench_name (source_type : list Z) : result string :=
  i <- argmin (map (fun z => Z.abs (z - 1)) source_type) ;; getitem bench_names i.
(** 29-33: the time looked up *)
Definition bench_time (t c : R) (c_scaling : bool) : R := if c_scaling then t * c else t.
(** 62-66: the key of the data set *)
Definition bench_key (pr : R -> string) (t c : R) (c_scaling : bool) : string :=
  String.append "t = " (if Reqb t (316228 / 10000) then pr t else pr (bench_time t c c_scaling)).

(** A loaded benchmark: positions, the two interpolants (cubic, external), and the table of the thermal solution
    (rows position, radiation, material) when there is one. *)
Record bench := { b_xs : list R; b_phi : R -> R; b_phi_u : R -> R; b_e : option (list (R * R * R)) }.
(** the benchmark file: group and data set name to the data; the two text tables *)
Record bench_disk := { d_sets : string -> string -> option (list R * (R -> R) * (R -> R)); d_one : list (R * R * R); d_31 : list (R * R * R) }.
(** __init__ (20-82) *)
Definition load_bench (pr : R -> string) (d : bench_disk) (source_type : list Z) (t c : R) (c_scaling : bool) : result bench :=
  let tf := bench_time t c c_scaling in
  let table := if Reqb tf 1 then Some (d_one d) else if Reqb tf (316228 / 10000) then Some (d_31 d) else None in
  name <- bench_name source_type ;;
  match d_sets d name (bench_key pr t c c_scaling) with
  | Some (xs, f, u) => Ok {| b_xs := xs; b_phi := f; b_phi_u := u; b_e := table |}
  | None => Err KeyError
  end.

(** scipy interp1d objects (75-76) called on points: a point outside the range of positions is a ValueError *)
Definition interp_at (b : bench) (f : R -> R) (xs : list R) : result (list R) :=
  lo <- getitem (b_xs b) 0 ;; hi <- getneg (b_xs b) 1 ;;
  if forallb (fun x => Rleb lo x && Rleb x hi) xs then Ok (map f xs) else Err ValueError.
(** np.argmin of a real array: the first position of the least element; empty is a ValueError *)
Fixpoint rargmin_from (best : R) (at_ i : nat) (l : list R) : nat :=
  match l with
  | nil => at_
  | z :: l' => if Rltb z best then rargmin_from z i (S i) l' else rargmin_from best at_ (S i) l'
  end.
Definition rargmin (l : list R) : result nat :=
  match l with nil => Err ValueError | z :: l' => Ok (rargmin_from z 0 1 l') end.
(** stich_solution (84-111) for one of the two interpolants *)
Definition stich (b : bench) (f : R -> R) (xs : list R) : result (list R) :=
  lst <- getneg xs 1 ;; fst_ <- getitem xs 0 ;; edge <- getneg (b_xs b) 1 ;;
  let n := length xs in
  if Rleb (Rabs (lst - fst_)) (1 / 10 ^ 12) then
    let middle := (n / 2)%nat in
    ei <- rargmin (map (fun x => Rabs (x - edge)) (slice xs middle (n - 1))) ;;
    v <- interp_at b f (slice xs (middle - ei) (ei + middle)) ;;
    setslice (zeros n) (middle - ei) (ei + middle) v
  else
    ei <- rargmin (map (fun x => Rabs (x - edge)) xs) ;;
    v <- interp_at b f (slice xs 0 ei) ;;
    setslice (zeros n) 0 ei v.
(** __call__ (122-134) *)
Definition bench_call (b : bench) (xs : list R) : result (list R * list R) :=
  lst <- getneg xs 1 ;; edge <- getneg (b_xs b) 1 ;;
  if Rgtb lst edge then p <- stich b (b_phi b) xs ;; u <- stich b (b_phi_u b) xs ;; Ok (p, u)
  else p <- interp_at b (b_phi b) xs ;; u <- interp_at b (b_phi_u b) xs ;; Ok (p, u).

(** np.sqrt(np.mean((a-b)**2)), solver.py 243, 268, 269; the mean of an empty array is nan *)
Definition rms (a b : list R) : result R :=
  d <- vsub a b ;;
  match d with nil => Err NaN | _ => Ok (sqrt (rsum (map (fun x => x ^ 2) d) / INR (length d))) end.
(** solver.py 44-52: the benchmarks of a run; any other kind leaves the names unbound *)
Definition choose_bench (full s2rad s2mat : result bench) (bench_type : string) : result (bench * option bench) :=
  if String.eqb bench_type "full" then b <- full ;; Ok (b, None)
  else if String.eqb bench_type "S2" then b <- s2rad ;; m <- s2mat ;; Ok (b, Some m)
  else Err UnboundLocal.
(** solver.py 236-273: the error of the scalar flux and, with thermal coupling, of the energy *)
Definition bench_errors (tc : pyval) (c_scaling : bool) (weights : string) (sigma x00 tfinal c : R) (bm : bench * option bench)
    (xs phi e : list R) : result (R * option R) :=
  if py_eq_int tc 0 then
    ref <- (if c_scaling
            then r <- bench_call (fst bm) (map Rabs (vscale xs c)) ;; Ok (map (fun v => c * exp (- (1 - c) * tfinal) * v) (fst r))
            else r <- bench_call (fst bm) (map Rabs xs) ;; Ok (fst r)) ;;
    r <- rms phi ref ;; Ok (r, None)
  else if py_eq_int tc 1 then
    pe <- (if (String.eqb weights "gauss_lobatto" && negb (Reqb sigma 300) && negb (Reqb x00 400))%bool
           then _ <- bench_call (fst bm) (map Rabs xs) ;;
                match b_e (fst bm) with
                | None => Err TypeError
                | Some rows => Ok (map (fun r => snd (fst r)) rows, map (fun r => snd r) rows)
                end
           else if (String.eqb weights "gauss_legendre" || Reqb sigma 300 || Reqb x00 400)%bool
           then p <- bench_call (fst bm) (map Rabs xs) ;;
                match snd bm with
                | None => Err UnboundLocal
                | Some m => q <- bench_call m (map Rabs xs) ;; Ok (fst p, fst q)
                end
           else Err UnboundLocal) ;;
    r <- rms phi (fst pe) ;; re <- rms e (snd pe) ;; Ok (r, Some re)
  else Err UnboundLocal.
