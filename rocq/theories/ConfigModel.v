(** Reading the configuration.
    Covers moving_mesh_transport/loading_and_saving/load_parameters.py (all of it) and
    moving_mesh_transport/solver_functions/run_functions.py: run.load (43-53).

    Simplifications
    - A yaml file is the tree [yaml.safe_load] returns ([yval]); the yaml parser itself is not modelled.
      Floating-point literals are decimals m * 10^e.
    - [str(v)] of a value that is not text, an integer or a truth value is one fixed text.
    - A numpy array built from a list is that list ([Arr1]); from a scalar it is zero-dimensional ([Arr0]).
      Lists of lists (no configuration has one where [np.array] is applied) stay lists of values.
    - [int(text)] accepts decimal digits with a sign only; [float(text)] decimals with an exponent only
      (no inf, nan, underscores or surrounding blanks). *)
From Coq Require Import String Ascii.
From Verif Require Import Py.
Open Scope string_scope.
Open Scope R_scope.

(** What [yaml.safe_load] returns (run_functions.py 47, 51). *)
Inductive yval :=
  YBool (b : bool) | YInt (z : Z) | YFloat (m e : Z) | YStr (s : string)
| YList (l : list yval) | YDict (d : list (string * yval)).

(** A decimal m * 10^e, what python's [float] and [int] get here. *)
Definition dec := (Z * Z)%type.
Definition dec2R (d : dec) : R := IZR (fst d) * powerRZ 10 (snd d).

(** Digits of a text (python's [float]/[int] on text, load_parameters.py passim). *)
Definition digit (c : ascii) : option Z :=
  let n := nat_of_ascii c in
  if ((48 <=? n) && (n <=? 57))%nat then Some (Z.of_nat n - 48)%Z else None.
(** Reads digits: (value, count, rest). *)
Fixpoint digits (acc : Z) (k : nat) (s : string) : Z * nat * string :=
  match s with
  | String c s' => match digit c with Some v => digits (10 * acc + v)%Z (S k) s' | None => (acc, k, s) end
  | EmptyString => (acc, k, s)
  end.
(** An optional sign. *)
Definition sign (s : string) : Z * string :=
  match s with
  | String c s' => if Ascii.eqb c "-" then ((-1)%Z, s') else if Ascii.eqb c "+" then (1%Z, s') else (1%Z, s)
  | EmptyString => (1%Z, s)
  end.
(** [int(text)]. *)
Definition int_text (s : string) : result Z :=
  let '(sg, s1) := sign s in
  match digits 0 0 s1 with
  | (v, S _, EmptyString) => Ok (sg * v)%Z
  | _ => Err ValueError
  end.
(** [float(text)]. *)
Definition float_text (s : string) : result dec :=
  let '(sg, s1) := sign s in
  let '(v, k, s2) := digits 0 0 s1 in
  let '(w, k', s3) := match s2 with
                      | String c s' => if Ascii.eqb c "." then digits v 0 s' else (v, 0%nat, s2)
                      | EmptyString => (v, 0%nat, s2) end in
  if (k + k' =? 0)%nat then Err ValueError
  else match s3 with
       | EmptyString => Ok ((sg * w)%Z, (- Z.of_nat k')%Z)
       | String c s' =>
           if (Ascii.eqb c "e" || Ascii.eqb c "E")%bool
           then x <- int_text s' ;; Ok ((sg * w)%Z, (x - Z.of_nat k')%Z)
           else Err ValueError
       end.

(** python [float(v)]. *)
Definition float_of (v : yval) : result dec :=
  match v with
  | YBool b => Ok ((if b then 1 else 0)%Z, 0%Z)
  | YInt z => Ok (z, 0%Z)
  | YFloat m e => Ok (m, e)
  | YStr s => float_text s
  | YList _ | YDict _ => Err TypeError
  end.
(** python [int(v)]: truncation towards zero of a float. *)
Definition int_of (v : yval) : result Z :=
  match v with
  | YBool b => Ok (if b then 1 else 0)%Z
  | YInt z => Ok z
  | YFloat m e => Ok (if (0 <=? e)%Z then m * 10 ^ e else Z.quot m (10 ^ (- e)))%Z
  | YStr s => int_text s
  | YList _ | YDict _ => Err TypeError
  end.
(** python [str(v)]. *)
Definition str_of (v : yval) : string :=
  match v with
  | YStr s => s
  | YBool true => "True" | YBool false => "False"
  | _ => "<value>"
  end.
(** numpy [np.array(v)]. *)
Inductive yarr := Arr0 (v : yval) | Arr1 (l : list yval).
Definition array_of (v : yval) : yarr := match v with YList l => Arr1 l | _ => Arr0 v end.
(** python [len(a)] of such an array. *)
Definition len_of (a : yarr) : result nat :=
  match a with Arr0 _ => Err TypeError | Arr1 l => Ok (length l) end.
(** numpy [a.size]. *)
Definition size_of (a : yarr) : nat := match a with Arr0 _ => 1%nat | Arr1 l => length l end.
(** numpy [a[i]], i >= 0. *)
Definition item_of (a : yarr) (i : nat) : result yval :=
  match a with Arr0 _ => Err IndexError | Arr1 l => getitem l i end.

(** python [d[k]]: a missing key is a KeyError, a number or truth value cannot be indexed. *)
Fixpoint assoc {A} (k : string) (d : list (string * A)) : option A :=
  match d with
  | nil => None
  | (k', v) :: d' => if String.eqb k k' then Some v else assoc k d'
  end.
Definition key (d : yval) (k : string) : result yval :=
  match d with
  | YDict l => match assoc k l with Some v => Ok v | None => Err KeyError end
  | _ => Err TypeError
  end.

(** python [v == True]. *)
Definition eq_True (v : yval) : bool :=
  match v with
  | YBool b => b
  | YInt z => (z =? 1)%Z
  | YFloat m e => if (0 <=? e)%Z then (m * 10 ^ e =? 1)%Z else (m =? 10 ^ (- e))%Z
  | _ => false
  end.
(** Storing into a numba typed dictionary from text to int64: only truth values and integers are accepted. *)
Definition int64 (v : yval) : result Z :=
  match v with
  | YBool b => Ok (if b then 1 else 0)%Z
  | YInt z => Ok z
  | _ => Err TypeError
  end.

(** load_parameters.py dictionary_loader (160-169), the loop (161-166) over the keys of the input: *)
Fixpoint dict_loop (d : list (string * yval)) (out : list (string * Z)) (counter : nat)
  : result (list (string * Z) * nat) :=
  match d with
  | nil => Ok (out, counter)
  | (k, v) :: d' =>
      z <- int64 v ;;
      dict_loop d' (out ++ [(k, z)]) (if eq_True v then S counter else counter)
  end.
(** load_parameters.py dictionary_loader (160-169), into an empty dictionary (33-34, 47-48, 127-131); a value
    without [keys] (a number) is an AttributeError (162). *)
Definition dictionary_loader (v : yval) : result (list (string * Z)) :=
  match v with
  | YDict d =>
      oc <- dict_loop d nil 0 ;;
      if (2 <=? snd oc)%nat then Err AssertionError else Ok (fst oc)
  | _ => Err AttributeError
  end.

(** A speed: a number, or the text of the file if it is neither 'one' nor 'sqrt_3' (60-67). *)
Inductive speed := Speed (v : R) | SpeedText (s : string).
(** load_parameters.py 60-67. *)
Definition speed_of (s : string) : speed :=
  if String.eqb s "one" then Speed 1
  else if String.eqb s "sqrt_3" then Speed (1 / sqrt 3)
  else SpeedText s.

(** The attributes set by load_parameters.py parameter_load_class.__init__ (15-157). *)
Record config := {
  c_tfinal : dec; c_N_spaces : list yval; c_Ms : list yval; c_N_runs : Z; c_t_nodes : Z; c_c_scaling : Z;
  c_rt : dec; c_at : dec; c_t0 : dec; c_major : string; c_thermal : list (string * Z); c_temp : yarr;
  c_e_initial : dec; c_weights : string; c_particle_v : speed; c_edge_v : speed; c_cv0 : dec;
  c_problem : string; c_sigma_t : dec; c_sigma_s : dec; c_ratio : R; c_integrator : string; c_epsilon : dec;
  c_geometry : list (string * Z); c_thick : bool; c_l : dec; c_mxstp : dec; c_saving : Z;
  c_N_angles : list yval; c_source_type : list Z; c_strength : dec; c_x0 : yarr; c_move_type : yarr;
  c_benchmarking : Z; c_r_times : list R; c_sigma : dec; c_x0_or_sigma : yarr; c_bench_type : string;
  c_find_edges_tol : dec; c_move_factor : dec; c_save_wave_loc : Z; c_find_wave_loc : Z;
  c_estimate_wavespeed : Z; c_choose_xs : Z; c_specified_xs : yarr; c_pad : dec; c_leader_pad : dec;
  c_xs_quad : Z; c_eval_times : Z; c_eval_array : yarr; c_boundary_on : yarr; c_boundary_source : Z;
  c_boundary_strength : dec; c_sigma_func : list (string * Z); c_Msigma : Z; c_finite : Z;
  c_domain_width : dec; c_v0 : dec; c_dimensional_rhs : bool }.

(** The members of a list converted one by one. *)
Fixpoint each {A B} (f : A -> result B) (l : list A) : result (list B) :=
  match l with
  | nil => Ok nil
  | a :: l' => b <- f a ;; bs <- each f l' ;; Ok (b :: bs)
  end.

(** load_parameters.py 81-87: the width, converted entry by entry when source_type[0] is not 0. *)
Definition load_x0 (st0 : Z) (v : yval) : result yarr :=
  if negb (st0 =? 0)%Z
  then let a := array_of v in
       ds <- each (fun i => y <- item_of a i ;; float_of y) (seq 0 (size_of a)) ;;
       Ok (Arr1 (map (fun d : dec => YFloat (fst d) (snd d)) ds))
  else Ok (array_of v).

(** load_parameters.py parameter_load_class.__init__ (15-157), in the order of the lookups. *)
Definition load (source_name : string) (parameters mesh : yval) : result config :=
  all <- key parameters "all" ;;
  tfinal <- (v <- key all "tfinal" ;; float_of v) ;;                                            (* 21 *)
  N_spaces <- (v <- key all "N_spaces" ;; Ok (array_of v)) ;;                                   (* 22 *)
  Ms <- (v <- key all "Ms" ;; Ok (array_of v)) ;;                                               (* 23 *)
  N_runs <- (v <- key all "N_runs" ;; int_of v) ;;                                              (* 24 *)
  t_nodes <- (v <- key all "tnodes" ;; int_of v) ;;                                             (* 25 *)
  c_scaling <- (v <- key all "c_scaling" ;; int_of v) ;;                                        (* 26 *)
  rt <- (v <- key all "rt" ;; float_of v) ;;                                                    (* 27 *)
  at_ <- (v <- key all "at" ;; float_of v) ;;                                                   (* 28 *)
  t0 <- (v <- key all "t0" ;; float_of v) ;;                                                    (* 29 *)
  major <- (v <- key all "major" ;; Ok (str_of v)) ;;                                           (* 31 *)
  thermal <- (v <- key all "radiative_transfer" ;; dictionary_loader v) ;;                      (* 33-34 *)
  temp <- (v <- key all "temperature_dependence" ;; Ok (array_of v)) ;;                         (* 35 *)
  e_initial <- (v <- key all "e_initial" ;; float_of v) ;;                                      (* 36 *)
  weights <- (v <- key all "weights" ;; Ok (str_of v)) ;;                                       (* 37 *)
  particle_v <- (v <- key all "particle_v" ;; Ok (str_of v)) ;;                                 (* 38 *)
  edge_v <- (v <- key all "edge_v" ;; Ok (str_of v)) ;;                                         (* 39 *)
  cv0 <- (v <- key all "cv_const" ;; float_of v) ;;                                             (* 40 *)
  problem <- (v <- key all "problem_name" ;; Ok (str_of v)) ;;                                  (* 41 *)
  sigma_t <- (v <- key all "sigma_t" ;; float_of v) ;;                                          (* 42 *)
  sigma_s <- (v <- key all "sigma_s" ;; float_of v) ;;                                          (* 43 *)
  _ <- (if (fst sigma_t =? 0)%Z then Err ZeroDivision else Ok 0%Z) ;;                           (* 44 *)
  integrator <- (v <- key all "integrator" ;; Ok (str_of v)) ;;                                 (* 45 *)
  epsilon <- (v <- key all "epsilon" ;; float_of v) ;;                                          (* 46 *)
  geometry <- (v <- key all "geometry" ;; dictionary_loader v) ;;                               (* 47-48 *)
  thick <- (v <- key all "thick" ;; int_of v) ;;                                                (* 51 *)
  l <- (if (thick =? 1)%Z
        then src <- key parameters source_name ;; v <- key src "l" ;; float_of v
        else Ok (1%Z, 0%Z)) ;;                                                                  (* 52-55 *)
  mxstp <- (v <- key all "mxstp" ;; float_of v) ;;                                              (* 57 *)
  saving <- (v <- key all "save_solution" ;; int_of v) ;;                                       (* 71 *)
  src <- key parameters source_name ;;
  N_angles <- (v <- key src "N_angles" ;; Ok (array_of v)) ;;                                   (* 73 *)
  source_type <- (v <- key src "source_type" ;;
                  match array_of v with Arr0 _ => Err TypeError | Arr1 xs => each int_of xs end) ;; (* 75-78 *)
  strength <- (v <- key src "source_strength" ;; float_of v) ;;                                 (* 79 *)
  st0 <- getitem source_type 0 ;;                                                               (* 81 *)
  x0 <- (v <- key src "x0" ;; load_x0 st0 v) ;;                                                 (* 82-87 *)
  move_type <- (v <- key src "move_type" ;; Ok (array_of v)) ;;                                 (* 88 *)
  benchmarking <- (v <- key src "benchmarking" ;; int_of v) ;;                                  (* 89 *)
  n_angles <- len_of N_angles ;;                                                                (* 90-92 *)
  sigma <- (if (String.eqb source_name "gaussian_IC" || String.eqb source_name "gaussian_source")%bool
            then v <- key src "sigma" ;; float_of v else Ok (0%Z, 0%Z)) ;;                      (* 95-100 *)
  bench_type <- (if (String.eqb source_name "square_source" || String.eqb source_name "gaussian_source")%bool
                 then v <- key src "bench_type" ;; Ok (str_of v) else Ok "full"%string) ;;      (* 102-105 *)
  find_edges_tol <- (v <- key mesh "find_edges_tol" ;; float_of v) ;;                           (* 112 *)
  move_factor <- (v <- key mesh "sqrt_t_move_factor" ;; float_of v) ;;
  save_wave_loc <- (v <- key mesh "save_wave_loc" ;; int_of v) ;;
  find_wave_loc <- (v <- key mesh "find_wave_loc" ;; int_of v) ;;
  estimate_wavespeed <- (v <- key mesh "estimate_wavespeed" ;; int_of v) ;;
  choose_xs <- (v <- key mesh "choose_xs" ;; int_of v) ;;
  specified_xs <- (v <- key mesh "xs_list" ;; Ok (array_of v)) ;;
  pad <- (v <- key mesh "pad" ;; float_of v) ;;
  leader_pad <- (v <- key mesh "leader_pad" ;; float_of v) ;;
  xs_quad <- (v <- key mesh "xs_quad" ;; int_of v) ;;
  eval_times <- (v <- key mesh "eval_times" ;; int_of v) ;;
  eval_array <- (v <- key mesh "eval_array" ;; Ok (array_of v)) ;;
  boundary_on <- (v <- key mesh "boundary_on" ;; Ok (array_of v)) ;;
  boundary_source <- (v <- key mesh "boundary_source" ;; int_of v) ;;
  boundary_strength <- (v <- key mesh "boundary_source_strength" ;; float_of v) ;;
  sigma_func <- (v <- key mesh "sigma_func" ;; dictionary_loader v) ;;                          (* 127-131 *)
  _ <- match assoc "constant" sigma_func with Some _ => Ok 0%Z | None => Err KeyError end ;;    (* 132 *)
  Msigma <- (v <- key mesh "Msigma" ;; int_of v) ;;
  finite <- (v <- key mesh "finite" ;; int_of v) ;;
  v0 <- (v <- key mesh "fake_sedov_v0" ;; float_of v) ;;
  domain_width <- (if (finite =? 1)%Z then v <- key mesh "domain_width" ;; float_of v
                   else Ok ((-1)%Z, 0%Z)) ;;
  n_spaces <- len_of N_spaces ;;
  (* python's chained comparison evaluates len(Ms) only if the first equality holds *)
  _ <- (if (n_spaces =? n_angles)%nat
        then n_Ms <- len_of Ms ;; if (n_angles =? n_Ms)%nat then Ok 0%Z else Err AssertionError
        else Err AssertionError) ;;                                                             (* 140-142 *)
  scaling <- (v <- key all "epsilon_scaling" ;; int_of v) ;;                                    (* 149 *)
  let items a := match a with Arr0 v => [v] | Arr1 xs => xs end in
  Ok {| c_tfinal := tfinal; c_N_spaces := items N_spaces; c_Ms := items Ms; c_N_runs := N_runs;
        c_t_nodes := t_nodes; c_c_scaling := c_scaling; c_rt := rt; c_at := at_; c_t0 := t0; c_major := major;
        c_thermal := thermal; c_temp := temp; c_e_initial := e_initial; c_weights := weights;
        c_particle_v := speed_of particle_v; c_edge_v := speed_of edge_v; c_cv0 := cv0; c_problem := problem;
        c_sigma_t := sigma_t; c_sigma_s := sigma_s; c_ratio := dec2R sigma_s / dec2R sigma_t;
        c_integrator := integrator; c_epsilon := epsilon; c_geometry := geometry; c_thick := (thick =? 1)%Z;
        c_l := l; c_mxstp := mxstp; c_saving := saving; c_N_angles := items N_angles;
        c_source_type := source_type; c_strength := strength; c_x0 := x0; c_move_type := move_type;
        c_benchmarking := benchmarking; c_r_times := repeat 0 n_angles; c_sigma := sigma;
        c_x0_or_sigma := (if (String.eqb source_name "gaussian_IC" || String.eqb source_name "gaussian_source")%bool
                          then Arr0 (YFloat (fst sigma) (snd sigma)) else x0);
        c_bench_type := bench_type; c_find_edges_tol := find_edges_tol; c_move_factor := move_factor;
        c_save_wave_loc := save_wave_loc; c_find_wave_loc := find_wave_loc;
        c_estimate_wavespeed := estimate_wavespeed; c_choose_xs := choose_xs; c_specified_xs := specified_xs;
        c_pad := pad; c_leader_pad := leader_pad; c_xs_quad := xs_quad; c_eval_times := eval_times;
        c_eval_array := eval_array; c_boundary_on := boundary_on; c_boundary_source := boundary_source;
        c_boundary_strength := boundary_strength; c_sigma_func := sigma_func; c_Msigma := Msigma;
        c_finite := finite; c_domain_width := domain_width; c_v0 := v0;
        c_dimensional_rhs := (scaling =? 1)%Z |}.

(** The names of the nine problem methods of run_functions.py (57-284), each the [source_name] it passes on. *)
Definition problems : list string :=
  ["plane_IC"; "square_IC"; "square_source"; "gaussian_IC"; "gaussian_source"; "MMS"; "boundary_source";
   "dipole"; "self_sim_plane"]%string.
