(** Model of the wave-front estimation and of the array the recorded fronts are handed over in:
    solver_functions/wave_loc_estimator.py, solver_functions/main_functions.py 204-211, solver.py 88 and 98,
    solver_classes/mesh.py 306.  Definitions only.  Paths under /repo/moving_mesh_transport.

    Simplifications: float64 -> R; prints and plots dropped; the cubic splines of the flux and of the energy are
    parameters (only their derivatives are used); arrays of different lengths cannot be packed (ValueError, as in
    numpy since 1.24). *)
From Verif Require Import Py BenchModel.

(** ** Three-dimensional arrays, row-major *)
Record arr3 := { d0 : nat; d1 : nat; d2 : nat; dat : list R }.
(** np.array([[t], [l], [r], [T]]), solver.py 88 and 98 *)
Definition pack (t l r T : list R) : result arr3 :=
  if ((length l =? length t) && (length r =? length t) && (length T =? length t))%nat
  then Ok {| d0 := 4; d1 := 1; d2 := length t; dat := t ++ l ++ r ++ T |} else Err ValueError.
(** np.zeros((1,1,1)), solver.py 100 *)
Definition no_wave : arr3 := {| d0 := 1; d1 := 1; d2 := 1; dat := [0] |}.
(** a[i, j, :] (mesh.py 306, 425, 444) as python evaluates it *)
Definition row (a : arr3) (i j : nat) : result (list R) :=
  if ((i <? d0 a) && (j <? d1 a))%nat then Ok (firstn (d2 a) (skipn ((i * d1 a + j) * d2 a) (dat a))) else Err IndexError.
(** the same without index checks, as numba compiles it: the address is computed from the strides; addresses outside
    the array are reported as [Uninit] *)
Definition row_unchecked (a : arr3) (i j : nat) : result (list R) :=
  let start := ((i * d1 a + j) * d2 a)%nat in
  if (start + d2 a <=? length (dat a))%nat then Ok (firstn (d2 a) (skipn start (dat a))) else Err Uninit.

(** ** find_wave *)
(** an opacity argument: a number or an array *)
Inductive numarg := Scalar (x : R) | Arr (l : list R).
Record finder := { w_sigma : R; w_mean_free : R }.
(** __init__ (15-31): sigma[0], 1/sigma *)
Definition finder_init (sigma : numarg) : result finder :=
  match sigma with
  | Scalar _ => Err TypeError
  | Arr nil => Err IndexError
  | Arr (s :: _) => if Reqb s 0 then Err ZeroDivision else Ok {| w_sigma := s; w_mean_free := 1 / s |}
  end.
(** make_sol (91-116): find_nodes is called with two of its three arguments (94; functions.py 183) *)
Definition make_sol (times : list R) : result unit := _ <- getneg times 1 ;; Err TypeError.

(** the search loops of find_wave_bounds (148-174), [found] is the flag tested; dphi, de: derivatives of the splines *)
Fixpoint left_search (fuel : nat) (dx x0 lo : R) (dphi de : R -> R) (found : bool) (x tol : R) : result R :=
  if found then Ok x else
  match fuel with
  | O => Err NoTermination
  | S f => let x1 := x - dx in
           if Rleb x1 lo then left_search f dx x0 lo dphi de false x0 (tol * (11 / 10))
           else left_search f dx x0 lo dphi de (Rleb (Rabs (dphi x1)) tol && Rleb (Rabs (de x1)) tol) x1 tol
  end.
Fixpoint right_search (fuel : nat) (dx x0 hi : R) (dphi de : R -> R) (found : bool) (x tol : R) : result R :=
  if found then Ok x else
  match fuel with
  | O => Err NoTermination
  | S f => let x1 := x + dx in
           if Rleb hi x1 then right_search f dx x0 hi dphi de (Rltb 10 (tol * (105 / 100))) x0 (tol * (105 / 100))
           else right_search f dx x0 hi dphi de (Rleb (Rabs (dphi x1)) tol && Rleb (Rabs (de x1)) tol) x1 tol
  end.
(** find_wave_bounds (118-190); [big] is the maximum of the sampled derivative (134-141) *)
Definition find_wave_bounds (fuel : nat) (w : finder) (x0 edges_tol : R) (source_type : list Z) (hi : R) (dphi de : R -> R) (big : R)
  : result (R * R) :=
  s1 <- getitem source_type 1 ;; s2 <- getitem source_type 2 ;;
  start <- (if ((s1 =? 1) || (s2 =? 1))%Z%bool then Ok x0
            else s3 <- getitem source_type 3 ;; s5 <- getitem source_type 5 ;;
                 if ((s3 =? 1) || (s5 =? 1))%Z%bool then Ok 0 else Err UnboundLocal) ;;
  let tol := if Reqb (big / edges_tol) 0 then 1 / 10 ^ 6 else big / edges_tol in
  xl <- left_search fuel (1 / 1000) x0 0 dphi de true start tol ;;
  xr <- right_search fuel (1 / 1000) x0 hi dphi de true start tol ;;
  Ok (if Rltb (Rabs xl) (w_mean_free w) then w_mean_free w else xl, xr).

(** np.sort *)
Fixpoint insert (x : R) (l : list R) : list R :=
  match l with nil => [x] | y :: l' => if Rleb x y then x :: l else y :: insert x l' end.
Definition sort (l : list R) : list R := fold_right insert nil l.
(** find_T_wave (192-200) *)
Definition find_T_wave (xs deriv : list R) : result R :=
  m <- getitem (sort deriv) 0 ;;
  i <- rargmin (map (fun d => Rabs (d - m)) deriv) ;;
  x <- getitem xs i ;; Ok (Rabs x).
(** number of sampling points (53) *)
Definition samples : nat := N.to_nat 50000.
(** What make_sol leaves for one time: the points and the two splines' derivatives, with the sampled maximum *)
Record snapshot := { s_xs : list R; s_dphi : R -> R; s_de : R -> R; s_big : R }.
(** the loop of find_wave (39-86) and the return (87-88) *)
Fixpoint find_loop (fuel : nat) (w : finder) (x0 edges_tol : R) (source_type : list Z) (l : list snapshot) : result (list R * list R * list R) :=
  match l with
  | nil => Ok (nil, nil, nil)
  | s :: l' =>
      a <- getitem (s_xs s) 0 ;; b <- getneg (s_xs s) 1 ;;
      lr <- find_wave_bounds fuel w x0 edges_tol source_type b (s_dphi s) (s_de s) (s_big s) ;;
      let pts := linspace a b samples in
      h <- find_T_wave pts (map (s_de s) pts) ;;
      rest <- find_loop fuel w x0 edges_tol source_type l' ;;
      let '(ls, rs, ts) := rest in Ok (fst lr :: ls, snd lr :: rs, h :: ts)
  end.
Definition after_make_sol (fuel : nat) (w : finder) (x0 edges_tol : R) (source_type : list Z) (l : list snapshot) : result (list R * list R * list R) :=
  r <- find_loop fuel w x0 edges_tol source_type l ;;
  let '(ls, rs, ts) := r in t' <- setitem ts 0 x0 ;; Ok (ls, rs, t').
(** find_wave (33-88) *)
Definition find_wave (fuel : nat) (w : finder) (times : list R) (x0 edges_tol : R) (source_type : list Z) (l : list snapshot)
  : result (list R * list R * list R) := _ <- make_sol times ;; after_make_sol fuel w x0 edges_tol source_type l.
(** main_functions.py 204-211; the flag is an integer *)
Definition wave_part (fuel : nat) (find_wave_loc : Z) (sigma_t : numarg) (times : list R) (x0 edges_tol : R) (source_type : list Z)
    (l : list snapshot) : result (list R * list R * list R) :=
  if (find_wave_loc =? 1)%Z then w <- finder_init sigma_t ;; find_wave fuel w times x0 edges_tol source_type l
  else if (find_wave_loc =? 0)%Z then Ok (zeros 1, zeros 1, zeros 1) else Err UnboundLocal.
