(** Model of the numerical helpers of /repo/moving_mesh_transport/solver_classes/functions.py and of the
    projections of build_problem.py (same directory).

    Simplifications.  numpy's leggauss and scipy's eval_legendre are external: the first is the parameter
    [leggauss] (number of points to list of (node, weight)), the second is [leg].  While loops carry a fuel
    argument and end in [NoTermination] when it runs out. *)
From Verif Require Import Py Legendre Cheb DGModel.

(** functions.py 79-110, one entry of the returned array *)
Definition dx_normPn (n : nat) (x a b : R) : R :=
  let fact := sqrt ((2 * INR n + 1) / (b - a)) in
  let z := (b + a - 2 * x) / (a - b) in
  let tmp :=
    match n with
    | 0%nat => 0
    | 1%nat => 1
    | 2%nat => 3*z
    | 3%nat => (-3 + 15*z^2)/2
    | 4%nat => (-60*z + 140*z^3)/8
    | 5%nat => (15 - 210*z^2 + 315*z^4)/8
    | 6%nat => (210*z - 1260*z^3 + 1386*z^5)/16
    | 7%nat => (-35 + 945*z^2 - 3465*z^4 + 3003*z^6)/16
    | 8%nat => (-2520*z + 27720*z^3 - 72072*z^5 + 51480*z^7)/128
    | 9%nat => (315 - 13860*z^2 + 90090*z^4 - 180180*z^6 + 109395*z^8)/128
    | 10%nat => (6930*z - 120120*z^3 + 540540*z^5 - 875160*z^7 + 461890*z^9)/256
    | 11%nat => (-693 + 45045*z^2 - 450450*z^4 + 1531530*z^6 - 2078505*z^8 + 969969*z^10)/256
    | _ => 0                       (* tmp = 0*x, no branch *)
    end in
  tmp * fact.

(** functions.py 619-625: the Chebyshev rule as (node, weight) pairs *)
Definition cheb_node (n i : nat) : R := cos ((2 * INR i - 1) / 2 / INR n * PI).
Definition quadrature_chebyshev (n : nat) : list (R * R) :=
  map (fun i => (cheb_node n i, PI / INR n)) (seq 1 n).

(** np.sort on a one-dimensional array *)
Fixpoint insert (x : R) (l : list R) : list R :=
  match l with [] => x :: nil | y :: r => if Rleb x y then x :: l else y :: insert x r end.
Fixpoint np_sort (l : list R) : list R := match l with [] => [] | x :: r => insert x (np_sort r) end.

(** functions.py 183-206.  Line 193/203: xL + (xs_quad + 1)*(xR - xL)/2 *)
Definition cell_nodes (xs_quad : list R) (xL xR : R) : list R := map (fun z => xL + (z + 1) * (xR - xL) / 2) xs_quad.
Fixpoint blocks (f : R -> R -> list R) (edges : list R) : list R :=
  match edges with
  | xL :: ((xR :: _) as rest) => f xL xR ++ blocks f rest
  | _ => []
  end.
Definition find_nodes (leggauss : nat -> list (R * R)) (edges : list R) (M : nat) (g : geom) : list R :=
  let M := if (M =? 0)%nat then 1%nat else M in
  match g with
  | Slab => blocks (cell_nodes (map fst (leggauss M))) edges
  | Sphere => blocks (fun xL xR => np_sort (cell_nodes (map fst (quadrature_chebyshev M)) xL xR)) edges
  end.

(** functions.py 208-209 *)
Definition convergence (err1 x1 err2 x2 : R) : R := - ln (err2 / err1) / ln (x2 / x1).

(** np.sign *)
Definition np_sign (x : R) : Z := if Rltb x 0 then (-1)%Z else if Rltb 0 x then 1%Z else 0%Z.
(** functions.py 662-672; m is unbound until the loop body has run *)
Fixpoint bisect_loop (f : R -> R) (tol : R) (fuel : nat) (a b : R) (m : option R) : result R :=
  if Rgtb (b - a) tol then
    match fuel with
    | O => Err NoTermination
    | S k =>
        let m := a + (b - a) / 2 in
        let fm := f m in
        if negb (Z.eqb (np_sign (f a)) (np_sign fm)) then bisect_loop f tol k a m (Some m)
        else bisect_loop f tol k m b (Some m)
    end
  else match m with Some m => Ok m | None => Err UnboundLocal end.
Definition bisection (fuel : nat) (f : R -> R) (a b tol : R) : result R :=
  if negb (Z.eqb (np_sign (f a)) (np_sign (f b))) then bisect_loop f tol fuel a b None else Err AssertionError.

(** functions.py 674-678 *)
Definition eval_legendre_deriv (n : nat) (x : R) : R :=
  (x * leg n x - leg (n - 1) x) / ((x ^ 2 - 1) / INR n).
(** functions.py 680-681 *)
Definition eval_second_legendre_deriv (n : nat) (x : R) : R :=
  (INR n * (- ((1 + x ^ 2) * leg n x) + 2 * x * leg (n - 1) x
     + (-1 + x ^ 2) * (x * eval_legendre_deriv n x - eval_legendre_deriv (n - 1) x))) / (-1 + x ^ 2) ^ 2.

(** functions.py 683-690; new_guess starts at 1000 *)
Fixpoint newtons2_loop (f fprime : R -> R) (tol : R) (fuel : nat) (old_guess new_guess : R) : result R :=
  if Rgtb (Rabs (old_guess - new_guess)) tol then
    match fuel with
    | O => Err NoTermination
    | S k =>
        if Reqb (fprime old_guess) 0 then Err NaN
        else
          let new_guess := old_guess - f old_guess / fprime old_guess in
          let old_guess := new_guess in
          newtons2_loop f fprime tol k old_guess new_guess
    end
  else Ok old_guess.
Definition newtons2 (fuel : nat) (x0 : R) (f fprime : R -> R) (tol : R) : result R := newtons2_loop f fprime tol fuel x0 1000.

(** functions.py 692-701; the functions may fail to give a number *)
Fixpoint newtons (fuel : nat) (x0 : R) (f fprime : R -> result R) (tol : R) : result R :=
  match fuel with
  | O => Err NoTermination
  | S k =>
      y <- f x0 ;; d <- fprime x0 ;;
      if Reqb d 0 then Err NaN else
      let new_x0 := x0 - y / d in
      if Rleb (Rabs (new_x0 - x0)) tol then Ok new_x0 else newtons k new_x0 f fprime tol
  end.

(** what 674-681 give at a point: they divide zero by zero at 1 and -1 *)
Definition off_ends (f : R -> R) (x : R) : result R := if Reqb (x ^ 2) 1 then Err NaN else Ok (f x).
(** functions.py 628-649 (gauss_lobatto), tolerance 1e-14 *)
Fixpoint map_result {A B} (f : A -> result B) (l : list A) : result (list B) :=
  match l with [] => Ok [] | x :: r => y <- f x ;; ys <- map_result f r ;; Ok (y :: ys) end.
Definition lobatto_roots (leggauss : nat -> list (R * R)) (fuel n : nat) : result (list R) :=
  let brackets := if (1 <? n)%nat then map fst (leggauss (n - 1)%nat) else -1 :: 1 :: nil in
  map_result (fun i =>
    b0 <- getitem brackets i ;;
    b1 <- getitem brackets (i + 1) ;;
    newtons fuel ((b0 + b1) * (1/2)) (off_ends (eval_legendre_deriv (n - 1))) (off_ends (eval_second_legendre_deriv (n - 1))) (/ 10 ^ 14)) (seq 0 (n - 2)).
(** roots[0] and roots[-1] are overwritten by -1 and 1 (in this order); weights stay 0 unless the loop runs.
    n = 0 fails on xs[0]. *)
Definition quadrature_lobatto (leggauss : nat -> list (R * R)) (fuel n : nat) : result (list (R * R)) :=
  inner <- lobatto_roots leggauss fuel n ;;
  match n with
  | O => Err IndexError
  | S O => Ok ((1, 0) :: nil)
  | _ =>
      let we := if (2 <? n)%nat then 2 / (INR n * INR (n - 1)) else 0 in
      Ok ((-1, we) :: map (fun x => (x, 2 / (INR n * INR (n - 1)) / leg (n - 1) x ^ 2)) inner ++ (1, we) :: nil)
  end.

(** functions.py 459-464 (thermal is a dict in the only caller, never equal to True) *)
Definition shaper (angles spaces M : nat) (thermal : bool) : list nat :=
  if thermal then (angles + 1)%nat :: spaces :: (M + 1)%nat :: nil else angles :: spaces :: (M + 1)%nat :: nil.
(** functions.py 443-457 *)
Definition heaviside_scalar (x : R) : R := if Rltb x 0 then 0 else 1.

(** a quadrature sum: np.sum(ws * v(xs)) *)
Definition qsum (q : list (R * R)) (v : R -> R) : R := rsum (map (fun p => snd p * v (fst p)) q).
(** build_problem.py 154-157; f is ic.function(., mu) *)
Definition integrate_quad (q : list (R * R)) (f : R -> R) (a b : R) (j : nat) : R :=
  1 / 2 * (b - a) * qsum q (fun z => let x := (b - a) / 2 * z + (a + b) / 2 in f x * normPn j x a b).
(** build_problem.py 159-162; normTn fails above order 12 (whatever the point) *)
Definition integrate_quad_sphere (q : list (R * R)) (f : R -> R) (a b : R) (j : nat) : result R :=
  vals <- map_result (fun p => let x := (b - a) / 2 * fst p + (a + b) / 2 in
                               T <- normTn j x a b ;; Ok (snd p * f x * 2 * T)) q ;;
  Ok (1 / 2 * (b - a) * rsum vals).
