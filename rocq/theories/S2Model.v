(** Model of the functions of solver_classes/functions.py about sources with two directions that no run calls: the integrand and the test of
    the closed form of SourceModel.v, its first version, the formula for wide Gaussian sources, the names of the problems, and the weight of
    the orthogonality test of tests/test_functions.py; and of misc_functions.py.

    Simplifications.  Exact arithmetic.  scipy's adaptive quadrature is the parameter [quad]: the integral of a function over an interval.
    A division by zero in the integrand (tau = t) is not met by it.  Names are strings; the printed text is dropped. *)
From Coq Require Import String.
From Verif Require Import Py Legendre Cheb DGModel FuncModel SourceModel RmsModel TestModel.
Local Open Scope R_scope.
Local Open Scope list_scope.

(** numpy heaviside(z, v) *)
Definition heaviside (z v : R) : R := if Rltb z 0 then 0 else if Reqb z 0 then v else 1.
(** functions.py 318-319 *)
Definition su_olson_s2_integrand (tau x t x0 t0 : R) : R :=
  (exp (- t + tau) * (- heaviside ((-3 * x - 3 * x0 + sqrt 3 * (t - tau)) / (t - tau)) 1 - heaviside ((3 * x - 3 * x0 + sqrt 3 * (t - tau)) / (t - tau)) 1
    + heaviside ((-3 * x + 3 * x0 + sqrt 3 * (t - tau)) / (t - tau)) 1 + heaviside ((3 * x + 3 * x0 + sqrt 3 * (t - tau)) / (t - tau)) 1)) / 2.
(** functions.py 330-331 *)
Definition uncollided_s2_gaussian_thick (x t sigma t0 : R) : R :=
  (6*t^5 + t^6 + 12*t^3*(10 + 15*x^2 - 3*sigma^2) + 3*t^4*(10 + 15*x^2 - 3*sigma^2) +  18*t*(40 + 15*x^2*(4 + x^2) - 6*(2 + 3*x^2)*sigma^2 +
   6*sigma^4) +  9*t^2*(40 + 15*x^2*(4 + x^2) - 6*(2 + 3*x^2)*sigma^2 + 6*sigma^4) - 9*(- 80 - 3*x^2*(40 + 10*x^2 + x^4) + 24*sigma^2 + 9*x^2*(4 +
   x^2)*sigma^2 - 6*(2 + 3*x^2)*sigma^4 + 18*sigma^6) + exp (t0)*(- t^6 + 6*t^5*(- 1 + t0) + 6*t0^5 - t0^6 + 12*t0^3*(10 +
   15*x^2 - 3*sigma^2) - 3*t0^4*(10 + 15*x^2 - 3*sigma^2) - 3*t^4*(10 + 5*(- 2 + t0)*t0 + 15*x^2 - 3*sigma^2) + 4*t^3*(- 30 + 5*t0*(6 + (- 3 +
   t0)*t0) + 45*(- 1 + t0)*x^2 - 9*(- 1 + t0)*sigma^2) + 18*t0*(40 + 15*x^2*(4 + x^2) - 6*(2 + 3*x^2)*sigma^2 + 6*sigma^4) - 9*t0^2*(40 + 15*x^2*(4 +
   x^2) - 6*(2 + 3*x^2)*sigma^2 + 6*sigma^4) + 9*(- 80 - 3*x^2*(40 + 10*x^2 + x^4) + 24*sigma^2 + 9*x^2*(4 + x^2)*sigma^2 - 6*(2 + 3*x^2)*sigma^4 +
   18*sigma^6) - 3*t^2*(5*(24 + t0*(- 24 + t0*(12 + (- 4 + t0)*t0))) + 45*x^4 - 18*(2 + (- 2 + t0)*t0)*sigma^2 + 18*sigma^4 + 18*x^2*(10 + 5*(- 2 +
   t0)*t0 - 3*sigma^2)) + 6*t*(- 120 + t0*(120 + t0*(- 60 + t0*(20 + (- 5 + t0)*t0))) + 45*(- 1 + t0)*x^4 - 6*(- 6 + t0*(6 + (- 3 +
   t0)*t0))*sigma^2 + 18*(- 1 + t0)*sigma^4 + 6*x^2*(- 30 + 5*t0*(6 + (- 3 + t0)*t0) - 9*(- 1 + t0)*sigma^2))))/(162*exp (t)*sigma^6).
(** functions.py 333-348; the last branch compares an unassigned name *)
Definition problem_identifier (source_type : list Z) : result string :=
  a <- getitem source_type 0 ;; if Z.eqb a 1 then Ok "plane_IC"%string else
  a <- getitem source_type 1 ;; if Z.eqb a 1 then Ok "square_IC"%string else
  a <- getitem source_type 2 ;; if Z.eqb a 1 then Ok "square_source"%string else
  a <- getitem source_type 3 ;; if Z.eqb a 1 then Ok "gaussian_IC"%string else
  a <- getitem source_type 4 ;; if Z.eqb a 1 then Ok "gaussian_source"%string else
  Err UnboundLocal.
(** functions.py 368-397; a branch without return gives None *)
Definition uncollided_su_olson_s2_2 (x t x0 t0 : R) : option R :=
  let T0 := Rmin t t0 in
  if Rgtb t t0 then
    let x := Rabs x in
    if Rleb (x0 - sqrt 3 * (t - T0) / 3) (Rabs x) && Rleb (Rabs x) (x0 + sqrt 3 * (t - T0) / 3) then Some (s2_F t T0 - s2_F t 0)
    else if Rltb (Rabs x) (x0 - sqrt 3 * (t - T0) / 3) then
      let arg := t - (x0 - x) * 3 / sqrt 3 in
      if Rleb (t - (x0 - x) * 3 / sqrt 3) 0 then Some (2 * (s2_F t T0 - s2_F t 0))
      else if Rgtb (t - (x0 - x) * 3 / sqrt 3) 0 && Rltb (t - (x0 - x) * 3 / sqrt 3) T0 then
        Some (2 * (s2_F t T0 - s2_F t arg) + s2_F t arg - s2_F t 0)
      else None
    else if Rgtb x (x0 + sqrt 3 * (t - T0) / 3) then
      let arg := Rmax (t - (x - x0) * 3 / sqrt 3) 0 in
      Some (s2_F t arg - s2_F t 0)
    else None
  else Some 0.
(** functions.py 400-419 (with the import of scipy inside): the number printed as RMSE.  An entry that is None cannot be stored *)
Definition test_s2_sol (quad : (R -> R) -> R -> R -> R) (t t0 : R) : result R :=
  let xs := linspace 50 60 500 in
  let x0 := 1 / 2 in
  phi <- map_result (fun x => match uncollided_su_olson_s2 x t x0 t0 with Some v => Ok v | None => Err TypeError end) xs ;;
  let phi_exact := map (fun x => quad (fun tau => su_olson_s2_integrand tau x t x0 t0) 0 (Rmin t t0)) xs in
  d <- vsub phi_exact phi ;; Ok (sqrt (mean d ^ 2)).

(** functions.py 519-521, one entry *)
Definition weight_func_Tn (x a b : R) : R := (b - a) / sqrt ((a - x) * (x - b)).
(** tests/test_functions.py 87-102 *)
Definition test_ortho_Tn (quad : (R -> R) -> R -> R -> R) (u v : nat -> R) : result unit :=
  loop (fun irun =>
    let aa := u irun * 3 in let bb := aa + v irun + 1 / 10 in
    _ <- py_assert (Rltb aa bb) ;;
    loop (fun ij =>
      let integrand := fun x => match normTn (fst ij) x aa bb, normTn (snd ij) x aa bb with Ok T, Ok T' => T * weight_func_Tn x aa bb * T' | _, _ => 0 end in
      npassert (/ 10 ^ 7) (/ 10 ^ 8) (quad integrand aa bb) (identity (fst ij) (snd ij))) (list_prod (seq 0 5) (seq 0 5))) (seq 0 4).

(** misc_functions.py 4-9 *)
Definition source_type_str : list string :=
  ["plane_IC"; "square_IC"; "square_s"; "gaussian_IC"; "MMS"; "gaussian_s"; "gaussian_IC_2D"; "line_source"; "P1_su_olson_rad";
   "P1_su_olson_mat"; "P1_gaussian_rad"; "P1_gaussian_mat"; "P1_gaussian_rad_thick"; "P1_gaussian_mat_thick";
   "P1_su_olson_rad_thick"; "P1_su_olson_mat_thick"]%string.
(** python list.index *)
Fixpoint index_of (s : string) (l : list string) : option nat :=
  match l with [] => None | y :: r => if String.eqb s y then Some 0%nat else option_map S (index_of s r) end.
(** misc_functions.py 3-17; the entries are whole numbers kept as integers *)
Definition source_name_finder (source_name : string) : result (list Z) :=
  if negb (existsb (String.eqb source_name) source_type_str) then Err AssertionError else
  match index_of source_name source_type_str with
  | None => Err ValueError
  | Some index => Ok (map (fun i => if (i =? index)%nat then 1%Z else 0%Z) (seq 0 (length source_type_str)))
  end.
