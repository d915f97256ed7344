(** Natural cubic splines and Gaussian elimination.
    Covers moving_mesh_transport/solver_classes/cubic_spline.py: class cubic_spline (16-125), swap_rows (350-369),
    BackSub (370-388), GaussElim (389-444).

    Simplifications.  Matrices are functions of row and column.  The test code
    (128-348, 447), which runs on import, is in SplineTestModel.v.  The functions are compiled: dividing one number by
    zero raises ZeroDivisionError, dividing an array by zero gives infinities and nan ([quo]).  Printing (LOUD) has no
    effect. *)
From Verif Require Import Py.

(** A matrix and a vector. *)
Definition mat := nat -> nat -> R.
Definition vec := nat -> R.

(** cubic_spline.py 403-405: the augmented matrix. *)
Definition augment (N : nat) (A : mat) (b : vec) : mat := fun i j => if (j =? N)%nat then b i else A i j.
(** cubic_spline.py 409-413: the largest magnitude of a row, [np.max(np.fabs(row))] (no rows when N = 0). *)
Fixpoint max_abs (n : nat) (f : vec) : R :=
  match n with O => 0 | S k => Rmax (max_abs k f) (Rabs (f k)) end.
Definition scales (N : nat) (A : mat) : vec := fun i => max_abs N (A i).
(** cubic_spline.py swap_rows 367-369, and 429-431 for the scale factors. *)
Definition swap_rows (A : mat) (a b : nat) : mat := fun i j => A (if (i =? a)%nat then b else if (i =? b)%nat then a else i) j.
Definition swap (s : vec) (a b : nat) : vec := fun i => s (if (i =? a)%nat then b else if (i =? b)%nat then a else i).

(** cubic_spline.py 422: an entry of [np.fabs(aug_matrix[column:N,column]/s[column])]. *)
Inductive quo := Num (v : R) | Inf | Nan.
Definition abs_quo (x s : R) : quo :=
  if Reqb s 0 then (if Reqb x 0 then Nan else Inf) else Num (Rabs (x / s)).
(** cubic_spline.py 422: the comparison of numba's argmax: is [v] larger than the best so far? *)
Definition larger (v best : quo) : bool :=
  match v, best with
  | Inf, Num _ => true
  | Num a, Num b => Rltb b a
  | _, _ => false
  end.
(** cubic_spline.py 422: np.argmax over rows i, i+1, ... (k of them), the first nan or else the first largest entry. *)
Fixpoint argmax_from (q : nat -> quo) (k i best : nat) : nat :=
  match q best with
  | Nan => best
  | _ => match k with
         | O => best
         | S k' => match q i with
                   | Nan => i
                   | _ => argmax_from q k' (S i) (if larger (q i) (q best) then i else best)
                   end
         end
  end.
(** cubic_spline.py 422: the row that is swapped to row [column]; every entry is divided by [s[column]]. *)
Definition pivot_row (N : nat) (U : mat) (s : vec) (column : nat) : nat :=
  argmax_from (fun i => abs_quo (U i column) (s column)) (N - S column) (S column) column.
(** cubic_spline.py 435-438: subtracting multiples of row [column] from the rows below. *)
Definition eliminate (N : nat) (U : mat) (column : nat) : result mat :=
  if (S column <? N)%nat
  then if Reqb (U column column) 0 then Err ZeroDivision
       else Ok (fun i j => if (column <? i)%nat then U i j - U i column / U column column * U column j else U i j)
  else Ok U.
(** cubic_spline.py 419-438: the loop over the columns, [k] of them from [column]. *)
Fixpoint columns (N : nat) (U : mat) (s : vec) (k column : nat) : result mat :=
  match k with
  | O => Ok U
  | S k' =>
      let p := pivot_row N U s column in
      U' <- eliminate N (swap_rows U column p) column ;;
      columns N U' (swap s column p) k' (S column)
  end.
(** cubic_spline.py BackSub (370-388): rows k-1, ..., 0 of the solution vector. *)
Fixpoint BackSub (N : nat) (U : mat) (k : nat) (x : vec) : result vec :=
  match k with
  | O => Ok x
  | S row =>
      let RHS := U row N - sumn (N - S row) (fun d => x (S row + d)%nat * U row (S row + d)%nat) in
      if Reqb (U row row) 0 then Err ZeroDivision
      else BackSub N U row (fun i => if (i =? row)%nat then RHS / U row row else x i)
  end.
(** cubic_spline.py GaussElim (389-444). *)
Definition GaussElim (N : nat) (A : mat) (b : vec) : result vec :=
  U <- columns N (augment N A b) (scales N A) N 0 ;;
  BackSub N U N b.

(** cubic_spline.py, passim: [coeff_array[i, l:l+4] = [v0, v1, v2, v3]]. *)
Definition set4 (A : mat) (i l : nat) (v0 v1 v2 v3 : R) : mat :=
  fun r c => if (r =? i)%nat
             then if (c =? l)%nat then v0 else if (c =? l + 1)%nat then v1
                  else if (c =? l + 2)%nat then v2 else if (c =? l + 3)%nat then v3 else A r c
             else A r c.
(** cubic_spline.py, passim: [rhs[i] = v]. *)
Definition set1 (b : vec) (i : nat) (v : R) : vec := fun r => if (r =? i)%nat then v else b r.

(** cubic_spline.py points (38-61): the variables of the loop. *)
Record pts := { p_A : mat; p_rhs : vec; p_1 : nat; p_2 : nat; p_3 : nat; p_left : nat }.
(** cubic_spline.py points 48-61, the loop body; [k] times from [ix]. *)
Fixpoint points_loop (datax datay : list R) (k ix : nat) (s : pts) : result pts :=
  match k with
  | O => Ok s
  | S k' =>
      x <- getitem datax (p_1 s) ;;
      y <- getitem datay (p_1 s) ;;
      let two := (p_2 s + 1)%nat in
      let three := (p_3 s + 1)%nat in
      points_loop datax datay k' (S ix)
        {| p_A := set4 (p_A s) ix (p_left s) 1 x (x ^ 2) (x ^ 3); p_rhs := set1 (p_rhs s) ix y;
           p_1 := if (two =? 2)%nat then (p_1 s + 1)%nat else p_1 s;
           p_2 := if (two =? 2)%nat then 0%nat else two;
           p_3 := if (three =? 2)%nat then 0%nat else three;
           p_left := if (three =? 2)%nat then (p_left s + 4)%nat else p_left s |}
  end.
(** cubic_spline.py points (38-61); row 0 does not exist when n = 0. *)
Definition points (datax datay : list R) (n : nat) (A : mat) (rhs : vec) : result (mat * vec) :=
  x <- getitem datax 0 ;;
  y <- getitem datay 0 ;;
  if (n =? 0)%nat then Err IndexError
  else s <- points_loop datax datay (2 * n - 1) 1
              {| p_A := set4 A 0 0 1 x (x ^ 2) (x ^ 3); p_rhs := set1 rhs 0 y; p_1 := 1; p_2 := 0; p_3 := 1; p_left := 0 |} ;;
       Ok (p_A s, p_rhs s).
(** cubic_spline.py first_deriv (64-80): [k] times from knot [ix]; (row, left column) are count_1 and left_index. *)
Fixpoint first_deriv (datax : list R) (k ix row left : nat) (A : mat) (rhs : vec) : result (mat * vec) :=
  match k with
  | O => Ok (A, rhs)
  | S k' =>
      x <- getitem datax ix ;;
      let A := set4 A row left 0 1 (2 * x) (3 * x ^ 2) in
      let A := set4 A row (left + 4) 0 (-1) (-2 * x) (-3 * x ^ 2) in
      first_deriv datax k' (S ix) (S row) (left + 4) A (set1 rhs row 0)
  end.
(** cubic_spline.py second_deriv 82-101: the loop. *)
Fixpoint second_loop (datax : list R) (k ix row left : nat) (A : mat) (rhs : vec) : result (mat * vec) :=
  match k with
  | O => Ok (A, rhs)
  | S k' =>
      x <- getitem datax ix ;;
      let A := set4 A row left 0 0 2 (6 * x) in
      let A := set4 A row (left + 4) 0 0 (-2) (-6 * x) in
      second_loop datax k' (S ix) (S row) (left + 4) A (set1 rhs row 0)
  end.
(** cubic_spline.py second_deriv (82-109): the loop and the two end points. *)
Definition second_deriv (datax : list R) (n : nat) (A : mat) (rhs : vec) : result (mat * vec) :=
  Ar <- second_loop datax (n - 1) 1 (3 * n - 1) 0 A rhs ;;
  x <- getitem datax 0 ;;
  let A := set4 (fst Ar) (4 * n - 2) 0 0 0 2 (6 * x) in
  let rhs := set1 (snd Ar) (4 * n - 2) 0 in
  x <- getneg datax 1 ;;
  Ok (set4 A (4 * n - 1) (4 * n - 4) 0 0 2 (6 * x), set1 rhs (4 * n - 1) 0).
(** cubic_spline.py 17-32: the system; an empty [datay] asks for an array of negative size. *)
Definition spline_system (datax datay : list R) : result (mat * vec) :=
  match datay with
  | nil => Err ValueError
  | _ =>
      let n := (length datay - 1)%nat in
      Ar <- points datax datay n (fun _ _ => 0) (fun _ => 0) ;;
      Ar <- first_deriv datax (n - 1) 1 (2 * n) 0 (fst Ar) (snd Ar) ;;
      second_deriv datax n (fst Ar) (snd Ar)
  end.
(** cubic_spline.py cubic_spline.__init__ (17-34), solve_spline (111-113): the vector coef. *)
Definition cubic_spline (datax datay : list R) : result vec :=
  Ar <- spline_system datax datay ;;
  GaussElim (4 * (length datay - 1)) (fst Ar) (snd Ar).
(** cubic_spline.py eval_spline (118-125), the loop over the knots at one point: [k] of them from [knot]. *)
Fixpoint eval_from (datax : list R) (coef : vec) (x : R) (k knot : nat) : result R :=
  match k with
  | O => Ok 0
  | S k' =>
      l <- getitem datax knot ;;
      inside <- (if Rleb l x then r <- getitem datax (knot + 1) ;; Ok (Rleb x r) else Ok false) ;;
      if (inside : bool)
      then Ok (coef (4 * knot)%nat * 1 + coef (4 * knot + 1)%nat * x + coef (4 * knot + 2)%nat * x ^ 2
               + coef (4 * knot + 3)%nat * x ^ 3)
      else eval_from datax coef x k' (S knot)
  end.
(** cubic_spline.py eval_spline (118-125) at one point. *)
Definition eval_spline (datax : list R) (n : nat) (coef : vec) (x : R) : result R := eval_from datax coef x n 0.
