(** The worked examples and the test code of the splines.
    Covers moving_mesh_transport/solver_classes/cubic_spline.py: test_spline 128-146 (run on import, 447),
    mcclarren_spline (170-248), mcclarren_spline_2 (250-346).

    Simplifications.  The pictures and the second half of test_spline (148-167: a picture of the spline of a function with
    jumps; nothing is computed from it) are not modelled.  The printed error is the result. *)
From Verif Require Import Py SplineModel FuncModel.

(** cubic_spline.py 170-346, passim: a row of values, of slopes, of second derivatives. *)
Definition val (A : mat) (i l : nat) (x : R) : mat := set4 A i l 1 x (x ^ 2) (x ^ 3).
Definition slope (A : mat) (i l : nat) (x : R) : mat := set4 A i l 0 1 (2 * x) (3 * x ^ 2).
Definition slope' (A : mat) (i l : nat) (x : R) : mat := set4 A i l 0 (-1) (-2 * x) (-3 * x ^ 2).
Definition bend (A : mat) (i l : nat) (x : R) : mat := set4 A i l 0 0 2 (6 * x).
Definition bend' (A : mat) (i l : nat) (x : R) : mat := set4 A i l 0 0 (-2) (-6 * x).

(** cubic_spline.py mcclarren_spline 172: the points, and their two columns. *)
Definition points_4 : list (R * R) := [(0, 0); (PI * 0.5, 1); (PI, 0); (PI * 1.5, -1); (PI * 2, 0)].
(** cubic_spline.py mcclarren_spline (170-248). *)
Definition mcclarren_spline : mat * vec :=
  let X k := nth k (map fst points_4) 0 in
  let Y k := nth k (map snd points_4) 0 in
  let A : mat := fun _ _ => 0 in let b : vec := fun _ => 0 in
  let A := val A 0 0 (X 0%nat) in let b := set1 b 0 (Y 0%nat) in
  let A := val A 1 0 (X 1%nat) in let b := set1 b 1 (Y 1%nat) in
  let A := val A 2 4 (X 1%nat) in let b := set1 b 2 (Y 1%nat) in
  let A := val A 3 4 (X 2%nat) in let b := set1 b 3 (Y 2%nat) in
  let A := val A 4 8 (X 2%nat) in let b := set1 b 4 (Y 2%nat) in
  let A := val A 5 8 (X 3%nat) in let b := set1 b 5 (Y 3%nat) in
  let A := val A 6 12 (X 3%nat) in let b := set1 b 6 (Y 3%nat) in
  let A := val A 7 12 (X 4%nat) in let b := set1 b 7 (Y 4%nat) in
  let A := slope A 8 0 (X 1%nat) in let b := set1 b 8 0 in let A := slope' A 8 4 (X 1%nat) in
  let A := slope A 9 4 (X 2%nat) in let b := set1 b 9 0 in let A := slope' A 9 8 (X 2%nat) in
  let A := slope A 10 8 (X 3%nat) in let b := set1 b 10 0 in let A := slope' A 10 12 (X 3%nat) in
  let A := bend A 11 0 (X 1%nat) in let b := set1 b 11 0 in let A := bend' A 11 4 (X 1%nat) in
  let A := bend A 12 4 (X 2%nat) in let b := set1 b 12 0 in let A := bend' A 12 8 (X 2%nat) in
  let A := bend A 13 8 (X 3%nat) in let b := set1 b 13 0 in let A := bend' A 13 12 (X 3%nat) in
  let A := bend A 14 0 (X 0%nat) in let b := set1 b 14 0 in
  let A := bend A 15 12 (X 4%nat) in let b := set1 b 15 0 in
  (A, b).
(** cubic_spline.py mcclarren_spline_2 252: the points. *)
Definition points_5 : list (R * R) := [(0, 0); (PI * 0.5, 1); (PI, 0); (PI * 1.5, -1); (PI * 2, 0); (5 * PI / 2, 1)].
(** cubic_spline.py mcclarren_spline_2 (250-346). *)
Definition mcclarren_spline_2 : mat * vec :=
  let X k := nth k (map fst points_5) 0 in
  let Y k := nth k (map snd points_5) 0 in
  let A : mat := fun _ _ => 0 in let b : vec := fun _ => 0 in
  let A := val A 0 0 (X 0%nat) in let b := set1 b 0 (Y 0%nat) in
  let A := val A 1 0 (X 1%nat) in let b := set1 b 1 (Y 1%nat) in
  let A := val A 2 4 (X 1%nat) in let b := set1 b 2 (Y 1%nat) in
  let A := val A 3 4 (X 2%nat) in let b := set1 b 3 (Y 2%nat) in
  let A := val A 4 8 (X 2%nat) in let b := set1 b 4 (Y 2%nat) in
  let A := val A 5 8 (X 3%nat) in let b := set1 b 5 (Y 3%nat) in
  let A := val A 6 12 (X 3%nat) in let b := set1 b 6 (Y 3%nat) in
  let A := val A 7 12 (X 4%nat) in let b := set1 b 7 (Y 4%nat) in
  let A := val A 8 16 (X 4%nat) in let b := set1 b 8 (Y 4%nat) in
  let A := val A 9 16 (X 5%nat) in let b := set1 b 9 (Y 5%nat) in
  let A := slope A 10 0 (X 1%nat) in let b := set1 b 10 0 in let A := slope' A 10 4 (X 1%nat) in
  let A := slope A 11 4 (X 2%nat) in let b := set1 b 11 0 in let A := slope' A 11 8 (X 2%nat) in
  let A := slope A 12 8 (X 3%nat) in let b := set1 b 12 0 in let A := slope' A 12 12 (X 3%nat) in
  let A := slope A 13 12 (X 4%nat) in let b := set1 b 13 0 in let A := slope' A 13 16 (X 4%nat) in
  let A := bend A 14 0 (X 1%nat) in let b := set1 b 14 0 in let A := bend' A 14 4 (X 1%nat) in
  let A := bend A 15 4 (X 2%nat) in let b := set1 b 15 0 in let A := bend' A 15 8 (X 2%nat) in
  let A := bend A 16 4 (X 3%nat) in let b := set1 b 16 0 in let A := bend' A 16 8 (X 3%nat) in
  let A := bend A 17 8 (X 4%nat) in let b := set1 b 17 0 in let A := bend' A 17 12 (X 4%nat) in
  let A := bend A 18 0 (X 0%nat) in let b := set1 b 18 0 in
  let A := bend A 19 16 (X 5%nat) in let b := set1 b 19 0 in
  (A, b).

(** cubic_spline.py test_spline 128-146, for any number of knots [k], test points [m], end [L] and function (lines 131-132:
    50, line 140: 100, 2 pi, the sine): the error that is printed. *)
Definition spline_rms (f : R -> R) (L : R) (k m : nat) : result R :=
  let x := linspace 0 L k in
  let y := map f x in
  coef <- cubic_spline x y ;;
  _ <- GaussElim 16 (fst mcclarren_spline) (snd mcclarren_spline) ;;
  let xtest := linspace 0 L m in
  ytest <- map_result (eval_spline x (length y - 1) coef) xtest ;;
  Ok (sqrt (rsum (map2 (fun a b => (a - b) ^ 2) ytest (map f xtest)) / INR (length ytest))).
Definition test_spline : result R := spline_rms sin (2 * PI) 50 100.
