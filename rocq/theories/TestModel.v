(** Model of the active tests of /repo/moving_mesh_transport/tests/test_functions.py.

    Simplifications.  A test is a function from the random draws and the libraries to [result unit]; a failing assertion is [AssertionError].
    External: scipy's fixed_quad and quadpy/numpy's Gauss rules are computed from the parameter [gl] (number of points to (node, weight) list);
    Exact arithmetic.  Not modelled: test_expi (a C routine called through an address),
    test_quadrature_gss_lobatto (compared with quadpy only).  test_ortho_Tn is in S2Model.v. *)
From Verif Require Import Py Legendre Cheb DGModel FuncModel RhsModel.

(** numpy.testing.assert_allclose (22), one entry: |actual - desired| <= atol + rtol |desired|; rtol is 1e-7 and atol 0 unless given *)
Definition npassert (rtol atol actual desired : R) : result unit :=
  if Rleb (Rabs (actual - desired)) (atol + rtol * Rabs desired) then Ok tt else Err AssertionError.
Definition py_assert (b : bool) : result unit := if b then Ok tt else Err AssertionError.
(** a for loop whose body has no other effect than to raise *)
Fixpoint loop {A} (body : A -> result unit) (l : list A) : result unit :=
  match l with [] => Ok tt | x :: r => _ <- body x ;; loop body r end.
(** scipy.integrate.fixed_quad (18) *)
Definition fixed_quad (gl : nat -> list (R * R)) (f : R -> R) (a b : R) (n : nat) : R :=
  (b - a) / 2 * qsum (gl n) (fun z => f ((b - a) * (z + 1) / 2 + a)).

(** 31-40 *)
Definition test_normPns (gl : nat -> list (R * R)) : result unit :=
  loop (fun i =>
    _ <- npassert (/ 10 ^ 7) 0 (fixed_quad gl (fun x => normPn i x 0 2 ^ 2) 0 2 (i + 1)) 1 ;;
    loop (fun j => if negb (j =? i)%nat then
        npassert (/ 10 ^ 11) (/ 10 ^ 11) (Rabs (fixed_quad gl (fun x => normPn i x 0 2 * normPn j x 0 2) 0 2 (i + j + 2))) 0
      else Ok tt) (seq 0 10)) (seq 0 10).

(** 50-57: the nodes of the cell [-1,1] *)
Definition test_node_finder_slab (gl : nat -> list (R * R)) : result unit :=
  loop (fun M => loop (fun p => npassert (/ 10 ^ 11) (/ 10 ^ 11) (fst p) (snd p)) (combine (find_nodes gl (-1 :: 1 :: nil) M Slab) (map fst (gl M)))) (seq 1 10).
(** 59-69: u, v are the two draws.  With b = a the points are not numbers and the comparison is false *)
Definition test_node_finder_slab_2 (gl : nat -> list (R * R)) (u v : R) : result unit :=
  let aa := u * 2 - 1 in let bb := aa + v in
  loop (fun M => loop (fun x => py_assert (negb (Reqb aa bb) && Rleb (Rabs (normPn M x aa bb)) (/ 10 ^ 10))) (find_nodes gl (aa :: bb :: nil) M Slab)) (seq 1 10).
(** 71-81: math.sqrt(1/(b-a)) divides by zero when b = a *)
Definition test_node_finder_sphere (gl : nat -> list (R * R)) (u v : R) : result unit :=
  let aa := u in let bb := aa + v in
  loop (fun M => if Reqb aa bb then Err ZeroDivision else
    loop (fun x => y <- normTn M x aa bb ;; py_assert (Rleb (Rabs y) (/ 10 ^ 10))) (find_nodes gl (aa :: bb :: nil) M Sphere)) (seq 1 8).

(** np.identity *)
Definition identity (i j : nat) : R := if (i =? j)%nat then 1 else 0.
(** 104-133: the drawn cell is replaced by [0,1] in lines 118-119 *)
Definition test_ortho_Tn_gauss_quad (u v : nat -> R) : result unit :=
  loop (fun irun =>
    let aa := u irun * 1 in let bb := aa + v irun + 1 / 10 in
    _ <- py_assert (Rltb aa bb) ;;
    let q := quadrature_chebyshev (2 * 4 + 1) in
    let aa := 0 in let bb := 1 in
    loop (fun ij =>
      l <- map_result (fun p => let x := 1 / 2 * (bb - aa) * fst p + (aa + bb) * (1 / 2) in
                                T <- normTn (fst ij) x aa bb ;; T' <- normTn (snd ij) x aa bb ;; Ok (snd p * (T * 2 * T'))) q ;;
      npassert (/ 10 ^ 7) (/ 10 ^ 8) (1 / 2 * (bb - aa) * rsum l) (identity (fst ij) (snd ij))) (list_prod (seq 0 5) (seq 0 5))) (seq 0 4).
(** 135-150 (x1 = 7, x2 = -7) *)
Definition test_ortho_Pn (gl : nat -> list (R * R)) (u v : nat -> R) : result unit :=
  loop (fun irun =>
    let aa := u irun * (-7 - 7) - 7 in let bb := aa + v irun + 1 / 10 in
    _ <- py_assert (Rltb aa bb) ;;
    loop (fun ij => npassert (/ 10 ^ 7) (/ 10 ^ 8) (fixed_quad gl (fun x => normPn (fst ij) x aa bb * normPn (snd ij) x aa bb) aa bb (50 * 4)) (identity (fst ij) (snd ij)))
      (list_prod (seq 0 5) (seq 0 5))) (seq 0 4).
(** 152-176 *)
Definition test_ortho_Pn_gauss_quad (gl : nat -> list (R * R)) (u v : nat -> R) : result unit :=
  loop (fun irun =>
    let aa := u irun * 3 in let bb := aa + v irun + 1 / 10 in
    _ <- py_assert (Rltb aa bb) ;;
    loop (fun ij =>
      let I := 1 / 2 * (bb - aa) * qsum (gl 150%nat) (fun z => let x := 1 / 2 * (bb - aa) * z + (aa + bb) * (1 / 2) in normPn (fst ij) x aa bb * normPn (snd ij) x aa bb) in
      npassert (/ 10 ^ 7) (/ 10 ^ 8) I (identity (fst ij) (snd ij))) (list_prod (seq 0 3) (seq 0 3))) (seq 0 4).
(** 178-188: the five cell edges give range(4, 4); the body is given by its effect, whatever it is (it names an unbound i and a function Tn that does not exist) *)
Definition test_return_sol (body : nat -> result unit) : result unit := let M := 3%nat in let size := 5%nat in loop body (seq (size - 1) (M + 1 - (size - 1))).
(** 190-206: xs is the list of Lobatto points *)
Definition test_finite_diff (xs : list R) : result unit :=
  let x := fun i => nth i xs 0 in
  let sol := fun i => sin (x i) * (1 - x i ^ 2) in
  loop (fun ix => npassert (/ 10 ^ 6) (/ 10 ^ 6) (finite_diff_uneven x ix sol (ix =? 0)%nat (ix =? length xs - 1)%nat) ((1 - x ix ^ 2) * cos (x ix) - 2 * x ix * sin (x ix)))
    (seq 0 (length xs)).
(** 209-235: the widths of the nineteen cells are drawn; h = math.sqrt(width), and 1/h divides by zero when the width is zero *)
Definition test_Tn_edgevalues (w : nat -> R) : result unit :=
  let cells := fun i => sumn i w in
  loop (fun ix =>
    let a := cells ix in let b := cells (ix + 1)%nat in
    let h := sqrt (b - a) in
    if Reqb h 0 then Err ZeroDivision else
    let edgeval := 1 / h / sqrt PI in
    loop (fun j =>
      let B_right := if (j =? 0)%nat then edgeval else sqrt 2 * edgeval in
      let B_left := if (j =? 0)%nat then edgeval else if (j mod 2 =? 0)%nat then B_right else - B_right in
      Ta <- normTn j a a b ;; _ <- npassert (/ 10 ^ 7) 0 B_left Ta ;;
      Tb <- normTn j b a b ;; npassert (/ 10 ^ 7) 0 B_right Tb) (seq 0 7)) (seq 0 19).
(** 239-244: chebgauss is numpy's rule *)
Definition test_quadrature_chebyshev (chebgauss : nat -> list (R * R)) : result unit :=
  _ <- loop (fun p => npassert (/ 10 ^ 7) 0 (fst p) (snd p)) (combine (map fst (chebgauss 50%nat)) (map fst (quadrature_chebyshev 50))) ;;
  loop (fun p => npassert (/ 10 ^ 7) 0 (fst p) (snd p)) (combine (map snd (chebgauss 50%nat)) (map snd (quadrature_chebyshev 50))).
