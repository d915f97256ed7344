(** Helpers that nothing calls: solver_classes/chebyshev_matrix_builder.py (matrix_builder),
    solver_classes/mesh_functions.py (set_func, positivize, boundary_source_init_func_outside,
    mesh_cluster_blast_wave) and loading_and_saving/load_bench_su_olson.py.

    Simplifications: arithmetic over the reals; python's NameError is [UnboundLocal] (its subclass);
    the coefficient arrays handed to matrix_builder, which only commented-out code reads, are reduced
    to the two sizes taken from them; indices given to set_func are not negative. *)
From Verif Require Import Py.

(** chebyshev_matrix_builder.py:23-29: matrices with M+1 rows, zero at first; the methods assign the
    entry [0,0] only. *)
Definition with00 (v : R) (i j : nat) : R := if (i =? 0)%nat && (j =? 0)%nat then v else 0.

(** chebyshev_matrix_builder.py:31-36 (make_mass).  [math]: whether the module has the name math,
    which line 1-2 do not import. *)
Definition b_mass (math : bool) (rL rR : R) : result (nat -> nat -> R) :=
  if negb math then Err UnboundLocal else
  Ok (with00 ((rL ^ 2 + rL * rR + rR ^ 2) / 3 / PI)).
(** chebyshev_matrix_builder.py:59-61 (make_J). *)
Definition b_J (math : bool) (rL rR : R) : result (nat -> nat -> R) :=
  if negb math then Err UnboundLocal else Ok (with00 ((rL + rR) / 2 / PI)).
(** chebyshev_matrix_builder.py:87-93 (make_G). *)
Definition b_G (math : bool) (rL rR rLp rRp : R) : result (nat -> nat -> R) :=
  if negb math then Err UnboundLocal else
  if Reqb (rL - rR) 0 then Err ZeroDivision else
  Ok (with00 (- (rL ^ 2 + rL * rR + rR ^ 2) * (rLp - rRp) / 6 / PI / (rL - rR))).
(** chebyshev_matrix_builder.py:111-112 (make_L). *)
Definition b_L : nat -> nat -> R := with00 0.
(** chebyshev_matrix_builder.py:125-147 (make_VV): VV[0,0] = 0, a row of an array that is zero. *)
Definition b_VV (n i j : nat) : R := 0.

(** mesh_functions.py:18-25 (set_func): edges and Dedges at the listed indices. *)
Fixpoint set_func (xs : list nat) (loc speed : list R) (count : nat) (edges D : list R) : result (list R * list R) :=
  match xs with
  | [] => Ok (edges, D)
  | k :: xs' =>
      l <- getitem loc count ;;
      e <- setitem edges k l ;;
      v <- getitem speed count ;;
      d <- setitem D k v ;;
      set_func xs' loc speed (count + 1) e d
  end.

(** mesh_functions.py:11-14 (positivize). *)
Definition positivize (wavespeeds : list R) : R := 0.

(** mesh_functions.py:122-138 (boundary_source_init_func_outside): edges, edges0, Dedges. *)
Definition outside (v0 : R) (N : nat) (x0 tf : R) : result (list R * list R * list R) :=
  let edges := linspace (- x0) x0 (N + 1) in
  let shock := - tf * v0 in
  let fl := linspace (- x0) shock (Nat.div N 2 + 1) in
  let fr := linspace shock x0 (Nat.div N 2 + 1) in
  diff <- vsub (drop_last fl ++ fr) edges ;;
  d <- vdivs diff tf ;;
  Ok (edges, edges, d).

(** mesh_functions.py:141-144 (mesh_cluster_blast_wave): 142 reads N_space, the parameter is
    called N_spaces. *)
Definition cluster (x0 : R) (N_spaces : nat) (v0 t : R) : result (list R) := Err UnboundLocal.

(** load_bench_su_olson.py:23-40: [table] is su_olson_1.txt, rows of numbers; None is python's None
    (with a printed message). *)
Definition su_olson (table : list (list R)) (tfinal : R) : result (option (list R * list R * list R)) :=
  if Reqb tfinal 1 then
    let col k := (fix go rows := match rows with
       | [] => Ok [] | r :: rows' => x <- getitem r k ;; xs <- go rows' ;; Ok (x :: xs) end) table in
    c0 <- col 0%nat ;; c1 <- col 1%nat ;; c2 <- col 2%nat ;; Ok (Some (c0, c1, c2))
  else Ok None.
