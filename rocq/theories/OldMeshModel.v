(** The first mesh, solver_classes/mesh_old.py (its own class mesh_class, 37-214).  Nothing imports
    the file; the class is self-contained and its methods are modelled whole.

    Simplifications: move_type and source_type are int64 arrays of which only the entries 0, 1, 2, 4
    and 1, 2, 5 are compared with 1, so each is a boolean here; arithmetic over the reals;
    mesh_sharing_square_source (54-63) has no caller (its call at 68 is a comment) and is left out.
    An attribute that was never assigned is [None]; reading it is [Uninit]. *)
From Verif Require Import Py.

(** mesh_old.py:39 (__init__): the arguments. *)
Record old_args := OldArgs {
  oa_N : nat; oa_x0 : R; oa_tf : R; oa_moving : bool; oa_v : R;
  oa_mt0 : bool; oa_mt1 : bool; oa_mt2 : bool; oa_mt4 : bool;
  oa_src1 : bool; oa_src2 : bool; oa_src5 : bool }.

(** mesh_old.py:40-50: the arrays the object holds; Dedges_const is assigned only at 176 and 180. *)
Record old_mesh := OldMesh {
  om_edges : list R; om_edges0 : list R; om_D : list R; om_Dc : option (list R) }.

(** mesh_old.py:65-79 (square_source_init_func), on the zero arrays of 45-47; [dx] is 69's 1e-11. *)
Definition old_square (N : nat) (x0 v dx : R) : result old_mesh :=
  let m := Nat.div N 2 in
  let s := Nat.div m 2 in
  let left := linspace (- x0 - dx) (- x0) (s + 1) in
  let right := linspace x0 (x0 + dx) (s + 1) in
  let middle := linspace (- x0) x0 (m + 1) in
  let edges := drop_last left ++ drop_last middle ++ right in
  last <- getneg edges 1 ;;
  l <- vdivs (vshift (slice edges 0 s) x0) (last - x0) ;;
  D1 <- setslice (zeros (N + 1)) 0 s l ;;
  let D2 := fillslice D1 s (s + m) 0 in
  r <- vdivs (vshift (slice_from edges (m + s + 1)) (- x0)) (last - x0) ;;
  D3 <- setslice D2 (m + s + 1) (N + 1) r ;;
  let D := vscale D3 v in
  Ok (OldMesh edges edges D (Some D)).

(** mesh_old.py:173-176: the edges between -x0 and x0, moving apart in proportion. *)
Definition old_linear (N : nat) (x0 v : R) : result old_mesh :=
  let edges := linspace (- x0) x0 (N + 1) in
  last <- getneg edges 1 ;;
  q <- vdivs edges last ;;
  let D := vscale q v in
  Ok (OldMesh edges (linspace (- x0) x0 (N + 1)) D (Some D)).

(** mesh_old.py:194-201 (N_space = 4); int(half/2 + 1) is 2, int(half + 1) is 3. *)
Definition old_static4 (x0 tf v : R) : list R :=
  let left_edge := - 8 * sqrt tf * v - x0 in
  let right_edge := -1 * left_edge in
  let edges_left := linspace left_edge (- x0) 2 in
  let edges_right := linspace x0 right_edge 2 in
  let middle := linspace (- x0) x0 3 in
  drop_last edges_left ++ middle ++ slice_from edges_right 1.

(** mesh_old.py:203-212 (N_space > 4); half = N_space/2 is a float, so that int(half/2 + 1) is
    the quotient N/4 plus one and int((half-2)/2 + 1) the quotient itself. *)
Definition old_static_more (N : nat) (x0 tf v : R) : list R :=
  let q := Nat.div N 4 in
  let left_edge := - 8 * sqrt tf * v - x0 in
  let right_edge := -1 * left_edge in
  let edges_left := linspace left_edge (- x0) (q + 1) in
  let edges_right := linspace x0 right_edge (q + 1) in
  let middle_1 := linspace (- x0 + 8 * sqrt tf * v) (x0 - 6 * sqrt tf * v) 3 in
  let middle_2 := linspace (- x0) (- x0 + 8 * sqrt tf * v) q in
  let middle_3 := linspace (x0 - 8 * sqrt tf * v) x0 q in
  drop_last edges_left ++ drop_last middle_2 ++ drop_last middle_1 ++ middle_3
  ++ slice_from edges_right 1.

(** mesh_old.py:185-212: the edges of a mesh that does not move. *)
Definition old_static (a : old_args) : list R :=
  let N := oa_N a in let x0 := oa_x0 a in let tf := oa_tf a in let v := oa_v a in
  if negb (oa_mt4 a) then linspace ((- tf - x0) * v) ((tf + x0) * v) (N + 1)
  else if oa_src5 a then linspace (- 4 * sqrt tf * v - x0) (4 * sqrt tf * v + x0) (N + 1)
  else if oa_src2 a || oa_src1 a then
    if (N =? 4)%nat then old_static4 x0 tf v
    else if (4 <? N)%nat then old_static_more N x0 tf v
    else zeros (N + 1)
  else zeros (N + 1).

(** mesh_old.py:39-52, 170-212 (__init__ and initialize_mesh). *)
Definition old_init (a : old_args) : result old_mesh :=
  let z := zeros (oa_N a + 1) in
  if oa_moving a then
    if oa_mt0 a || oa_mt2 a || (oa_N a + 1 =? 3)%nat then old_linear (oa_N a) (oa_x0 a) (oa_v a)
    else if oa_mt1 a then old_square (oa_N a) (oa_x0 a) (oa_v a) (1 / 10 ^ 11)
    else Ok (OldMesh z z z None)
  else Ok (OldMesh (old_static a) z z None).

(** mesh_old.py:135-138: the square root of the time, of 1e-10 before that time. *)
Definition old_sqrt (t : R) : R := if Rgtb t (1 / 10 ^ 10) then sqrt t else sqrt (1 / 10 ^ 10).

(** mesh_old.py:129-141 (move). *)
Definition old_move (a : old_args) (o : old_mesh) (t : R) : result old_mesh :=
  if oa_moving a then
    if negb (oa_mt4 a) then
      e <- vadd (om_edges0 o) (vscale (om_D o) t) ;;
      Ok (OldMesh e (om_edges0 o) (om_D o) (om_Dc o))
    else
      match om_Dc o with
      | None => Err Uninit
      | Some Dc =>
          let s := old_sqrt t in
          D <- vdivs (vscale (vscale Dc 8) (1 / 2)) s ;;
          e <- vadd (om_edges0 o) (vscale (vscale Dc 8) s) ;;
          Ok (OldMesh e (om_edges0 o) D (om_Dc o))
      end
  else Ok o.

(** A sequence of calls of move, as the time stepper makes them. *)
Fixpoint old_moves (a : old_args) (o : old_mesh) (ts : list R) : result old_mesh :=
  match ts with [] => Ok o | t :: ts' => o' <- old_move a o t ;; old_moves a o' ts' end.
