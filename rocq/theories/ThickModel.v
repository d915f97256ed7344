(** Two initial meshes of mesh.py that nothing calls: simple_thick_square_init_func_2 (620-636) and
    thick_square_init_func (677-754).

    Simplifications: arithmetic over the reals, so that int() of the points of np.linspace is the
    floor of the exact point; the edge arrays are the zero arrays of the constructor; wave_loc_array
    is reduced to the row of times [0,0,:]. *)
From Verif Require Import Py OldMeshModel LeftoverModel.

(** mesh.py:620-636 (simple_thick_square_init_func_2): edges and Dedges.  Lines 624-635 are those of
    the first mesh (mesh_old.py:65-77) with 1e-14 instead of 1e-11; 636 multiplies with speed * 0. *)
Definition thick_init_2 (N : nat) (x0 v : R) : result (list R * list R) :=
  if (N =? 2)%nat then Err AssertionError else
  o <- old_square N x0 (v * 0) (1 / 10 ^ 14) ;;
  Ok (om_edges o, om_D o).

(** mesh.py:680: dx = 1e-5 *)
Definition thick_dx : R := 1 / 10 ^ 5.

(** mesh.py:724-737: positions of the left edges and all speeds, for [half] edges on each side. *)
Definition thick_left (half : nat) (x0 v : R) : result (list R * list R) :=
  let h2 := Nat.div half 2 in
  xs1 <- setitem (zeros half) h2 (- x0) ;;
  sp1 <- setitem (zeros half) h2 0 ;;
  xs2 <- setslice xs1 0 h2 (linspace (- x0 - 2 * thick_dx) (- x0 - thick_dx) h2) ;;
  (* np.linspace refuses a negative number of points *)
  if (h2 =? 0)%nat then Err ValueError else
  xs3 <- setslice xs2 (h2 + 1) half (linspace (- x0 + thick_dx) (- x0 + 2 * thick_dx) (h2 - 1)) ;;
  q1 <- vdivs (linspace (INR h2) 1 h2) (INR h2) ;;
  sp2 <- setslice sp1 0 h2 q1 ;;
  q2 <- vdivs (vscale (linspace 1 (INR h2) (h2 - 1)) (-1)) (INR h2) ;;
  sp3 <- setslice sp2 (h2 + 1) half q2 ;;
  Ok (xs3, vscale sp3 v).

(** mesh.py:723: floors of the points of linspace(half+1, N, half) *)
Definition thick_right_index (N half : nat) : list nat :=
  map (fun i => (half + 1 + Nat.div (i * (N - (half + 1))) (half - 1))%nat) (seq 0 half).

(** mesh.py:677-754 (thick_square_init_func): edges, Dedges and delta_t (None when not assigned).
    [method]: whether the class has the method set_func, which mesh.py only imports as a function;
    as the file stands it has not. *)
Definition thick_init (method : bool) (N : nat) (x0 v : R) (times : list R) : result (list R * list R * option R) :=
  let half := Nat.div N 2 in
  e0 <- setitem (zeros (N + 1)) half 0 ;;
  d0 <- setitem (zeros (N + 1)) half 0 ;;
  if (half =? 2)%nat then (* int(N/2 - 1) == 1 *)
    e1 <- setitem e0 1 (- x0) ;;
    e2 <- setitem e1 (1 + half) x0 ;;
    d1 <- setitem d0 1 (-1 * v) ;;
    d2 <- setitem d1 (1 + half) (1 * v) ;;
    Ok (e2, d2, None)
  else
    p <- thick_left half x0 v ;;
    let '(xs, sp) := p in
    if negb method then Err AttributeError else
    l <- set_func (seq 0 half) xs (vscale sp (-1)) 0 e0 d0 ;;
    r <- set_func (thick_right_index N half) (vscale (rev xs) (-1)) (rev sp) 0 (fst l) (snd l) ;;
    t1 <- getitem times 1 ;;
    t0 <- getitem times 0 ;;
    Ok (fst r, snd r, Some (t1 - t0)).
