(** Model of solver_classes/mesh.py (mesh_class).  Definitions only.

    Simplifications: float64 -> R; the print statements and the attributes that nothing reads back
    (debugging, tactual, told, index_old, *_speed, delta_t) are dropped; [thick], [moving],
    [finite_domain], the entries of [move_type] and of [geometry] are booleans. *)
From Verif Require Import Py.

(** Constructor arguments, mesh.py 77-79.  wave_loc_array[0,0,:], [0,2,:], [0,3,:] are the lists
    wave_t, wave_right, wave_T. *)
Record cfg := Cfg {
  N_space : nat;
  x0 : R;
  tfinal : R;
  moving_flag : bool;
  move_type : list bool;
  source_type : list Z;
  edge_v : R;
  thick : bool;
  move_factor : R;
  wave_t : list R;
  wave_right : list R;
  wave_T : list R;
  pad : R;
  leader_pad : R;
  thick_quad : list R;
  thick_quad_edge : list R;
  finite_domain : bool;
  domain_width : R;
  fake_sedov_v : R;
  t0 : R;
  slab : bool;
  sphere : bool }.

(** The attributes that change after construction starts.  [c1s] and [edges0_2] are None until
    move_middle_edges assigns them (the jitclass leaves them as empty arrays). *)
Record state := State {
  edges : list R;
  edges0 : list R;
  Dedges : list R;
  Dedges_const : list R;
  c1s : option (list R);
  edges0_2 : option (list R);
  moving : bool }.

Definition set_edges s v := State v (edges0 s) (Dedges s) (Dedges_const s) (c1s s) (edges0_2 s) (moving s).
Definition set_edges0 s v := State (edges s) v (Dedges s) (Dedges_const s) (c1s s) (edges0_2 s) (moving s).
Definition set_Dedges s v := State (edges s) (edges0 s) v (Dedges_const s) (c1s s) (edges0_2 s) (moving s).
Definition set_Dconst s v := State (edges s) (edges0 s) (Dedges s) v (c1s s) (edges0_2 s) (moving s).
Definition set_acc s c e := State (edges s) (edges0 s) (Dedges s) (Dedges_const s) (Some c) (Some e) (moving s).
Definition set_moving s b := State (edges s) (edges0 s) (Dedges s) (Dedges_const s) (c1s s) (edges0_2 s) b.

(** source_type[k]; construction checks that six entries exist (see [init]). *)
Definition st (c : cfg) (k : nat) : Z := nth k (source_type c) 0%Z.
(** source_type[k] == v *)
Definition st_is (c : cfg) (k : nat) (v : Z) : bool := Z.eqb (st c k) v.
(** np.all(self.source_type == 0), mesh.py 149, 260, 821 *)
Definition all_zero (c : cfg) : bool := forallb (fun z => Z.eqb z 0) (source_type c).

(** mesh.py 104-112: first true entry of move_type[0..3]; a jitclass attribute never assigned reads as 0. *)
Definition move_func (c : cfg) : nat :=
  let mt k := nth k (move_type c) false in
  if mt 0%nat then 0 else if mt 1%nat then 1 else if mt 2%nat then 2 else if mt 3%nat then 3 else 0.

(** mesh.py 94, 149-151: edge speed, replaced by fake_sedov_v for a sourceless problem. *)
Definition speed (c : cfg) : R :=
  if negb (Reqb (fake_sedov_v c) 0) && all_zero c then fake_sedov_v c else edge_v c.

(** a + b*t with numpy shapes, used by mesh.py 175, 193, 233, 262 *)
Definition advance (a b : list R) (t : R) : result (list R) := vadd a (vscale b t).

(** mesh.py 188, 202: the stop test on the current right edge. *)
Definition stopped (c : cfg) (s : state) : result bool :=
  r <- getneg (edges s) 1 ;;
  Ok (Rgeb r (domain_width c / 2) || Rleb (Rabs (r - domain_width c / 2)) (1/100)).

(** move_middle_edges, mesh.py 274-300 *)
Definition move_middle_edges (c : cfg) (s : state) : result state :=
  let middlebin := (N_space c / 2)%nat in
  let sidebin := (middlebin / 2)%nat in
  d <- getitem (Dedges s) sidebin ;;
  if Reqb d 0 then
    e2 <- advance (edges0 s) (Dedges_const s) (t0 c) ;;
    let final_array := linspace (- pad c) (pad c) (N_space c + 1) in
    a1 <- vsub (vscale (Dedges_const s) (t0 c)) (vscale (Dedges_const s) (tfinal c)) ;;
    a2 <- vsub a1 e2 ;;
    a3 <- vadd a2 final_array ;;
    a4 <- vdivs (vscale a3 2) ((t0 c - tfinal c) * (t0 c - tfinal c)) ;;
    Ok (set_acc s a4 e2)
  else Ok s.

(** reading an array attribute that may not have been assigned yet *)
Definition assigned (o : option (list R)) : result (list R) :=
  match o with Some v => Ok v | None => Err Uninit end.

(** _interp1d, mesh_functions.py 92-114, for the single query point the mesh uses.  The while loop
    reads xvals[i] before testing i < N, so a query at or beyond the last point leaves the array. *)
Fixpoint interp_index (fuel : nat) (x : R) (xvals : list R) (i : nat) : result nat :=
  match fuel with
  | O => Err NoTermination
  | S f =>
      xi <- getitem xvals i ;;
      if Rgeb x xi then interp_index f x xvals (S i) else Ok i
  end.
Definition interp1d (x : R) (xvals yvals : list R) : result R :=
  xv0 <- getitem xvals 0 ;;
  if Rltb x xv0 then
    yv0 <- getitem yvals 0 ;;
    if Reqb (xv0 - 0) 0 then Err NaN else Ok ((x - 0) / (xv0 - 0) * (yv0 - 0) + 0)
  else
    i <- interp_index (S (length xvals)) x xvals 0 ;;
    xa <- getitem xvals (i - 1) ;; ya <- getitem yvals (i - 1) ;;
    xb <- getitem xvals i ;; yb <- getitem yvals i ;;
    if Reqb (xb - xa) 0 then Err NaN else Ok ((x - xa) / (xb - xa) * (yb - ya) + ya).

(** thick_wave_loc_and_deriv_finder, mesh.py 304-331 *)
Definition clamp_below (v lo : R) : R := if Rltb v lo then lo else v.
Definition thick_wave_edges (c : cfg) (s : state) (t : R) : result (list R) :=
  w <- interp1d t (wave_t c) (wave_T c) ;;
  if Reqb t 0 || Rltb w (x0 c) then Ok (edges0 s)
  else
    let sidebin := (N_space c / 4)%nat in
    let middlebin := (N_space c / 2)%nat in
    z1 <- getneg (edges0 s) 1 ;; e1 <- setneg (edges s) 1 (clamp_below (w + leader_pad c) z1) ;;
    z2 <- getneg (edges0 s) 2 ;; e2 <- setneg e1 2 (clamp_below (w + pad c) z2) ;;
    z3 <- getneg (edges0 s) 3 ;; e3 <- setneg e2 3 (clamp_below w z3) ;;
    z4 <- getneg (edges0 s) 4 ;; e4 <- setneg e3 4 (clamp_below (w - pad c) z4) ;;
    if (sidebin <? 2)%nat then Err ValueError else
    l <- getneg e4 4 ;;
    e5 <- setslice e4 (sidebin + middlebin) (N_space c - 3) (drop_last (linspace (x0 c) l (sidebin - 2))) ;;
    setslice e5 0 sidebin (map Ropp (rev (slice_from e5 (sidebin + middlebin + 1)))).

(** thick_square_moving_func_2, mesh.py 333-341 *)
Definition thick_square_moving_func_2 (c : cfg) (s : state) (t : R) : result state :=
  let delta_t := 1 / 10000000 in
  e <- thick_wave_edges c s t ;;
  let s1 := set_edges s e in
  e' <- thick_wave_edges c s1 (t + delta_t) ;;
  d <- vsub e' e ;;
  d' <- vdivs d delta_t ;;
  a <- getneg e 3 ;; b <- getneg e 4 ;; (* read by the 'crossed' message, 340 *)
  Ok (set_Dedges s1 d').

(** square_source_static_func_sqrt_t, mesh.py 464-475 *)
Definition sqrt_floor (t : R) : R := if Rgtb t (1 / 10 ^ 10) then sqrt t else sqrt (1 / 10 ^ 10).
Definition sqrt_t_move (c : cfg) (s : state) (t : R) : result state :=
  let r := sqrt_floor t in
  d <- vdivs (vscale (vscale (Dedges_const s) (move_factor c)) (1/2)) r ;;
  e <- vadd (edges0 s) (vscale (vscale (Dedges_const s) (move_factor c)) r) ;;
  Ok (set_edges (set_Dedges s d) e).

(** move, mesh.py 156-262 *)
Definition move (c : cfg) (t : R) (s : state) : result state :=
  if moving s then
    if st_is c 0 1 || st_is c 0 2 then
      e <- advance (edges0 s) (Dedges_const s) t ;; Ok (set_edges s e)
    else if st_is c 1 1 then
      if finite_domain c && Reqb t (tfinal c) then
        Ok (set_edges s (linspace (- domain_width c / 2) (domain_width c / 2) (N_space c + 1)))
      else
        stop <- (if finite_domain c then stopped c s else Ok false) ;;
        if stop then Ok (set_Dedges s (vscale (Dedges_const s) 0))
        else e <- advance (edges0 s) (Dedges_const s) t ;;
             Ok (set_Dedges (set_edges s e) (Dedges_const s))
    else if st_is c 2 1 && finite_domain c then
      stop <- stopped c s ;;
      if stop then Ok (set_Dedges s (vscale (Dedges_const s) 0))
      else match move_func c with
           | 0%nat =>
               if Rgeb t (t0 c) then
                 s1 <- move_middle_edges c s ;;
                 let tnew1 := t - t0 c in
                 c1 <- assigned (c1s s1) ;; e2 <- assigned (edges0_2 s1) ;;
                 a <- vadd (vscale (vscale c1 (1/2)) (tnew1 ^ 2)) (vscale (Dedges_const s1) tnew1) ;;
                 e <- vadd a e2 ;;
                 d <- vadd (vscale c1 tnew1) (Dedges_const s1) ;;
                 Ok (set_Dedges (set_edges s1 e) d)
               else
                 e <- advance (edges0 s) (Dedges s) t ;; Ok (set_edges s e)
           | 1%nat => thick_square_moving_func_2 c s t
           | 2%nat => sqrt_t_move c s t
           | _ => Err AssertionError
           end
    else if all_zero c then
      e <- advance (edges0 s) (Dedges s) t ;; Ok (set_edges s e)
    else Ok s
  else Ok s.

(** thick_gaussian_static_init_func, mesh.py 422-437 *)
Definition thick_gaussian_static_init (c : cfg) (s : state) : result state :=
  r <- match move_func c with
       | 1%nat => w <- getneg (wave_T c) 1 ;; Ok (w + pad c)
       | 0%nat => Ok (x0 c)
       | _ => Err UnboundLocal
       end ;;
  let e := linspace (- r) r (N_space c + 1) in
  Ok (set_Dedges (set_edges s e) (vscale e 0)).

(** The derivative block shared by mesh.py 458-461, 572-575, 612-615; [k] is the final factor. *)
Definition square_derivs (c : cfg) (k : R) (s : state) : result state :=
  let middlebin := (N_space c / 2)%nat in
  let sidebin := (middlebin / 2)%nat in
  let e := edges s in
  last <- getneg e 1 ;;
  l <- vdivs (vshift (slice e 0 sidebin) (x0 c)) (last - x0 c) ;;
  d1 <- setslice (Dedges s) 0 sidebin l ;;
  let d2 := fillslice d1 sidebin (sidebin + middlebin) 0 in
  r <- vdivs (vshift (slice_from e (middlebin + sidebin + 1)) (- x0 c)) (last - x0 c) ;;
  d3 <- setslice d2 (middlebin + sidebin + 1) (length d2) r ;;
  Ok (set_Dedges s (vscale d3 k)).

(** simple_thick_square_init_func, mesh.py 440-461 *)
Definition simple_thick_square_init (c : cfg) (s : state) : result state :=
  w <- getneg (wave_right c) 1 ;;
  let wave_edge := w + pad c in
  if (N_space c =? 2)%nat then Err AssertionError else
  let middlebin := (N_space c / 2)%nat in
  let sidebin := (middlebin / 2)%nat in
  let left := linspace (- wave_edge) (- x0 c) (sidebin + 1) in
  let right := linspace (x0 c) wave_edge (sidebin + 1) in
  let middle := linspace (- x0 c) (x0 c) (middlebin + 1) in
  square_derivs c (speed c * 0) (set_edges s (drop_last left ++ drop_last middle ++ right)).

(** simple_moving_init_func, mesh.py 495-504.  In spherical geometry edges0 is the same array object
    as edges, so the in-place += 0.01 changes both; in slab geometry edges0 is not assigned. *)
Definition simple_moving_init (c : cfg) (s : state) : result state :=
  let s1 := if slab c then set_edges s (linspace (- x0 c) (x0 c) (N_space c + 1))
            else if sphere c then
              let e := linspace 0 (x0 c) (N_space c + 1) in set_edges0 (set_edges s e) e
            else s in
  last <- getneg (edges s1) 1 ;;
  d <- vdivs (edges s1) last ;;
  let s2 := set_Dedges s1 (vscale d (speed c)) in
  let s3 := set_Dconst s2 (Dedges s2) in
  if st_is c 0 2 then
    let e := vshift (edges s3) (1/100) in
    let s4 := set_edges s3 e in
    Ok (if negb (slab c) && sphere c then set_edges0 s4 e else s4)
  else Ok s3.

(** shell_source, mesh.py 506-519.  int(N/2 + 1) = N/2 + 1. *)
Definition shell_source (c : cfg) (s : state) : result state :=
  let dx := 1 / 100000 in
  let N_inside := (N_space c / 2 + 1)%nat in
  let inside := linspace 0 (x0 c) (N_inside + 1) in
  let N_outside := (N_space c + 1 - N_inside)%nat in
  let outside := linspace (x0 c) (x0 c + dx) N_outside in
  let e := inside ++ slice_from outside 1 in
  if negb (length e =? N_space c + 1)%nat then Err AssertionError else
  last <- getneg e 1 ;;
  let tail := slice_from e (N_inside + 1) in
  t' <- vdivs (vshift tail (- x0 c)) (last - x0 c) ;;
  d <- setslice (zeros (N_space c + 1)) (N_inside + 1) (N_space c + 1) (vscale t' (speed c)) ;;
  Ok (set_Dconst (set_Dedges (set_edges0 (set_edges s e) e) d) d).

(** thin_square_init_func, mesh.py 556-576 *)
Definition thin_square_init (c : cfg) (s : state) : result state :=
  if (N_space c =? 2)%nat then Err AssertionError else
  let middlebin := (N_space c / 2)%nat in
  let sidebin := (middlebin / 2)%nat in
  let dx := 1 / 10 ^ 12 in
  let left := linspace (- x0 c - dx) (- x0 c) (sidebin + 1) in
  let right := linspace (x0 c) (x0 c + dx) (sidebin + 1) in
  let middle := linspace (- x0 c) (x0 c) (middlebin + 1) in
  s1 <- square_derivs c (speed c) (set_edges s (drop_last left ++ drop_last middle ++ right)) ;;
  Ok (set_edges0 s1 (edges s1)).

(** thin_square_init_func_legendre, mesh.py 579-617 *)
Definition thin_square_init_legendre (c : cfg) (s : state) : result state :=
  if (N_space c =? 2)%nat then Err AssertionError else
  let dx := 1 / 100 in
  let right := map (fun q => (q * (x0 c - x0 c - dx) - x0 c - dx - x0 c) / (-2)) (thick_quad_edge c) in
  let left := map (fun q => (q * (- x0 c - dx + x0 c) + x0 c + dx + x0 c) / (-2)) (thick_quad_edge c) in
  let middle := map (fun q => x0 c * q) (thick_quad c) in
  s1 <- square_derivs c (speed c) (set_edges s (drop_last left ++ drop_last middle ++ right)) ;;
  Ok (set_edges0 (set_Dconst s1 (Dedges s1)) (edges s1)).

(** thick_square_moving_init_func, mesh.py 638-673 *)
Definition thick_square_moving_init (c : cfg) (s : state) : result state :=
  let middlebin := (N_space c / 2)%nat in
  let sidebin := (middlebin / 2)%nat in
  let dx := 1 / 1000 in
  let left := linspace (- x0 c - dx) (- x0 c) (sidebin + 1) in
  let right := linspace (x0 c) (x0 c + dx) (sidebin + 1) in
  let middle := map (fun q => 1/2 * q) (thick_quad c) in
  let e := drop_last left ++ drop_last middle ++ right in
  d1 <- setitem (Dedges s) 0 (-1) ;;
  d2 <- setitem d1 1 (-1) ;;
  d3 <- setitem d2 2 (-1) ;;
  e3 <- getitem e 3 ;;
  let seg := slice e 3 sidebin in
  q <- vdivs (map Ropp (vshift seg (x0 c))) (e3 + x0 c) ;;
  d4 <- setslice d3 3 sidebin q ;;
  let d5 := fillslice d4 sidebin (sidebin + middlebin) 0 in
  d6 <- setslice d5 (middlebin + sidebin + 1) (length d5) (map Ropp (rev (slice d5 0 sidebin))) ;;
  Ok (set_Dedges (set_edges s e) (vscale d6 (speed c))).

(** boundary_source_init_func, mesh.py 760-773 *)
Definition boundary_source_init (c : cfg) (s : state) : result state :=
  let e := linspace (- x0 c) (x0 c) (N_space c + 1) in
  let v0 := if moving s then fake_sedov_v c else 0 in
  let shock := - tfinal c * v0 in
  let fl := linspace (- x0 c) shock (N_space c / 2 + 1) in
  let fr := linspace shock (x0 c) (N_space c / 2 + 1) in
  diff <- vsub (drop_last fl ++ fr) e ;;
  d <- vdivs diff (tfinal c) ;;
  Ok (set_edges0 (set_Dedges (set_edges s e) d) e).

(** initialize_mesh, the dispatch of mesh.py 804-856 *)
Definition init_dispatch (c : cfg) (s : state) : result state :=
  s1 <- (if st_is c 0 1 || st_is c 0 2 then simple_moving_init c s else Ok s) ;;
  if negb (thick c) then
    if st_is c 3 1 || st_is c 5 1 then simple_moving_init c s1
    else if st_is c 1 1 || st_is c 2 1 then
      if slab c then thin_square_init_legendre c s1 else shell_source c s1
    else if all_zero c then boundary_source_init c s1
    else Ok s1
  else
    if st_is c 3 1 || st_is c 5 1 then
      if moving s1 then simple_moving_init c s1 else thick_gaussian_static_init c s1
    else if st_is c 1 1 || st_is c 2 1 || negb (st_is c 0 0) then
      s2 <- (if (move_func c =? 0)%nat then simple_moving_init c s1 else Ok s1) ;;
      if moving s2 then
        match move_func c with
        | 1%nat => thick_square_moving_init c s2
        | 2%nat => thin_square_init c s2
        | _ => Ok s2
        end
      else
        match move_func c with
        | 1%nat => simple_thick_square_init c s2
        | 2%nat => if negb (st_is c 0 0) then simple_moving_init c s2 else thin_square_init c s2
        | _ => Ok s2
        end
    else Ok s1.

(** __init__, mesh.py 89-92: arrays start as zeros. *)
Definition state0 (c : cfg) : state :=
  let z := zeros (N_space c + 1) in State z z z z None None (moving_flag c).

(** __init__ and initialize_mesh, mesh.py 77-153, 796-878.  Simplification: fewer than six source_type
    entries is an IndexError here (compiled code would read past the array). *)
Definition init (c : cfg) : result state :=
  if (length (source_type c) <? 6)%nat then Err IndexError else
  s1 <- init_dispatch c (state0 c) ;;
  let s2 := set_Dconst s1 (Dedges s1) in
  if moving s2 then Ok s2
  else
    s3 <- move c (tfinal c) (set_moving s2 true) ;;
    Ok (set_moving (set_Dedges s3 (vscale (Dedges s3) 0)) false).

(** Any sequence of calls of move, as the right-hand side and the output routines issue them. *)
Fixpoint moves (c : cfg) (ts : list R) (s : state) : result state :=
  match ts with [] => Ok s | t :: ts' => s' <- move c t s ;; moves c ts' s' end.
