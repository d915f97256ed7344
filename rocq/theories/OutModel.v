(** Model of the reported solution: make_phi.py (class make_output) and the post-processing of
    main_functions.py solve (214-275).  Paths under /repo/moving_mesh_transport.

    Simplifications.  The coefficient array of shape (N_ang [+1], N_space, M+1) is a function of its indices,
    the edges are a list.  np.searchsorted is the linear scan below (the same index on a sorted array).  The
    object uncollided_sol enters as the function [unc x t], applied to each point of an array. *)
From Coq Require Import String.
From Verif Require Import Py Legendre Cheb DGModel FuncModel.
Open Scope list_scope.
Open Scope R_scope.

(** solver_classes/make_phi.py 35-44 *)
Record out_cfg := {
  ot : R; oN_ang : nat; ows : nat -> R; oxs : list R; ou : nat -> nat -> nat -> R; outM : nat;
  oedges : list R; ouncollided : bool; ogeom : geom; unc : R -> R -> result R }.

(** make_phi.py 46-50, one entry *)
Definition obasis (c : out_cfg) (i : nat) (x a b : R) : result R :=
  match ogeom c with Slab => Ok (normPn i x a b) | Sphere => normTn i x a b end.

(** np.searchsorted(edges, x), side 'left' *)
Fixpoint searchsorted (edges : list R) (x : R) : nat :=
  match edges with [] => 0 | e :: r => if Rltb e x then S (searchsorted r x) else 0 end.

(** sum_{i<n} of results *)
Fixpoint sum_result (n : nat) (f : nat -> result R) : result R :=
  match n with O => Ok 0 | S k => s <- sum_result k f ;; v <- f k ;; Ok (s + v) end.

(** make_phi.py 58-62, repeated in 78-82 and 98-102 *)
Definition cell_index (edges : list R) (x : R) : nat :=
  let idx := searchsorted edges x in
  let idx := if (idx =? 0)%nat then 1%nat else idx in
  if (length edges <=? idx)%nat then (length edges - 1)%nat else idx.
(** make_phi.py 63-65 (and 103-105): psi[ang, count] at the point x *)
Definition psi_at (c : out_cfg) (ang : nat) (x : R) : result R :=
  let idx := cell_index (oedges c) x in
  e0 <- getitem (oedges c) 0 ;;
  el <- getneg (oedges c) 1 ;;
  if Rleb e0 x && Rleb x el then
    sum_result (outM c + 1) (fun i =>
      a <- getitem (oedges c) (idx - 1) ;;
      b <- getitem (oedges c) idx ;;
      B <- obasis c i x a b ;; Ok (ou c ang (idx - 1)%nat i * B))
  else Ok 0.
(** make_phi.py 66, 108: sum over the angles *)
Definition phi_at (c : out_cfg) (x : R) : result R :=
  sum_result (oN_ang c) (fun ang => p <- psi_at c ang x ;; Ok (p * ows c ang)).
(** make_phi.py 53-72: phi_out *)
Definition make_phi (c : out_cfg) : result (list R) :=
  output <- map_result (phi_at c) (oxs c) ;;
  if ouncollided c then uncol <- map_result (fun x => unc c x (ot c)) (oxs c) ;; vadd output uncol
  else Ok output.
(** make_phi.py 70: psi_out, one row per angle *)
Definition psi_out (c : out_cfg) : result (list (list R)) :=
  map_result (fun ang => map_result (psi_at c ang) (oxs c)) (seq 0 (oN_ang c)).

(** in-place addition [output += uncol] of arrays of lengths m and n.  numpy checks that uncol can be broadcast
    to the shape of output (check = true); compiled code that does not check reads the first entries. *)
Definition iadd (check : bool) (output uncol : list R) : result (list R) :=
  if check then
    if (length uncol =? length output)%nat then Ok (map2 Rplus output uncol)
    else match uncol with y :: nil => Ok (map (fun x => x + y) output) | _ => Err ValueError end
  else match uncol with
       | y :: nil => Ok (map (fun x => x + y) output)
       | _ => if (length uncol <? length output)%nat then Err IndexError else Ok (map2 Rplus output uncol)
       end.
(** make_phi.py 91-112: (exit_dist as one pair per angle, output) *)
Definition get_exit_dist (check : bool) (c : out_cfg) : result (list (R * R) * list R) :=
  e0 <- getitem (oedges c) 0 ;;
  el <- getneg (oedges c) 1 ;;
  dist <- map_result (fun ang => l <- psi_at c ang e0 ;; r <- psi_at c ang el ;; Ok (l, r)) (seq 0 (oN_ang c)) ;;
  l <- phi_at c e0 ;;
  r <- phi_at c el ;;
  if ouncollided c then
    uncol <- map_result (fun x => unc c x (ot c)) (oxs c) ;;
    output <- iadd check (l :: r :: nil) uncol ;; Ok (dist, output)
  else Ok (dist, l :: r :: nil).

(** make_phi.py 74-89: the energy (row N_ang of the coefficients) at x *)
Definition e_at (c : out_cfg) (x : R) : result R := psi_at c (oN_ang c) x.

(* ------------------------------------------------------------------ main_functions.py solve *)
(** the inputs of lines 214-275: the integrator's answer (states at the requested times), the mesh motion,
    settings.  thermal_couple is any python value that can be subscripted by 'none' (149, 214). *)
Inductive pyval := PyInt (z : Z) | PyDict (d : list (string * Z)).
(** v[key] *)
Definition py_index (v : pyval) (key : string) : result Z :=
  match v with
  | PyInt _ => Err TypeError
  | PyDict d => match find (fun kv => String.eqb (fst kv) key) d with Some kv => Ok (snd kv) | None => Err KeyError end
  end.
(** v == z: a dict is never equal to an integer *)
Definition py_eq_int (v : pyval) (z : Z) : bool := match v with PyInt y => Z.eqb y z | PyDict _ => false end.
Record post_cfg (mesh : Type) := {
  tfin : R; pN_ang : nat; pws : nat -> R; pM : nat; pgeom : geom; puncollided : bool; punc : R -> R -> result R;
  mesh0 : mesh;                                 (* the mesh after the integration *)
  mesh_move : mesh -> R -> result mesh;         (* mesh.move(t) *)
  mesh_edges : mesh -> list R;                  (* mesh.edges *)
  leg_rule : nat -> list (R * R);               (* leggauss *)
  choose_xs : bool; specified_xs : list R;
  eval_times : bool; eval_array : list R;
  thermal_couple : pyval;
  y_last : nat -> nat -> nat -> R;              (* sol.y[:,-1] reshaped *)
  y_at : nat -> nat -> nat -> nat -> R          (* sol.y[:,it] reshaped *)
}.
Arguments tfin {mesh}. Arguments pN_ang {mesh}. Arguments pws {mesh}. Arguments pM {mesh}. Arguments pgeom {mesh}.
Arguments puncollided {mesh}. Arguments punc {mesh}. Arguments mesh0 {mesh}. Arguments mesh_move {mesh}. Arguments mesh_edges {mesh}.
Arguments leg_rule {mesh}. Arguments choose_xs {mesh}. Arguments specified_xs {mesh}. Arguments eval_times {mesh}.
Arguments eval_array {mesh}. Arguments thermal_couple {mesh}. Arguments y_last {mesh}. Arguments y_at {mesh}.
(** the returned xs_ret, phi, psi, exit_dist, exit_phi, e (one row per reported time) and edges (275) *)
Record report := { r_xs : list (list R); r_phi : list (list R); r_psi : list (list (list R)); r_dist : list (list (R * R));
  r_exit : list (list R); r_e : list (list R); r_edges : list R }.
(** line 236 has three arguments; line 261 has two, a TypeError *)
Definition points {X} (p : post_cfg X) (nargs : nat) (edges : list R) : result (list R) :=
  if choose_xs p then Ok (specified_xs p)
  else if (nargs =? 3)%nat then Ok (find_nodes (leg_rule p) edges (pM p) (pgeom p)) else Err TypeError.
(** 242 and 264 *)
Definition output_of {X} (p : post_cfg X) (t : R) (xs : list R) (u : nat -> nat -> nat -> R) (edges : list R) : out_cfg :=
  {| ot := t; oN_ang := pN_ang p; ows := pws p; oxs := xs; ou := u; outM := pM p; oedges := edges;
     ouncollided := puncollided p; ogeom := pgeom p; unc := punc p |}.
(** 243-245, 265-267 *)
Definition outputs (check : bool) (c : out_cfg) : result (list R * list (list R) * (list (R * R) * list R)) :=
  phi <- make_phi c ;; psi <- psi_out c ;; ex <- get_exit_dist check c ;; Ok (phi, psi, ex).
(** the loop 257-272: rows computed so far in order, and the mesh at the end *)
Fixpoint eval_loop {X} (check : bool) (p : post_cfg X) (m : X) (it : nat) (times : list R)
    : result (list (list R * (list R * list (list R) * (list (R * R) * list R))) * X) :=
  match times with
  | [] => Ok ([], m)
  | tm :: rest =>
      m <- mesh_move p m tm ;;
      let edges := mesh_edges p m in
      xs <- points p 2 edges ;;
      out <- outputs check (output_of p tm xs (y_at p it) edges) ;;
      r <- eval_loop check p m (S it) rest ;;
      let '(rows, m') := r in Ok ((xs, out) :: rows, m')
  end.
(** 214-275.  thermal_couple == 1 (247, 269) would need make_e; e = phi*0 (250, 272) uses all rows of phi *)
Definition solve_output {X} (check : bool) (p : post_cfg X) : result report :=
  _none <- py_index (thermal_couple p) "none" ;;
  m <- mesh_move p (mesh0 p) (tfin p) ;;
  let edges := mesh_edges p m in
  xs <- points p 3 edges ;;
  if eval_times p then
    r <- eval_loop check p m 0 (eval_array p) ;;
    let '(rows, m') := r in
    match rows with
    | [] => Err UnboundLocal                    (* e is never assigned *)
    | _ =>
        let phis := map (fun r => fst (fst (snd r))) rows in
        es <- (if py_eq_int (thermal_couple p) 1
               then map_result (fun ir => map_result (e_at (output_of p (fst (fst ir)) (fst (snd ir)) (y_at p (snd (fst ir))) (mesh_edges p m'))) (fst (snd ir)))
                      (skipn (length rows - 1) (combine (combine (eval_array p) (seq 0 (length rows))) rows))
               else Ok (map (map (fun v => v * 0)) phis)) ;;
        Ok {| r_xs := map fst rows; r_phi := phis; r_psi := map (fun r => snd (fst (snd r))) rows;
              r_dist := map (fun r => fst (snd (snd r))) rows; r_exit := map (fun r => snd (snd (snd r))) rows;
              r_e := es; r_edges := mesh_edges p m' |}
    end
  else
    let c := output_of p (tfin p) xs (y_last p) edges in
    out <- outputs check c ;;
    let '(phi, psi, ex) := out in
    e <- (if py_eq_int (thermal_couple p) 1 then map_result (e_at c) xs else Ok (map (fun v => v * 0) phi)) ;;
    Ok {| r_xs := xs :: nil; r_phi := phi :: nil; r_psi := psi :: nil; r_dist := fst ex :: nil; r_exit := snd ex :: nil;
          r_e := e :: nil; r_edges := edges |}.
