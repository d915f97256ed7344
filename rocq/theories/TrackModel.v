(** Two methods for following a diffusive wave which nothing calls any more: recalculate_wavespeed
    (solver_classes/mesh.py 343-412) and thick_square_moving_func (solver_classes/mesh_functions.py
    27-86).  Definitions only.

    Simplifications: arithmetic over the reals; printing is dropped, the reads made for it are not;
    reads outside of an array are errors (the classes are compiled by numba, which does not check);
    np.searchsorted is the linear scan of OutModel (the same index on a sorted array). *)
From Verif Require Import Py OutModel.

(** wave_loc_array[0,0,:], [0,1,:], [0,2,:], [0,3,:] *)
Record waves := Waves { w_t : list R; w_left : list R; w_right : list R; w_T : list R }.

(** mesh.py 131-135: the attributes recalculate_wavespeed assigns *)
Record speeds := Speeds {
  index_old : nat; delta_t : R; right_speed : R; T_speed : R; leader_speed : R; packet_speed : R;
  follower_speed : R; span_speed : R }.

(** edges[-int(sidebin-2)], mesh.py 370: for a sidebin below three the index is not negative *)
Definition span_edge (edges : list R) (sidebin : nat) : result R :=
  if (sidebin <? 3)%nat then getitem edges (2 - sidebin) else getneg edges (sidebin - 2).

(** mesh.py 353-370: new speeds for the interval at index [k] *)
Definition new_speeds (W : waves) (N : nat) (x0 pad leader_pad : R) (edges Dconst : list R) (t : R) (k : nat) : result speeds :=
  let sidebin := Nat.div N 4 in
  T <- getitem (w_T W) (k + 1) ;;
  t1 <- getitem (w_t W) (k + 1) ;;
  let d := t1 - t in
  r <- getitem (w_right W) (k + 1) ;;
  e1 <- getneg edges 1 ;;
  if Reqb d 0 then Err ZeroDivision else
  e2 <- getneg edges 2 ;;
  e3 <- getneg edges 3 ;;
  let fol := (T - pad - e3) / d in
  dc <- getneg Dconst 3 ;;
  let last := e3 + dc * fol * d in
  if (sidebin =? 0)%nat then Err ZeroDivision else
  let dx_span := (last - x0) / (INR sidebin / 2) in
  es <- span_edge edges sidebin ;;
  Ok (Speeds k d ((r - e1) / d) ((T - e2) / d) ((T + leader_pad - e1) / d) ((T + pad - e2) / d) fol
        ((last - dx_span - es) / d)).

(** mesh.py 402-412: five of the six speeds are replaced by zero when negative *)
Definition no_back (v : R) : R := if Rltb v 0 then 0 else v.
Definition forward (s : speeds) : speeds :=
  Speeds (index_old s) (delta_t s) (no_back (right_speed s)) (no_back (T_speed s)) (no_back (leader_speed s)) (packet_speed s)
    (no_back (follower_speed s)) (no_back (span_speed s)).

(** mesh.py 349-352 (debugging is set at 81): the reads of the first check *)
Definition check_index (W : waves) (t : R) (k : nat) : result unit :=
  if (k =? 0)%nat then Ok tt else
  a <- getitem (w_t W) (k - 1) ;;
  if Rleb a t then b <- getitem (w_t W) (k + 1) ;; Ok tt else Ok tt.
(** mesh.py 395-399: the reads of the second *)
Definition check_location (W : waves) (edges : list R) (t : R) (k : nat) : result unit :=
  b <- getitem (w_t W) (k + 1) ;;
  if Rltb (Rabs (t - b)) (1 / 100000) then
    T <- getitem (w_T W) (k + 1) ;; e2 <- getneg edges 2 ;; r <- getitem (w_right W) (k + 1) ;; e1 <- getneg edges 1 ;; Ok tt
  else Ok tt.

(** recalculate_wavespeed, mesh.py 343-412 *)
Definition recalc (W : waves) (N : nat) (x0 pad leader_pad : R) (edges Dconst : list R) (t : R) (s : speeds) : result speeds :=
  let k := searchsorted (w_t W) t in
  _ <- check_index W t k ;;
  s' <- (if (k =? index_old s)%nat then Ok s else new_speeds W N x0 pad leader_pad edges Dconst t k) ;;
  _ <- check_location W edges t k ;;
  Ok (forward s').

(** mesh_functions.py 27-86: the attributes read and assigned.  index_old is not assigned. *)
Record follow := Follow {
  f_edges : list R; f_edges0 : list R; f_D : list R; f_Dc : list R; f_told : R }.

(** mesh_functions.py 53-59 and 75-82: the speeds of the four groups of edges *)
Definition spread (N : nat) (speed right left : R) (Dc D : list R) : result (list R) :=
  let half := Nat.div N 2 in
  let q := Nat.div half 2 in
  a <- vdivs (vscale (slice Dc 0 q) right) speed ;;
  let front := vscale a (-1) in
  back <- vdivs (vscale (slice Dc (q + 1) half) left) speed ;;
  D1 <- setslice D 0 q front ;;
  D2 <- setslice D1 (q + 1) half back ;;
  D3 <- setslice D2 (half + 1) (half + q) (map Ropp (rev back)) ;;
  setslice D3 (half + q + 1) (length D3) (map Ropp (rev front)).

(** mesh_functions.py 33-61 (self.tactual == 0.0); index - 1 + 1 is the index found at 34 *)
Definition follow_whole (W : waves) (N : nat) (speed tfinal : R) (t : R) (m : follow) : result follow :=
  let half := Nat.div N 2 in
  let k := searchsorted (w_t W) t in
  let pad := if Reqb t 1 then 1 / 2 else if Reqb t 100 then 2 else 0 in
  let d := tfinal in
  wr <- getitem (w_right W) k ;;
  e0 <- getitem (f_edges m) 0 ;;
  if Reqb d 0 then Err ZeroDivision else
  wl <- getitem (w_left W) k ;;
  eh <- (if (half =? 0)%nat then getneg (f_edges m) 1 else getitem (f_edges m) (half - 1)) ;;
  D <- spread N speed ((- wr - pad - e0) / d) ((- wl - eh) / d) (f_Dc m) (f_D m) ;;
  e <- vadd (f_edges0 m) (vscale D d) ;;
  Ok (Follow e (f_edges0 m) D (f_Dc m) (f_told m)).

(** mesh_functions.py 65-86; 66 holds at every call, for index_old keeps the value 0 it has at first *)
Definition follow_steps (W : waves) (N : nat) (speed : R) (t : R) (m : follow) : result follow :=
  let k := searchsorted (w_t W) t in
  t1 <- getitem (w_t W) (k + 1) ;;
  ta <- getitem (w_t W) k ;;
  let d := t1 - ta in
  r1 <- getitem (w_right W) (k + 1) ;;
  ra <- getitem (w_right W) k ;;
  if Reqb d 0 then Err ZeroDivision else
  l1 <- getitem (w_left W) (k + 1) ;;
  la <- getitem (w_left W) k ;;
  D <- spread N speed (- ((r1 - ra) / d)) (- ((l1 - la) / d)) (f_Dc m) (f_D m) ;;
  e <- vadd (f_edges0 m) (vscale D (t - f_told m)) ;;
  Ok (Follow e e D (f_Dc m) t).
