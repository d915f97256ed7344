(** Model of the active right-hand side rhs_class_1.py and of the angular differences of functions.py.
    Paths under /repo/moving_mesh_transport/solver_classes.

    Simplifications.  The states of the helper objects at the time of the call (mesh edges and velocities, the
    spherical coefficient tables absent from the repository, numpy's inverse, the source
    vector and the opacity vector) enter as parameters; the numerical flux and the scalar flux are the models
    of DGModel.  Arrays are functions of their indices. *)
From Verif Require Import Py DGModel GmatModel MatModel.

(** functions.py 575-603 (x = mus, psi = one moment over the angles) *)
Definition finite_diff_uneven (x : nat -> R) (ix : nat) (psi : nat -> R) (left right : bool) : R :=
  if negb left && negb right then
    let psip := (1/2) * (psi (ix + 1)%nat + psi ix) in
    let psim := (1/2) * (psi ix + psi (ix - 1)%nat) in
    let mup := (x (ix + 1)%nat - x ix) * (1/2) + x ix in
    let mum := (x ix - x (ix - 1)%nat) * (1/2) + x (ix - 1)%nat in
    let deltamu := mup - mum in
    ((1 - mup ^ 2) * psip - (1 - mum ^ 2) * psim) / deltamu
  else if left then
    let psip := (1/2) * (psi (ix + 1)%nat + psi ix) in
    let mup := (x (ix + 1)%nat - x ix) * (1/2) + x ix in
    let mum := -1 in
    let deltamu := mup - mum in
    ((1 - mup ^ 2) * psip) / deltamu
  else
    let mup := 1 in
    let mum := (x ix - x (ix - 1)%nat) * (1/2) + x (ix - 1)%nat in
    let psim := (1/2) * (psi ix + psi (ix - 1)%nat) in
    let deltamu := mup - mum in
    (- (1 - mum ^ 2) * psim) / deltamu.

(** functions.py 549-572 *)
Definition finite_diff_uneven_2 (x : nat -> R) (ix : nat) (u : nat -> R) (left right : bool) : R :=
  if negb left && negb right then
    let h := (x (ix + 1)%nat - x ix) / (x ix - x (ix - 1)%nat) in
    (u (ix + 1)%nat - h ^ 2 * u (ix - 1)%nat - (1 - h ^ 2) * u ix) / (x (ix + 1)%nat - x ix) / (1 + h)
  else if left then
    let h := x (ix + 1)%nat - x ix in (u (ix + 1)%nat - u ix) / h
  else
    let h := x ix - x (ix - 1)%nat in (u ix - u (ix - 1)%nat) / h.

(** functions.py 524-545, one moment; V angle *)
Definition angular_deriv (N_ang angle : nat) (mus : nat -> R) (V : nat -> R) : R :=
  if negb (angle =? 0)%nat && negb (angle =? N_ang - 1)%nat then
    let h := (mus (angle + 1)%nat - mus angle) / (mus angle - mus (angle - 1)%nat) in
    let right := (1 - mus (angle + 1)%nat ^ 2) * V (angle + 1)%nat in
    let middle := (1 - mus angle ^ 2) * V angle in
    let left := (1 - mus (angle - 1)%nat ^ 2) * V (angle - 1)%nat in
    (right - h ^ 2 * middle - (1 - h ^ 2) * left) / (mus (angle + 1)%nat - mus angle) / (1 + h)
  else if (angle =? 0)%nat then
    let h := mus (angle + 1)%nat - mus angle in
    ((1 - mus (angle + 1)%nat ^ 2) * V (angle + 1)%nat - (1 - mus angle ^ 2) * V angle) / h
  else
    let h := mus angle - mus (angle - 1)%nat in
    ((1 - mus angle ^ 2) * V angle - (1 - mus (angle - 1)%nat ^ 2) * V (angle - 1)%nat) / h.

(** rhs_class_1.py 105-136, and the helper objects' data at the call. *)
Record rhs_cfg := {
  rflux : flux_cfg;                (* geometry, M, N_space and the numerical flux settings *)
  N_ang : nat; mus : nat -> R; wsa : nat -> R;
  sigma_s : R; sigma_t : R;        (* self.c = sigma_s, line 119 *)
  r_edges : R -> nat -> R; r_Dedges : R -> nat -> R;       (* mesh.edges, mesh.Dedges after mesh.move(t) *)
  tabs : tables;
  inv : (nat -> nat -> R) -> nat -> nat -> R;              (* np.linalg.inv *)
  Src : R -> R -> R -> nat -> R                            (* source.S after make_source(t, xL, xR, _) *)
}.

(** rhs_class_1.py 226-230: the checks at the first cell; 1e-10 is 1/10^10. *)
Definition refl_ok (c : rhs_cfg) (angle : nat) : bool :=
  if Rgeb (INR angle) (INR (N_ang c) / 2) then
    Rgtb (mus c angle) 0 && Rleb (Rabs (mus c (N_ang c - angle - 1)%nat - - mus c angle)) (/ 10 ^ 10)
  else true.
(** rhs_class_1.py 225-229 *)
Definition refl_index (c : rhs_cfg) (space angle : nat) : nat :=
  if (space =? 0)%nat then
    if Rgeb (INR angle) (INR (N_ang c) / 2) then (N_ang c - angle - 1)%nat else 0%nat
  else 0%nat.

(** rhs_class_1.py 303-338 *)
Definition sphere_cell (c : rhs_cfg) (st : flux_state) (t : R) (G MPR : nat -> nat -> R)
    (V : nat -> nat -> nat -> R) (space angle i : nat) : R :=
  let n := (fM (rflux c) + 1)%nat in
  let edges := r_edges c t in
  let Dedges := r_Dedges c t in
  let xL := edges space in
  let xR := edges (space + 1)%nat in
  let PV := fun i => if Reqb (sigma_s c) 0 then 0 else make_P (N_ang c) (wsa c) (fun l j => V l space j) i in
  let S := Src c t xL xR in
  let mul := mus c angle in
  let LU := snd (make_LU (rflux c) st t edges Dedges (V angle) space mul (V (refl_index c space angle) 0%nat)) in
  let VV := fun i => V angle space i * sigma_t c in      (* line 239-240, never used below *)
  let U := V angle space in
  let Minv := inv c (make_mass_sphere (tabs c) xL xR) in
  let dterm := fun j => finite_diff_uneven (mus c) angle (fun l => V l space j) (angle =? 0)%nat (angle =? N_ang c - 1)%nat in
  let RHS := fun k =>
    - LU k + mul * dotv n (make_L_sphere (tabs c) xL xR) U k - dotv n (make_J_sphere (tabs c) xL xR) dterm k
    + dotv n G U k + (1/2) * S k * sigma_s c - dotv n MPR U k in
  dotv n Minv RHS i + PV i * sigma_s c - U i.

(** rhs_class_1.py 175-366.  V is the flat vector; reshape is row major. *)
Definition reshape3 (N_space n : nat) (V : nat -> R) (a s i : nat) : R := V ((a * N_space + s) * n + i)%nat.
Definition flatten3 (N_space n : nat) (W : nat -> nat -> nat -> R) (k : nat) : R :=
  W (k / n / N_space)%nat ((k / n) mod N_space)%nat (k mod n)%nat.
(** one cell, all angles: matrices.make_all_matrices (189), then the angle loop (219-364); G and MPRIME of the
    cell can fail, and the checks of lines 226-230 run at cell 0 only *)
Definition rhs_space (c : rhs_cfg) (st : nat -> flux_state) (t : R) (V_old : nat -> nat -> nat -> R) (space : nat)
    : result (nat -> nat -> R) :=
  let n := (fM (rflux c) + 1)%nat in
  let xL := r_edges c t space in
  let xR := r_edges c t (space + 1)%nat in
  let dxL := r_Dedges c t space in
  let dxR := r_Dedges c t (space + 1)%nat in
  match fgeom (rflux c) with
  | Slab =>
      if (space =? 0)%nat && negb (forallb (refl_ok c) (seq 0 (N_ang c))) then Err AssertionError
      else Ok (fun a i => V_old a space i)                            (* V_new is only assigned at line 364 *)
  | Sphere =>
      G <- make_G_sphere n xL xR dxL dxR ;;
      MPR <- make_MPRIME n xL xR dxL dxR ;;
      if (space =? 0)%nat && negb (forallb (refl_ok c) (seq 0 (N_ang c))) then Err AssertionError
      else Ok (fun a i => sphere_cell c (st a) t G MPR V_old space a i)
  end.
(** the loop over cells, line 185: fails if some cell fails *)
Fixpoint rhs_spaces (c : rhs_cfg) (st : nat -> nat -> flux_state) (t : R) (V_old : nat -> nat -> nat -> R) (k : nat)
    : result (nat -> nat -> nat -> R) :=
  match k with
  | O => Ok V_old
  | S k' =>
      W <- rhs_spaces c st t V_old k' ;;
      new <- rhs_space c (fun a => st a k') t V_old k' ;;
      Ok (fun a s i => if (s =? k')%nat then new a i else W a s i)
  end.
Definition rhs_call (c : rhs_cfg) (st : nat -> nat -> flux_state) (t : R) (V : nat -> R) : result (nat -> R) :=
  let n := (fM (rflux c) + 1)%nat in
  let Ns := fN (rflux c) in
  V_new <- rhs_spaces c st t (reshape3 Ns n V) Ns ;;
  Ok (flatten3 Ns n V_new).

(** rhs_class_1.py 139-154: fields told, counter, delta_tavg; the second component is the printed average. *)
Record tstate := { told : R; counter : nat; delta_tavg : R }.
Definition time_step_counter (t : R) (s : tstate) : tstate * option R :=
  let delta_t := Rabs (told s - t) in
  let avg := delta_tavg s + delta_t / 1000 in
  if (counter s =? 1000)%nat then ({| told := t; counter := 0; delta_tavg := 0 |}, Some avg)
  else ({| told := t; counter := counter s + 1; delta_tavg := avg |}, None).
(** lines 116, 127, 128 *)
Definition tinit : tstate := {| told := 0; counter := 0; delta_tavg := 0 |}.
(** the sequence of calls at times ts 0, ts 1, ...: state before call k, and what call k prints *)
Fixpoint tafter (ts : nat -> R) (k : nat) : tstate :=
  match k with O => tinit | S k' => fst (time_step_counter (ts k') (tafter ts k')) end.
Definition treport (ts : nat -> R) (k : nat) : option R := snd (time_step_counter (ts k) (tafter ts k)).
