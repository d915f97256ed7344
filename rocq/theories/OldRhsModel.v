(** Model of the first right-hand side, solver_classes/rhs_class.py: call (160-307) with the make_P and make_LU it calls
    (phi_class.py 70-86, numerical_flux.py 203-240).  Nothing imports the file any more; rhs_class_1.py took its place.
    Paths under /repo/moving_mesh_transport/solver_classes.

    Simplifications.  The states of the helper objects at the time of the call enter as parameters: edges and velocities
    of the mesh, the source vector, the emission vector, the vectors of the opacity and of the scattering with an opacity
    that is not constant, the tables and the inverse for spheres.  The fields h, hp, hm kept by the flux object are the
    parameter [st].  Printing, the time step counter and derivative_saver (143-159, OptionModel.v) are left out; they do not
    change the result.  An array divided by zero is not a number in every entry. *)
From Coq Require Import String.
From Verif Require Import Py FuncModel DGModel GmatModel MatModel OptionModel.
Local Open Scope R_scope.

(** the settings, rhs_class.py 97-124.  self.epsilon is declared (91) and read (254) but never assigned: a field of a
    compiled class that was not assigned is zero, so [eps] is 0 in the code *)
Record old_cfg := {
  oflux : flux_cfg;                               (* geometry, M, N_space, uncollided and the flux settings *)
  old_ang : nat; old_ws : nat -> R; old_mus : nat -> R;
  old_c : R; old_ca : R; old_l : R; old_dim : bool; eps : R;
  couple : list (string * Z); sfun : list (string * Z) }.
(** what the helper objects hold during the call *)
Record old_env := {
  env_edges : nat -> R; env_D : nat -> R; env_S : nat -> nat -> nat -> R (* angle, space *); env_H : nat -> nat -> R;
  env_VV : nat -> nat -> nat -> R; env_PV : nat -> nat -> R; env_tabs : tables; env_inv : (nat -> nat -> R) -> nat -> nat -> R;
  env_st : nat -> nat -> flux_state }.
(** which of the two calls that cannot work are repaired: the rows handed to make_P, the arguments of make_LU *)
Record repair := { fix_P : bool; fix_LU : bool }.

(** d[k] *)
Definition key (d : list (string * Z)) (k : string) : result Z :=
  match ConfigModel.assoc k d with Some z => Ok z | None => Err KeyError end.
(** phi_class.py 73: np.multiply(u[:,i], ws) with [rows] rows and N_ang weights: one row or one weight is spread *)
Definition multiply_P (rows N_ang : nat) (ws : nat -> R) (u : nat -> nat -> R) (i : nat) : result R :=
  if (rows =? N_ang)%nat then Ok (make_P N_ang ws u i)
  else if (N_ang =? 1)%nat then Ok (sumn rows (fun l => u l i * ws 0%nat))
  else if (rows =? 1)%nat then Ok (sumn N_ang (fun l => u 0%nat i * ws l))
  else Err ValueError.
(** rhs_class.py 182-189: flux.make_P is called for every cell; P is bound for a constant opacity or c == 0.0.  V_old has a
    row more than directions when the run is coupled *)
Definition old_P (f : repair) (c : old_cfg) (coupled : bool) (V : nat -> nat -> nat -> R) (space : nat) : result (result (nat -> R)) :=
  let rows := if coupled then (old_ang c + 1)%nat else old_ang c in
  constant <- key (sfun c) "constant" ;;
  let rows := if fix_P f then old_ang c else rows in
  if (constant =? 1)%Z then
    _ <- multiply_P rows (old_ang c) (old_ws c) (fun l j => V l space j) 0 ;;
    Ok (Ok (fun i => match multiply_P rows (old_ang c) (old_ws c) (fun l j => V l space j) i with Ok v => v | Err _ => 0 end))
  else if Reqb (old_c c) 0 then Ok (Ok (fun _ => 0)) else Ok (Err UnboundLocal).
(** num_flux.make_LU(t, mesh, u, space, mul): numerical_flux.py 203 has a sixth parameter u_refl *)
Definition old_LU (f : repair) (c : old_cfg) (v : old_env) (t : R) (u : nat -> nat -> R) (row space : nat) (mul : R) : result (nat -> R) :=
  if fix_LU f then Ok (snd (make_LU (oflux c) (env_st v row space) t (env_edges v) (env_D v) u space mul (fun _ => 0)))
  else Err TypeError.
(** arr / z *)
Definition over (x : nat -> R) (z : R) : result (nat -> R) := if Reqb z 0 then Err NaN else Ok (fun i => x i / z).

(** 177-181: the matrices G and L of the cell (matrices.py 97-116; MPRIME of make_all_matrices can fail too) *)
Definition old_GL (c : old_cfg) (v : old_env) (space : nat) : result ((nat -> nat -> R) * (nat -> nat -> R)) :=
  let xL := env_edges v space in let xR := env_edges v (space + 1)%nat in
  let dxL := env_D v space in let dxR := env_D v (space + 1)%nat in
  match fgeom (oflux c) with
  | Slab => Ok (G_slab xL xR dxL dxR, L_slab xL xR)
  | Sphere =>
      let n := (fM (oflux c) + 1)%nat in
      G <- make_G_sphere n xL xR dxL dxR ;; _ <- make_MPRIME n xL xR dxL dxR ;; Ok (G, make_L_sphere (env_tabs v) xL xR)
  end.

(** 200-215: the energy of a cell *)
Definition old_energy (f : repair) (c : old_cfg) (v : old_env) (t : R) (G : nat -> nat -> R) (V : nat -> nat -> nat -> R) (P : result (nat -> R)) (space : nat) : result (nat -> R) :=
  let n := (fM (oflux c) + 1)%nat in
  let U := V (old_ang c) space in
  RU <- old_LU f c v t (V (old_ang c)) (old_ang c) space 0 ;;
  P <- P ;;
  RHS <- (if old_dim c then Ok (fun i => dotv n G U i - RU i + old_ca c * (2 * P i - env_H v space i))
          else q <- over (fun i => old_ca c * (2 * P i - env_H v space i)) (old_l c) ;; Ok (fun i => dotv n G U i - RU i + q i)) ;;
  if uncollided_on (oflux c) then q <- over (fun i => old_ca c * env_S v 0%nat space i) (old_l c) ;; Ok (fun i => RHS i + q i) else Ok RHS.
(** 238-286: one direction of a cell, not coupled *)
Definition old_single (c : old_cfg) (v : old_env) (G L : nat -> nat -> R) (V : nat -> nat -> nat -> R) (P : result (nat -> R)) (LU : nat -> R) (space angle : nat) : result (nat -> R) :=
  let n := (fM (oflux c) + 1)%nat in
  let mul := old_mus c angle in let U := V angle space in let S := env_S v angle space in
  constant <- key (sfun c) "constant" ;;
  if (constant =? 1)%Z then
    P <- P ;;
    if negb (uncollided_on (oflux c)) then
      if negb (old_dim c) then
        match fgeom (oflux c) with
        | Slab => Ok (fun i => dotv n G U i - LU i + mul * dotv n L U i - U i + old_c c * P i + 1 / 2 * S i)
        | Sphere =>
            let M := make_mass_sphere (env_tabs v) (env_edges v space) (env_edges v (space + 1)%nat) in
            let RHS := fun i => dotv n G U i - LU i + mul * dotv n L U i - dotv n M (env_VV v angle space) i + old_c c * dotv n M P i + 1 / 2 * S i / 4 / PI in
            Ok (dotv n (env_inv v M) RHS)
        end
      else
        a <- over LU (eps c) ;; b <- over (fun i => mul * dotv n L U i) (eps c) ;; d <- over U (eps c ^ 2) ;; s <- over (fun i => old_c c * P i) (eps c ^ 2) ;;
        Ok (fun i => dotv n G U i - a i + b i - d i + s i + 1 / 2 * S i)
    else Ok (fun i => dotv n G U i - LU i + mul * dotv n L U i - U i + old_c c * (P i + 1 / 2 * S i))
  else
    siewert <- key (sfun c) "siewert" ;;
    if (siewert =? 1)%Z then Ok (fun i => dotv n G U i - LU i + mul * dotv n L U i - U i + env_PV v space i)
    else Ok (fun i => dotv n G U i - LU i + mul * dotv n L U i - env_VV v angle space i + env_PV v space i + 1 / 2 * old_c c * S i).
(** 288-305: one direction of a cell, coupled; 299.98 is the speed of light in centimetres per shake *)
Definition light : R := 29998 / 100.
Definition old_coupled (c : old_cfg) (v : old_env) (G L : nat -> nat -> R) (V : nat -> nat -> nat -> R) (P : result (nat -> R)) (LU : nat -> R) (space angle : nat) : result (nat -> R) :=
  let n := (fM (oflux c) + 1)%nat in
  let mul := old_mus c angle in let U := V angle space in let S := env_S v angle space in let H := env_H v space in let l := old_l c in
  P <- P ;;
  if negb (old_ang c =? 2)%nat && negb (uncollided_on (oflux c)) && old_dim c then
    Ok (fun i => dotv n G U i - LU i + light * mul * dotv n L U i - light * U i + light * old_c c * P i + light * S i * (1 / 2) + light * old_ca c * (1 / 2) * H i)
  else if Reqb l 0 then Err NaN
  else if (old_ang c =? 2)%nat then
    if uncollided_on (oflux c) then Ok (fun i => dotv n G U i - LU i + mul * dotv n L U i - U i / l + old_c c * (P i / l + 1 / 2 * S i / l) + old_ca c * (1 / 2) * H i / l)
    else Ok (fun i => dotv n G U i - LU i + mul * dotv n L U i - U i / l + old_c c * P i / l + 1 / 2 * S i / l + old_ca c * (1 / 2) * H i / l)
  else
    if uncollided_on (oflux c) then Ok (fun i => dotv n G U i - LU i + mul * dotv n L U i - U i / l + old_c c * (P i + S i * (1 / 2)) / l + old_ca c * (1 / 2) * H i / l)
    else Ok (fun i => dotv n G U i - LU i + mul * dotv n L U i - U i / l + old_c c * P i / l + S i * (1 / 2) / l + old_ca c * (1 / 2) * H i / l).
(** 173-305: one cell; the rows of the directions and, when coupled, of the energy.  The energy comes first *)
Definition old_cell (f : repair) (c : old_cfg) (v : old_env) (t : R) (V : nat -> nat -> nat -> R) (space : nat) : result (list (nat -> R) * list (nat -> R)) :=
  none <- key (couple c) "none" ;;
  let coupled := (none =? 0)%Z in
  GL <- old_GL c v space ;;
  P <- old_P f c coupled V space ;;
  e <- (if coupled then r <- old_energy f c v t (fst GL) V P space ;; Ok (r :: nil) else Ok nil) ;;
  rows <- map_result (fun angle =>
    LU <- old_LU f c v t (V angle) angle space (old_mus c angle) ;;
    if (none =? 1)%Z then old_single c v (fst GL) (snd GL) V P LU space angle
    else if coupled then old_coupled c v (fst GL) (snd GL) V P LU space angle
    else Ok (V angle space)) (seq 0 (old_ang c)) ;;
  Ok (rows, e).
(** 160-307: every cell; 163-166 binds V_new only if thermal_couple['none'] is 1 or 0 *)
Definition old_call (f : repair) (c : old_cfg) (v : old_env) (t : R) (V : nat -> nat -> nat -> R) : result (list (list (nat -> R) * list (nat -> R))) :=
  none <- key (couple c) "none" ;;
  if (none =? 1)%Z || (none =? 0)%Z then map_result (old_cell f c v t V) (seq 0 (fN (oflux c))) else Err UnboundLocal.
