(** Model of the spherical matrices of /repo/moving_mesh_transport/solver_classes/matrices.py.

    The coefficient tables are read from .h5 files that are not in the repository
    (solver_functions/Chebyshev_matrix_reader.py 7-60); they are parameters here.  [n] is M+1. *)
From Verif Require Import Py GmatModel.

(** matrices.py 57-58: the tables used by the active code (G_coeff, VV_coeff are stored but not read) *)
Record tables := {
  Mass_coeff_even : nat -> nat -> nat -> R; Mass_coeff_odd : nat -> nat -> nat -> R; Mass_denom : nat -> nat -> Z;
  J_coeff : nat -> nat -> nat -> R; J_denom : nat -> nat -> Z;
  L_coeff_even : nat -> nat -> nat -> R; L_coeff_odd : nat -> nat -> nat -> R; L_denom : nat -> nat -> Z
}.

(** functions.py 703-719; the final assert(0) is unreachable *)
Definition sqrt_two_mass_func (i j : nat) : R :=
  let rttwo := sqrt 2 in
  if ((i =? 0)%nat && (j =? 0)%nat) || (negb (i =? 0)%nat && negb (j =? 0)%nat) then 1
  else if (i =? 0)%nat && negb (j =? 0)%nat then if (j mod 2 =? 0)%nat then rttwo else 1 / rttwo
  else if (i mod 2 =? 0)%nat then rttwo else 1 / rttwo.
(** functions.py 721-736 *)
Definition rttwo_mistake_undoer (i j : nat) : R :=
  if ((i =? 0)%nat && (j =? 0)%nat) || (negb (i =? 0)%nat && negb (j =? 0)%nat) then 1
  else if (i =? 0)%nat && negb (j =? 0)%nat then if (j mod 2 =? 0)%nat then 2 else 1
  else if (i mod 2 =? 0)%nat then 2 else 1.

(** matrices.py 139-170 *)
Definition make_mass_sphere (T : tables) (rL rR : R) (ii jj : nat) : R :=
  let rL2 := rL ^ 2 in
  let rR2 := rR ^ 2 in
  let rLrR := rL * rR in
  (if ((ii + jj + 2) mod 2 =? 0)%nat || ((ii =? 0)%nat && (jj =? 0)%nat) then
     (Mass_coeff_even T ii jj 0 * rL2 + Mass_coeff_even T ii jj 1 * rLrR + Mass_coeff_even T ii jj 2 * rR2)
       * sqrt_two_mass_func ii jj / PI
   else (Mass_coeff_odd T ii jj 0 * rL2 + Mass_coeff_odd T ii jj 1 * rR2) * sqrt_two_mass_func ii jj / PI)
  * (1 / IZR (Mass_denom T ii jj)).
(** matrices.py 181-206 *)
Definition make_J_sphere (T : tables) (rL rR : R) (ii jj : nat) : R :=
  let J := (J_coeff T ii jj 0 * rL + J_coeff T ii jj 1 * rR) / PI in
  let J := if negb (ii =? 0)%nat && (jj =? 0)%nat then J / sqrt 2 else J in
  let J := if (ii =? 0)%nat && negb (jj =? 0)%nat then J / sqrt 2 else J in
  J * (1 / IZR (J_denom T ii jj)).
(** matrices.py 254-281; row 0 is never written and keeps the zero of line 61 *)
Definition make_L_sphere (T : tables) (rL rR : R) (ii jj : nat) : R :=
  if (ii =? 0)%nat then 0
  else
    let rL2 := rL ^ 2 in
    let rR2 := rR ^ 2 in
    let rLrR := rL * rR in
    let L := if negb ((ii + jj + 2) mod 2 =? 0)%nat then
               (L_coeff_odd T ii jj 0 * rL2 + L_coeff_odd T ii jj 1 * rLrR + L_coeff_odd T ii jj 2 * rR2) / (rL - rR) / PI
             else (L_coeff_even T ii jj 0 * rL + L_coeff_even T ii jj 1 * rR) / PI in
    let L := if (jj =? 0)%nat then L * sqrt 2 else L in
    L * (1 / IZR (L_denom T ii jj)).
(** matrices.py 221-231: every entry i, j <= M; dividing None by pi is a TypeError *)
Definition over_pi (n : nat) (f : nat -> nat -> option R) : result (nat -> nat -> R) :=
  if forallb (fun i => forallb (fun j => match f i j with Some _ => true | None => false end) (seq 0 n)) (seq 0 n)
  then Ok (fun i j => match f i j with Some g => g / PI | None => 0 end)
  else Err TypeError.
Definition make_G_sphere (n : nat) (rL rR rLp rRp : R) : result (nat -> nat -> R) :=
  over_pi n (fun i j => GMatrix i j rL rR rLp rRp).
(** matrices.py 295-299 *)
Definition make_MPRIME (n : nat) (a b ap bp : R) : result (nat -> nat -> R) :=
  over_pi n (fun i j => MPRIME i j a b ap bp).
