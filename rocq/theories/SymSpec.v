(** Mirror images, changes of units and superpositions of slab problems. *)
From Coq Require Import Permutation.
From Coquelicot Require Import Coquelicot.
From Verif Require Import Py PyLemmas Calc Legendre DGModel DGSpec StabSpec.

(** the mirror image at 0 of edges (or velocities) of a mesh with N cells *)
Definition flip_mesh (N : nat) (e : nat -> R) : nat -> R := fun k => - e (N - k)%nat.
(** of data given per cell and moment: the moment j is the coefficient of a function with the parity of j *)
Definition flip_cells (N : nat) (u : nat -> nat -> R) : nat -> nat -> R := fun s j => (-1) ^ j * u (N - 1 - s)%nat j.
(** of the whole solution: directions are listed from left to right, their mirror images the other way round *)
Definition flip_sol (A N : nat) (V : nat -> nat -> nat -> R) : nat -> nat -> nat -> R := fun a => flip_cells N (V (A - 1 - a)%nat).
Definition flip_ws (A : nat) (ws : nat -> R) : nat -> R := fun a => ws (A - 1 - a)%nat.
Definition flip_mus (A : nat) (mus : nat -> R) : nat -> R := fun a => - mus (A - 1 - a)%nat.
(** the settings c' are those of the mirror image of the problem with settings c *)
Definition mirrors (c c' : flux_cfg) : Prop :=
  fgeom c' = fgeom c /\ fM c' = fM c /\ fN c' = fN c /\ src4 c' = src4 c /\ boundary_source c' = boundary_source c /\
  uncollided_on c' = uncollided_on c /\ ft0 c' = ft0 c /\ strength c' = strength c /\
  bon_left c' = bon_right c /\ bon_right c' = bon_left c /\
  Permutation (fquad c') (map (fun xw => (- fst xw, snd xw)) (fquad c)).

(** [scaled l u] : coefficients of the same function when lengths are measured in units of l *)
Definition scaled (l : R) (u : nat -> R) : nat -> R := fun j => u j / sqrt l.
(** the settings when times are measured in units of l *)
Definition in_units (l : R) (c : flux_cfg) : flux_cfg :=
  {| fgeom := fgeom c; fM := fM c; fN := fN c; src4 := src4 c; boundary_source := boundary_source c; uncollided_on := uncollided_on c; ft0 := ft0 c / l;
     bon_left := bon_left c; bon_right := bon_right c; strength := strength c; fquad := fquad c |}.
(** V a s i, ee s i: time courses of the coefficients of the radiation and of the material energy; H s i, S0 s i those of
    the emission and of the source *)
Definition solves_thermal (c : flux_cfg) (E D : nat -> R -> R) (N_ang : nat) (ws mus : nat -> R) (cc c_a l : R)
    (H S0 : nat -> nat -> R -> R) (st : R -> nat -> nat -> flux_state) (ste : R -> nat -> flux_state)
    (V : nat -> nat -> nat -> R -> R) (ee : nat -> nat -> R -> R) (t0 t1 : R) : Prop :=
  forall t, t0 <= t <= t1 -> forall s i, (s < fN c)%nat -> (i <= fM c)%nat ->
   (forall a, (a < N_ang)%nat ->
    is_derive (V a s i) t (slab_rhs_thermal c (st t a s) N_ang ws mus cc c_a l t (fun k => E k t) (fun k => D k t)
      (fun j => H s j t) (fun j => S0 s j t) (fun l k j => V l k j t) a s i)) /\
   is_derive (ee s i) t (slab_energy c (ste t s) N_ang ws c_a l t (fun k => E k t) (fun k => D k t)
      (fun j => H s j t) (fun j => S0 s j t) (fun l k j => V l k j t) (fun k j => ee k j t) s i).
(** the settings c with another strength of the boundary source *)
Definition with_strength (c : flux_cfg) (q : R) : flux_cfg :=
  {| fgeom := fgeom c; fM := fM c; fN := fN c; src4 := src4 c; boundary_source := boundary_source c; uncollided_on := uncollided_on c; ft0 := ft0 c;
     bon_left := bon_left c; bon_right := bon_right c; strength := q; fquad := fquad c |}.
