(** What the energy theorems talk about: L2 norms of the expansions on the mesh, the values on the two sides of a
    face, and trajectories of the slab equations. *)
From Coquelicot Require Import Coquelicot.
From Verif Require Import Py PyLemmas Calc Legendre DGModel DGSpec.

(** values on the left and right of face f, 0 outside the mesh *)
Definition side_l (c : flux_cfg) (e : nat -> R) (u : nat -> nat -> R) (f : nat) : R :=
  match f with 0%nat => 0 | S k => field Slab (fM c) (u k) (e k) (e (S k)) (e (S k)) end.
Definition side_r (c : flux_cfg) (e : nat -> R) (u : nat -> nat -> R) (f : nat) : R :=
  if (f <? fN c)%nat then field Slab (fM c) (u f) (e f) (e (S f)) (e f) else 0.
(** the square of the L2 norm of the expansion with coefficients u on the mesh e *)
Definition normsq (c : flux_cfg) (e : nat -> R) (u : nat -> nat -> R) : R :=
  sumn (fN c) (fun s => RInt (fun x => field Slab (fM c) (u s) (e s) (e (S s)) x ^ 2) (e s) (e (S s))).
(** the same, averaged over the directions with the quadrature weights *)
Definition energy (c : flux_cfg) (N_ang : nat) (ws : nat -> R) (e : nat -> R) (V : nat -> nat -> nat -> R) : R :=
  sumn N_ang (fun a => ws a * normsq c e (V a)).
(** the edges move differentiably and stay ordered *)
Definition mesh_ok (c : flux_cfg) (E : nat -> R -> R) (D : nat -> R -> R) (t0 t1 : R) : Prop :=
  forall t, t0 <= t <= t1 -> increasing (fN c) (fun k => E k t) /\ forall k, (k <= fN c)%nat -> is_derive (E k) t (D k t).
(** V a s i is the time course of the coefficient i of cell s in direction a; S0 s i that of the source *)
Definition solves (c : flux_cfg) (E : nat -> R -> R) (D : nat -> R -> R) (N_ang : nat) (ws mus : nat -> R) (cc : R)
    (S0 : nat -> nat -> R -> R) (st : R -> nat -> nat -> flux_state) (V : nat -> nat -> nat -> R -> R) (t0 t1 : R) : Prop :=
  forall t, t0 <= t <= t1 -> forall a s i, (a < N_ang)%nat -> (s < fN c)%nat -> (i <= fM c)%nat ->
    is_derive (V a s i) t (slab_rhs c (st t a s) N_ang ws mus cc t (fun k => E k t) (fun k => D k t) (fun j => S0 s j t) (fun l k j => V l k j t) a s i).
