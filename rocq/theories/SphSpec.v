(** What the theorems on spherical trajectories talk about. *)
From Coquelicot Require Import Coquelicot.
From Verif Require Import Py PyLemmas Calc DGModel DGSpec MatModel RhsModel RhsProofs SphereBal SphereWeak.

(** the edges handed to the right-hand side are E, ordered, from the centre 0 outwards, and move with the velocities handed over *)
Definition sph_mesh_at (c : rhs_cfg) (E : nat -> R -> R) (t : R) : Prop :=
  (forall k, r_edges c t k = E k t) /\ increasing (fN (rflux c)) (fun k => E k t) /\ E 0%nat t = 0 /\
  forall k, (k <= fN (rflux c))%nat -> is_derive (E k) t (r_Dedges c t k).
(** the tables hold the integrals they are named after and numpy inverts the mass matrices *)
Definition sph_tables_at (c : rhs_cfg) (E : nat -> R -> R) (t : R) : Prop :=
  forall s, (s < fN (rflux c))%nat -> let n := (fM (rflux c) + 1)%nat in let A := make_mass_sphere (tabs c) (E s t) (E (S s) t) in
  mass_exact (tabs c) n (E s t) (E (S s) t) /\ J_exact (tabs c) n (E s t) (E (S s) t) /\ L_exact (tabs c) n (E s t) (E (S s) t) /\ inverts n A (inv c A).
(** at time t every coefficient changes at the rate the code returns (which presupposes that it returns) *)
Definition sph_solves_at (c : rhs_cfg) (st : nat -> nat -> flux_state) (V : nat -> nat -> nat -> R -> R) (t : R) : Prop :=
  forall s, (s < fN (rflux c))%nat -> exists W, rhs_space c (st s) t (fun l k j => V l k j t) s = Ok W /\
  forall a j, (a < N_ang c)%nat -> (j <= fM (rflux c))%nat -> is_derive (V a s j) t (W a j).
(** a run over a time interval *)
Definition sph_run (c : rhs_cfg) (E : nat -> R -> R) (st : R -> nat -> nat -> flux_state) (V : nat -> nat -> nat -> R -> R) (t0 t1 : R) : Prop :=
  forall t, t0 <= t <= t1 -> sph_mesh_at c E t /\ sph_tables_at c E t /\ sph_solves_at c (st t) V t.

(** expansion of direction a in cell s at time w *)
Definition psi_at (c : rhs_cfg) (E : nat -> R -> R) (V : nat -> nat -> nat -> R -> R) (a s : nat) (w x : R) : R :=
  field Sphere (fM (rflux c)) (fun j => V a s j w) (E s w) (E (S s) w) x.
(** its r^2-weighted square norm over the sphere, summed over the directions with the widths of their angular cells *)
Definition sph_energy (c : rhs_cfg) (E : nat -> R -> R) (V : nat -> nat -> nat -> R -> R) (w : R) : R :=
  sumn (N_ang c) (fun a => awidth (N_ang c) (mus c) a *
    sumn (fN (rflux c)) (fun s => RInt (fun x => x ^ 2 * psi_at c E V a s w x ^ 2) (E s w) (E (S s) w))).
(** value just outside face S s: of the next cell, 0 outside the sphere *)
Definition outside (c : rhs_cfg) (E : nat -> R -> R) (V : nat -> nat -> nat -> R -> R) (a s : nat) (w : R) : R :=
  if (S s =? fN (rflux c))%nat then 0 else psi_at c E V a (S s) w (E (S s) w).
