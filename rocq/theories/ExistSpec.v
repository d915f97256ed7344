(** What the existence theorem assumes of the data over a time interval. *)
From Coquelicot Require Import Coquelicot.
From Verif Require Import Py DGModel DGSpec.

(** the boundary sources are not switched on or off between t0 and t1, and the manufactured boundary data (divided by
    t + 1) are defined *)
Definition steady (c : flux_cfg) (t0 t1 : R) : Prop :=
  ((forall t, t0 <= t <= t1 -> left_on c t) \/ (forall t, t0 <= t <= t1 -> ~ left_on c t)) /\
  ((forall t, t0 <= t <= t1 -> right_on c t) \/ (forall t, t0 <= t <= t1 -> ~ right_on c t)) /\
  (src4 c = true -> -1 < t0).
(** the edge velocities and the source coefficients are continuous *)
Definition continuous_on (f : R -> R) (t0 t1 : R) : Prop := forall t, t0 <= t <= t1 -> continuous f t.
