(** What the error estimates talk about: exact solutions of the slab transport equation that are smooth inside the
    moving cells, their projections on the cells, and the values at the faces.  Nothing here refers to the model
    except the settings record. *)
From Coquelicot Require Import Coquelicot.
From Verif Require Import Py PyLemmas Calc Legendre DGModel DGSpec StabSpec.

(** f x t has the continuous partial derivatives fx and ft *)
Definition c1 (f fx ft : R -> R -> R) : Prop := forall x t,
  is_derive (fun y => f y t) x (fx x t) /\ is_derive (fun w => f x w) t (ft x t) /\
  continuity_2d_pt fx x t /\ continuity_2d_pt ft x t.
(** the edges have continuous velocities *)
Definition mesh_c1 (c : flux_cfg) (E D : nat -> R -> R) : Prop :=
  forall k, (k <= fN c)%nat -> forall t, is_derive (E k) t (D k t) /\ continuous (D k) t.
(** coefficient i of the projection of f on cell s at time t *)
Definition pcoef (E : nat -> R -> R) (f : R -> R -> R) (s i : nat) (t : R) : R :=
  RInt (fun x => f x t * basis Slab i x (E s t) (E (S s) t)) (E s t) (E (S s) t).
(** psi a s is the exact solution in direction a on cell s, Q s the source there.  The equation holds in every cell.
    Where a face does not move with the particles the two sides agree; where it does they may differ. *)
Record exact (c : flux_cfg) (E D : nat -> R -> R) (N_ang : nat) (ws mus : nat -> R) (cc : R)
    (Q : nat -> R -> R -> R) (psi : nat -> nat -> R -> R -> R) (t0 t1 : R) : Prop := {
  ex_eq : forall a s, (a < N_ang)%nat -> (s < fN c)%nat -> exists fx ft, c1 (psi a s) fx ft /\
     forall t x, t0 <= t <= t1 -> E s t <= x <= E (S s) t ->
       ft x t + mus a * fx x t + psi a s x t = cc * sumn N_ang (fun l => ws l * psi l s x t) + 1 / 2 * Q s x t;
  ex_match : forall a f t, (a < N_ang)%nat -> (S f < fN c)%nat -> t0 <= t <= t1 ->
     (mus a - D (S f) t) * (psi a f (E (S f) t) t - psi a (S f) (E (S f) t) t) = 0 }.
(** the exact value at a face *)
Definition trace (c : flux_cfg) (E : nat -> R -> R) (psi : nat -> nat -> R -> R -> R) (a f : nat) (t : R) : R :=
  if (f <? fN c)%nat then psi a f (E f t) t else psi a (f - 1)%nat (E f t) t.
(** [defects ... t v]: v a f is what the scheme would send through face f, were the coefficients those of the
    projection, minus the exact value *)
Definition defects (c : flux_cfg) (E D : nat -> R -> R) (N_ang : nat) (mus : nat -> R)
    (psi : nat -> nat -> R -> R -> R) (t : R) (d : nat -> nat -> R) : Prop :=
  forall a f, (a < N_ang)%nat -> (f <= fN c)%nat ->
    face c t (fun k => E k t) (fun k => D k t) (fun s j => pcoef E (psi a s) s j t) (mus a) (fun _ => 0) f (d a f + trace c E psi a f t).
(** the squared defects, each times the speed relative to the face *)
Definition defect_sum (c : flux_cfg) (D : nat -> R -> R) (N_ang : nat) (ws mus : nat -> R) (t : R) (d : nat -> nat -> R) : R :=
  sumn N_ang (fun a => ws a * sumn (S (fN c)) (fun f => Rabs (mus a - D f t) * d a f ^ 2)).
(** squared L2 distance between the expansions and the exact solution *)
Definition distance (c : flux_cfg) (E : nat -> R -> R) (N_ang : nat) (ws : nat -> R) (psi : nat -> nat -> R -> R -> R)
    (V : nat -> nat -> nat -> R -> R) (t : R) : R :=
  sumn N_ang (fun a => ws a * sumn (fN c) (fun s =>
    RInt (fun x => (field Slab (fM c) (fun j => V a s j t) (E s t) (E (S s) t) x - psi a s x t) ^ 2) (E s t) (E (S s) t))).
(** what enters from outside is the exact value *)
Definition inflow_exact (c : flux_cfg) (E D : nat -> R -> R) (N_ang : nat) (mus : nat -> R) (psi : nat -> nat -> R -> R -> R) (t0 t1 : R) : Prop :=
  forall a t v, (a < N_ang)%nat -> t0 <= t <= t1 ->
    (0 < mus a - D 0%nat t -> inflow_l c t (fun k => E k t) (fun _ => 0) v -> v = psi a 0%nat (E 0%nat t) t) /\
    (mus a - D (fN c) t < 0 -> inflow_r c t (fun k => E k t) v -> v = psi a (fN c - 1)%nat (E (fN c) t) t).
(** constant in the estimate of the projection at the ends of a cell *)
Definition Cend (M : nat) : R := 1 + sumn (M + 1) (fun j => sqrt (2 * INR j + 1)).
(** polynomials of degree at most M *)
Definition poly_le (M : nat) (f : R -> R) : Prop := exists a : nat -> R, forall x, f x = sumn (M + 1) (fun k => a k * x ^ k).
