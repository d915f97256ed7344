(** What the error estimates for radiation coupled to a material talk about: exact solutions of the two equations that
    are smooth inside the moving cells.  Nothing here refers to the model except the settings record. *)
From Coquelicot Require Import Coquelicot.
From Verif Require Import Py PyLemmas Calc Legendre DGModel DGSpec StabSpec ErrSpec.

(** the material energy listed behind the directions, as in the array of the code *)
Definition with_mat {T : Type} (A : nat) (f : nat -> T) (m : T) (a : nat) : T := if (a =? A)%nat then m else f a.
(** psi a s is the exact solution in direction a on cell s, mat s the exact material energy there, Q s the source.  With
    the uncollided treatment the source is the uncollided flux: it is scattered, and absorbed by the material.  Where a
    face does not move with the particles (for the material: where it moves) the two sides agree. *)
Record exact_coupled (c : flux_cfg) (E D : nat -> R -> R) (N_ang : nat) (ws mus : nat -> R) (cc c_a l : R)
    (Q : nat -> R -> R -> R) (psi : nat -> nat -> R -> R -> R) (mat : nat -> R -> R -> R) (t0 t1 : R) : Prop := {
  xc_rad : forall a s, (a < N_ang)%nat -> (s < fN c)%nat -> exists fx ft, c1 (psi a s) fx ft /\
     forall t x, t0 <= t <= t1 -> E s t <= x <= E (S s) t ->
       ft x t + mus a * fx x t + psi a s x t / l =
       cc / l * sumn N_ang (fun b => ws b * psi b s x t) + c_a / (2 * l) * mat s x t + (if uncollided_on c then cc else 1) / (2 * l) * Q s x t;
  xc_mat : forall s, (s < fN c)%nat -> exists fx ft, c1 (mat s) fx ft /\
     forall t x, t0 <= t <= t1 -> E s t <= x <= E (S s) t ->
       ft x t = c_a / l * (2 * sumn N_ang (fun b => ws b * psi b s x t) - mat s x t + (if uncollided_on c then 1 else 0) * Q s x t);
  xc_src : forall s t x, (s < fN c)%nat -> t0 <= t <= t1 -> continuous (fun y => Q s y t) x;
  xc_match : forall a f t, (a < S N_ang)%nat -> (S f < fN c)%nat -> t0 <= t <= t1 ->
     (with_mat N_ang mus 0 a - D (S f) t) * (with_mat N_ang psi mat a f (E (S f) t) t - with_mat N_ang psi mat a (S f) (E (S f) t) t) = 0 }.
