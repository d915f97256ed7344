(** What the error estimates for spheres talk about: exact solutions of the spherical transport equation that are
    smooth inside the moving cells, their r^2-weighted projections on the cells, and what these leave at the faces,
    in the angular differences and in the scattering sum. *)
From Coquelicot Require Import Coquelicot.
From Verif Require Import Py PyLemmas Calc DGModel DGSpec MatModel RhsModel RhsProofs PosDef SphSpec ErrSpec.

(** coefficients of the polynomial of degree at most M next to f on [a,b] in the r^2-weighted square norm: the solution of the normal equations *)
Definition rgram (a b : R) (i j : nat) : R := RInt (fun x => x ^ 2 * basis Sphere i x a b * basis Sphere j x a b) a b.
Definition rmom (f : R -> R) (a b : R) (i : nat) : R := RInt (fun x => x ^ 2 * f x * basis Sphere i x a b) a b.
Definition rproj (M : nat) (f : R -> R) (a b : R) : nat -> R := elim (M + 1) (rgram a b) (rmom f a b).
Definition rproj_at (M : nat) (E : nat -> R -> R) (f : R -> R -> R) (s : nat) (t x : R) : R :=
  field Sphere M (rproj M (fun y => f y t) (E s t) (E (S s) t)) (E s t) (E (S s) t) x.

(** psi a s is the exact solution in direction a on cell s, ang a s its angular term, em s the mean over all
    directions it is scattered from, Q s the source.  The equation (times x^2) holds in every cell, the moments of
    the source handed to the code are those of Q, and where a face does not move with the particles the two sides
    agree. *)
Record sph_exact (c : rhs_cfg) (E : nat -> R -> R) (Q : nat -> R -> R -> R) (psi ang : nat -> nat -> R -> R -> R) (em : nat -> R -> R -> R) (t0 t1 : R) : Prop := {
  sx_eq : forall a s, (a < N_ang c)%nat -> (s < fN (rflux c))%nat -> exists fx ft, c1 (psi a s) fx ft /\
     forall t x, t0 <= t <= t1 -> E s t <= x <= E (S s) t ->
       x ^ 2 * ft x t + mus c a * (x ^ 2 * fx x t + 2 * x * psi a s x t) + x * ang a s x t + x ^ 2 * psi a s x t
       = x ^ 2 * (sigma_s c * em s x t + 1 / 2 * sigma_s c * Q s x t);
  sx_cont : forall a s t x, (a < N_ang c)%nat -> (s < fN (rflux c))%nat -> t0 <= t <= t1 ->
     continuous (fun y => ang a s y t) x /\ continuous (fun y => em s y t) x /\ continuous (fun y => Q s y t) x;
  sx_src : forall s t i, (s < fN (rflux c))%nat -> (i <= fM (rflux c))%nat -> t0 <= t <= t1 ->
     Src c t (E s t) (E (S s) t) i = RInt (fun x => x ^ 2 * Q s x t * basis Sphere i x (E s t) (E (S s) t)) (E s t) (E (S s) t);
  sx_match : forall a s t, (a < N_ang c)%nat -> (S s < fN (rflux c))%nat -> t0 <= t <= t1 ->
     (mus c a - r_Dedges c t (S s)) * (psi a s (E (S s) t) t - psi a (S s) (E (S s) t) t) = 0;
  sx_inflow : forall a t v, (a < N_ang c)%nat -> t0 <= t <= t1 -> mus c a - r_Dedges c t (fN (rflux c)) < 0 ->
     inflow_r (rflux c) t (fun k => E k t) v -> v = psi a (fN (rflux c) - 1)%nat (E (fN (rflux c)) t) t }.

(** the projection minus the exact solution at face S s, on the side the particles come from (what comes from outside is exact) *)
Definition fdefect (c : rhs_cfg) (E : nat -> R -> R) (psi : nat -> nat -> R -> R -> R) (a s : nat) (t : R) : R :=
  if Rle_lt_dec 0 (mus c a - r_Dedges c t (S s)) then rproj_at (fM (rflux c)) E (psi a s) s t (E (S s) t) - psi a s (E (S s) t) t
  else if (S s =? fN (rflux c))%nat then 0
  else rproj_at (fM (rflux c)) E (psi a (S s)) (S s) t (E (S s) t) - psi a (S s) (E (S s) t) t.
(** the angular term minus the angular differences of the projection *)
Definition adefect (c : rhs_cfg) (E : nat -> R -> R) (psi ang : nat -> nat -> R -> R -> R) (a s : nat) (t x : R) : R :=
  ang a s x t - aterm (N_ang c) (mus c) (fun l => rproj_at (fM (rflux c)) E (psi l s) s t x) a.
(** the mean over the directions minus the weighted sum over the code's directions *)
Definition sdefect (c : rhs_cfg) (psi : nat -> nat -> R -> R -> R) (em : nat -> R -> R -> R) (s : nat) (t x : R) : R :=
  em s x t - sumn (N_ang c) (fun l => wsa c l * psi l s x t).
(** all of them, squared, each with the weight it has in the sphere *)
Definition sph_defects (c : rhs_cfg) (E : nat -> R -> R) (psi ang : nat -> nat -> R -> R -> R) (em : nat -> R -> R -> R) (lam t : R) : R :=
  sumn (N_ang c) (fun a => awidth (N_ang c) (mus c) a * sumn (fN (rflux c)) (fun s =>
    E (S s) t ^ 2 * Rabs (mus c a - r_Dedges c t (S s)) * fdefect c E psi a s t ^ 2
    + / lam * RInt (fun x => adefect c E psi ang a s t x ^ 2) (E s t) (E (S s) t)
    + sigma_s c ^ 2 / lam * RInt (fun x => x ^ 2 * sdefect c psi em s t x ^ 2) (E s t) (E (S s) t))).

(** r^2-weighted square distance of the computed expansions from the exact solution, and from its projection *)
Definition sph_dist (c : rhs_cfg) (E : nat -> R -> R) (f : nat -> nat -> R -> R) (V : nat -> nat -> nat -> R -> R) (t : R) : R :=
  sumn (N_ang c) (fun a => awidth (N_ang c) (mus c) a * sumn (fN (rflux c)) (fun s =>
    RInt (fun x => x ^ 2 * (psi_at c E V a s t x - f a s x) ^ 2) (E s t) (E (S s) t))).
(** distance of the directions from the middle of their angular cells *)
Definition offset (c : rhs_cfg) (a : nat) : R := (aedge (N_ang c) (mus c) a + aedge (N_ang c) (mus c) (S a)) / 2 - mus c a.
(** growth by scattering: 1 when the weights are half the widths of the angular cells *)
Definition kappa (c : rhs_cfg) : R := sqrt (2 * sumn (N_ang c) (fun a => wsa c a ^ 2 / awidth (N_ang c) (mus c) a)).
