(** Independent statements for the DG kernel: basis functions, expansions, upwind traces, face fluxes.
    Nothing here refers to the model except the settings record. *)
From Verif Require Import Py Legendre Cheb DGModel.

(** reference coordinate of x in [a,b] *)
Definition refz (x a b : R) : R := (2 * x - a - b) / (b - a).
(** The bases of the method: Legendre, orthonormal on [a,b]; Chebyshev, orthonormal with the Chebyshev weight. *)
Definition basis (g : geom) (n : nat) (x a b : R) : R :=
  match g with
  | Slab => sqrt ((2 * INR n + 1) / (b - a)) * leg n (refz x a b)
  | Sphere => sqrt ((if (n =? 0)%nat then 1 else 2) / (PI * (b - a))) * cheb n (refz x a b)
  end.
(** expansion with coefficients u on [a,b] *)
Definition field (g : geom) (M : nat) (u : nat -> R) (a b x : R) : R := sumn (M + 1) (fun j => u j * basis g j x a b).
(** volume weight *)
Definition wt (g : geom) (x : R) : R := match g with Slab => 1 | Sphere => x ^ 2 end.

(** What enters from outside. *)
Definition left_on (c : flux_cfg) (t : R) : Prop :=
  src4 c = true \/ (boundary_source c = true /\ uncollided_on c = false /\ t <= ft0 c /\ bon_left c = true).
Definition right_on (c : flux_cfg) (t : R) : Prop :=
  src4 c = true \/ (boundary_source c = true /\ uncollided_on c = false /\ t <= ft0 c /\ bon_right c = true).
(** boundary data: the manufactured solution, or the source strength *)
Definition bdata (c : flux_cfg) (t x : R) : R :=
  if src4 c then exp (- x * x / 2) / (t + 1) / 2 else strength c.
(** quadrature projection of the boundary data on a ghost cell *)
Definition bcoef (c : flux_cfg) (t a b : R) (j : nat) : R :=
  (b - a) / 2 * rsum (map (fun xw => let x := (b - a) / 2 * fst xw + (a + b) / 2 in
                                     snd xw * bdata c t x * basis Slab j x a b) (fquad c)).

(** [inflow_l c t e refl v]: v is the value entering through the left end. *)
Inductive inflow_l (c : flux_cfg) (t : R) (e : nat -> R) (refl : nat -> R) : R -> Prop :=
| il_on : left_on c t ->
    let d := e 1%nat - e 0%nat in
    inflow_l c t e refl (field (fgeom c) (fM c) (bcoef c t (e 0%nat - d) (e 0%nat)) (e 0%nat - d) (e 0%nat) (e 0%nat))
| il_refl : ~ left_on c t -> fgeom c = Sphere ->
    inflow_l c t e refl (field Sphere (fM c) refl (e 0%nat) (e 1%nat) (e 0%nat))
| il_vac : ~ left_on c t -> fgeom c = Slab -> inflow_l c t e refl 0.
Inductive inflow_r (c : flux_cfg) (t : R) (e : nat -> R) : R -> Prop :=
| ir_on : right_on c t ->
    let d := e (fN c) - e (fN c - 1)%nat in
    inflow_r c t e (field (fgeom c) (fM c) (bcoef c t (e (fN c)) (e (fN c) + d)) (e (fN c)) (e (fN c) + d) (e (fN c)))
| ir_vac : ~ right_on c t -> inflow_r c t e 0.

(** [face c t e D u mul refl f v]: the value carried through face f by direction mul: the expansion of the
    cell the particles come from, relative to the moving face, evaluated at the face. *)
Inductive face (c : flux_cfg) (t : R) (e D : nat -> R) (u : nat -> nat -> R) (mul : R) (refl : nat -> R) : nat -> R -> Prop :=
| face_in_l v : 0 <= mul - D 0%nat -> inflow_l c t e refl v -> face c t e D u mul refl 0%nat v
| face_from_left f : 0 <= mul - D (S f) -> (f < fN c)%nat ->
    face c t e D u mul refl (S f) (field (fgeom c) (fM c) (u f) (e f) (e (S f)) (e (S f)))
| face_from_right f : mul - D f < 0 -> (f < fN c)%nat ->
    face c t e D u mul refl f (field (fgeom c) (fM c) (u f) (e f) (e (S f)) (e f))
| face_in_r v : mul - D (fN c) < 0 -> inflow_r c t e v -> face c t e D u mul refl (fN c) v.

Definition increasing (n : nat) (e : nat -> R) : Prop := forall k, (k < n)%nat -> e k < e (S k).
