(** Model of the discontinuous-Galerkin kernel: basis functions (functions.py), slab matrices
    (matrices.py), numerical flux (numerical_flux.py), scalar flux (phi_class.py make_P) and the slab
    update formulas of rhs_class.py.  All paths are under /repo/moving_mesh_transport/solver_classes.

    Simplifications.  Arrays whose shape is fixed by the constructors ((N_space, M+1) states, edges of
    length N_space+1, (M+1)x(M+1) matrices) are functions of their indices; an accumulation loop
    [for j in range(n): v += f(j)] starting from 0 is [sumn n f].  [self.thermal_couple == 1] compares a
    typed dict with an integer, which is False in numba, so the branches it guards are never taken. *)
From Verif Require Import Py Legendre Cheb.

(** geometry dict read as in every [if geometry['slab'] == True: ... elif geometry['sphere'] == True:]. *)
Inductive geom := Slab | Sphere.

(** functions.py 42-49 (normPn) and 62-68 (normPn_scalar), one entry; scipy's eval_legendre is [leg]. *)
Definition normPn (n : nat) (x a b : R) : R :=
  let z := (b + a - 2 * x) / (a - b) in
  let fact := sqrt ((2 * INR n + 1) / (b - a)) in
  leg n z * fact.

(** functions.py 467-496 *)
Definition eval_Tn (n : nat) (x : R) : result R :=
  match n with
  | 0%nat => Ok (1 + x * 0)
  | 1%nat => Ok x
  | 2%nat => Ok (-1 + 2*x^2)
  | 3%nat => Ok (-3*x + 4*x^3)
  | 4%nat => Ok (1 - 8*x^2 + 8*x^4)
  | 5%nat => Ok (5*x - 20*x^3 + 16*x^5)
  | 6%nat => Ok (-1 + 18*x^2 - 48*x^4 + 32*x^6)
  | 7%nat => Ok (-7*x + 56*x^3 - 112*x^5 + 64*x^7)
  | 8%nat => Ok (1 - 32*x^2 + 160*x^4 - 256*x^6 + 128*x^8)
  | 9%nat => Ok (9*x - 120*x^3 + 432*x^5 - 576*x^7 + 256*x^9)
  | 10%nat => Ok (-1 + 50*x^2 - 400*x^4 + 1120*x^6 - 1280*x^8 + 512*x^10)
  | 11%nat => Ok (-11*x + 220*x^3 - 1232*x^5 + 2816*x^7 - 2816*x^9 + 1024*x^11)
  | 12%nat => Ok (1 - 72*x^2 + 840*x^4 - 3584*x^6 + 6912*x^8 - 6144*x^10 + 2048*x^12)
  | _ => Err AssertionError
  end.
(** functions.py 499-503 *)
Definition kronecker (i : nat) : nat := if (i =? 0)%nat then 1 else 0.
(** functions.py 506-515, one entry *)
Definition normTn (n : nat) (xx a b : R) : result R :=
  let norm := (1 / sqrt 2) ^ (kronecker n) * sqrt (1 / (b - a)) * sqrt 2 / sqrt PI in
  let z := 2 / (b - a) * xx - (b + a) / (b - a) in
  T <- eval_Tn n z ;; Ok (norm * T).

(** numerical_flux.py 98-121: (B_left, B_right); the argument h is the square root of the cell width. *)
Definition B_LR_func (g : geom) (i : nat) (h : R) : R * R :=
  match g with
  | Slab =>
      if (i =? 0)%nat then (1 / h, 1 / h)
      else
        let B_right := sqrt (2 * INR i + 1) / h in
        let B_left := if (i mod 2 =? 0)%nat then sqrt (2 * INR i + 1) / h else - sqrt (2 * INR i + 1) / h in
        (B_left, B_right)
  | Sphere =>
      let edgeval := 1 / h / sqrt PI in
      if (i =? 0)%nat then (edgeval, edgeval)
      else
        let B_right := sqrt 2 * edgeval in
        let B_left := if (i mod 2 =? 0)%nat then B_right else - B_right in
        (B_left, B_right)
  end.

(** The settings of the flux object, numerical_flux.py 64-87 (self.speed is 1.0). *)
Record flux_cfg := {
  fgeom : geom; fM : nat; fN : nat;
  src4 : bool;                (* self.source_type[4] == 1 *)
  boundary_source : bool; uncollided_on : bool; ft0 : R;
  bon_left : bool; bon_right : bool;      (* boundary_on[0] == 1, boundary_on[1] == 1 *)
  strength : R;
  fquad : list (R * R)        (* (xs_quad, ws_quad) *)
}.
(** Fields kept between calls: h, hp, hm (numerical_flux.py 143-153). *)
Record flux_state := { sh : R; shp : R; shm : R }.

(** numerical_flux.py 125-134, one entry *)
Definition BC_func (c : flux_cfg) (x t : R) : R :=
  if src4 c then exp (- x * x / 2) / (t + 1) / 2
  else if boundary_source c then 1 * strength c
  else x * 0.
(** numerical_flux.py 93-96 *)
Definition flux_quad (c : flux_cfg) (t a b : R) (j : nat) : R :=
  (b - a) / 2 * rsum (map (fun xw => let arg := (b - a) / 2 * fst xw + (a + b) / 2 in
                                     snd xw * BC_func c arg t * normPn j arg a b) (fquad c)).

(** numerical_flux.py 136-153; note line 148 sets hm, not hp, at the last cell. *)
Definition make_h (c : flux_cfg) (edges : nat -> R) (space : nat) (st : flux_state) : flux_state :=
  let dx := edges (space + 1)%nat - edges space in
  let h := sqrt dx in
  let '(hp, hm) :=
    if negb (space =? fN c - 1)%nat then (sqrt (edges (space + 2)%nat - edges (space + 1)%nat), shm st)
    else (shp st, sqrt dx) in
  let hm := if negb (space =? 0)%nat then sqrt (edges space - edges (space - 1)%nat) else sqrt dx in
  {| sh := h; shp := hp; shm := hm |}.

(** numerical_flux.py 162-177 *)
Definition is_boundary_source_on (c : flux_cfg) (space : nat) (t : R) : bool :=
  if src4 c then true
  else if boundary_source c then
    if negb (uncollided_on c) then
      if Rleb t (ft0 c) then
        if (space =? 0)%nat then bon_left c
        else if (space =? fN c - 1)%nat then bon_right c else false
      else false
    else false
  else false.

(** numerical_flux.py 180-200: (v0, v1, v2, v3); 155-160 gives xL_minus and xR_plus. *)
Definition make_sol (c : flux_cfg) (st : flux_state) (edges : nat -> R) (space : nat)
    (u : nat -> nat -> R) (t : R) (u_refl : nat -> R) : R * R * R * R :=
  let dx := edges (space + 1)%nat - edges space in
  let xL_minus := edges 0%nat - dx in
  let xR_plus := edges (fN c) + dx in
  let BL j h := fst (B_LR_func (fgeom c) j h) in
  let BR j h := snd (B_LR_func (fgeom c) j h) in
  let n := (fM c + 1)%nat in
  let v0 := sumn n (fun j =>
    if negb (space =? 0)%nat then BR j (shm st) * u (space - 1)%nat j
    else if is_boundary_source_on c space t then flux_quad c t xL_minus (edges space) j * BR j (sh st)
    else match fgeom c with Sphere => BL j (sh st) * u_refl j | Slab => 0 end) in
  let v1 := sumn n (fun j => BL j (sh st) * u space j) in
  let v2 := sumn n (fun j => BR j (sh st) * u space j) in
  let v3 := sumn n (fun j =>
    if negb (space =? fN c - 1)%nat then BL j (shp st) * u (space + 1)%nat j
    else if is_boundary_source_on c space t then flux_quad c t (edges (space + 1)%nat) xR_plus j * BL j (sh st)
    else 0) in
  (v0, v1, v2, v3).

(** numerical_flux.py 203-240: new fields and the vector LU. *)
Definition make_LU (c : flux_cfg) (st : flux_state) (t : R) (edges Dedges : nat -> R)
    (u : nat -> nat -> R) (space : nat) (mul : R) (u_refl : nat -> R) : flux_state * (nat -> R) :=
  let xL := edges space in
  let xR := edges (space + 1)%nat in
  let leftspeed := 1 * mul - Dedges space in
  let rightspeed := 1 * mul - Dedges (space + 1)%nat in
  let st' := make_h c edges space st in
  let '(v0, v1, v2, v3) := make_sol c st' edges space u t u_refl in
  let psi_minus := if Rgeb leftspeed 0 then v0 else v1 in
  let psi_plus := if Rgeb rightspeed 0 then v2 else v3 in
  (st', fun i =>
    let '(B_left, B_right) := B_LR_func (fgeom c) i (sh st') in
    match fgeom c with
    | Slab => B_right * rightspeed * psi_plus - B_left * leftspeed * psi_minus
    | Sphere => xR ^ 2 * B_right * rightspeed * psi_plus - xL ^ 2 * B_left * leftspeed * psi_minus
    end).

(** matrices.py 87-92 *)
Definition L_const (i j : nat) : R :=
  if (j <? i)%nat && negb ((i + j) mod 2 =? 0)%nat then 2 * sqrt (2 * INR i + 1) * sqrt (2 * INR j + 1) else 0.
(** matrices.py 121-122 *)
Definition L_slab (xL xR : R) (i j : nat) : R := L_const i j / (xR - xL).
(** matrices.py 124-137; entries i < j are never written and keep the zero of line 63. *)
Definition G_slab (xL xR dxL dxR : R) (i j : nat) : R :=
  let h := xR - xL in
  let ih := 1 / h in
  let b := dxR in
  let a := dxL in
  if (i =? j)%nat then - (1 / 2) * (2 * INR i + 1) * ih * (b - a)
  else if (j <? i)%nat then
    if ((i + j) mod 2 =? 0)%nat then - sqrt (2 * INR j + 1) * sqrt (2 * INR i + 1) * ih * (b - a)
    else - sqrt (2 * INR j + 1) * sqrt (2 * INR i + 1) * ih * (b + a)
  else 0.

(** np.dot(A, U) for (M+1)x(M+1) A *)
Definition dotv (n : nat) (A : nat -> nat -> R) (U : nat -> R) (i : nat) : R := sumn n (fun j => A i j * U j).

(** phi_class.py 71-73: P[i] = sum over angles of u[l,i] ws[l] *)
Definition make_P (N_ang : nat) (ws : nat -> R) (u : nat -> nat -> R) (i : nat) : R :=
  sumn N_ang (fun l => u l i * ws l).

(** The slab update of rhs_class.py 244 (constant opacity, no uncollided treatment, not dimensional);
    V is V_old, indexed angle, space, moment.  rhs_class.py 232 calls make_LU with five arguments, one
    fewer than numerical_flux.py 203 accepts; the missing u_refl is only read in spherical geometry, any
    value gives the same result (see the theorem on it), here 0. *)
Definition slab_rhs (c : flux_cfg) (st : flux_state) (N_ang : nat) (ws mus : nat -> R) (cc : R) (t : R)
    (edges Dedges : nat -> R) (S : nat -> R) (V : nat -> nat -> nat -> R) (angle space i : nat) : R :=
  let n := (fM c + 1)%nat in
  let xL := edges space in
  let xR := edges (space + 1)%nat in
  let G := G_slab xL xR (Dedges space) (Dedges (space + 1)%nat) in
  let L := L_slab xL xR in
  let P := make_P N_ang ws (fun l j => V l space j) in
  let mul := mus angle in
  let LU := snd (make_LU c st t edges Dedges (V angle) space mul (fun _ => 0)) in
  let U := V angle space in
  dotv n G U i - LU i + mul * dotv n L U i - U i + cc * P i + (1 / 2) * S i.
(** rhs_class.py 259 (constant opacity, uncollided treatment) *)
Definition slab_rhs_uncollided (c : flux_cfg) (st : flux_state) (N_ang : nat) (ws mus : nat -> R) (cc : R) (t : R)
    (edges Dedges : nat -> R) (S : nat -> R) (V : nat -> nat -> nat -> R) (angle space i : nat) : R :=
  let n := (fM c + 1)%nat in
  let xL := edges space in
  let xR := edges (space + 1)%nat in
  let G := G_slab xL xR (Dedges space) (Dedges (space + 1)%nat) in
  let L := L_slab xL xR in
  let P := make_P N_ang ws (fun l j => V l space j) in
  let mul := mus angle in
  let LU := snd (make_LU c st t edges Dedges (V angle) space mul (fun _ => 0)) in
  let U := V angle space in
  dotv n G U i - LU i + mul * dotv n L U i - U i + cc * (P i + (1 / 2) * S i).
(** rhs_class.py 203-215 (thermal coupling, dimensionless): energy equation, direction 0.
    e is V_old[N_ang], H the emission vector. *)
Definition slab_energy (c : flux_cfg) (st : flux_state) (N_ang : nat) (ws : nat -> R) (c_a l : R) (t : R)
    (edges Dedges : nat -> R) (H S : nat -> R) (V : nat -> nat -> nat -> R) (e : nat -> nat -> R) (space i : nat) : R :=
  let n := (fM c + 1)%nat in
  let xL := edges space in
  let xR := edges (space + 1)%nat in
  let G := G_slab xL xR (Dedges space) (Dedges (space + 1)%nat) in
  let P := make_P N_ang ws (fun l j => V l space j) in
  let RU := snd (make_LU c st t edges Dedges e space 0 (fun _ => 0)) in
  let RHS := dotv n G (e space) i - RU i + c_a * (2 * P i - H i) / l in
  if uncollided_on c then RHS + c_a * S i / l else RHS.
(** rhs_class.py 295-305 (thermal coupling, dimensionless): the transport equation; the four branches are
    algebraically the two forms below. *)
Definition slab_rhs_thermal (c : flux_cfg) (st : flux_state) (N_ang : nat) (ws mus : nat -> R) (cc c_a l : R) (t : R)
    (edges Dedges : nat -> R) (H S : nat -> R) (V : nat -> nat -> nat -> R) (angle space i : nat) : R :=
  let n := (fM c + 1)%nat in
  let xL := edges space in
  let xR := edges (space + 1)%nat in
  let G := G_slab xL xR (Dedges space) (Dedges (space + 1)%nat) in
  let L := L_slab xL xR in
  let P := make_P N_ang ws (fun l j => V l space j) in
  let mul := mus angle in
  let LU := snd (make_LU c st t edges Dedges (V angle) space mul (fun _ => 0)) in
  let U := V angle space in
  if (N_ang =? 2)%nat then
    if uncollided_on c then
      dotv n G U i - LU i + mul * dotv n L U i - U i / l + cc * (P i / l + (1/2) * S i / l) + c_a * (1/2) * H i / l
    else
      dotv n G U i - LU i + mul * dotv n L U i - U i / l + cc * P i / l + (1/2) * S i / l + c_a * (1/2) * H i / l
  else
    if uncollided_on c then
      dotv n G U i - LU i + mul * dotv n L U i - U i / l + cc * (P i + S i * (1/2)) / l + c_a * (1/2) * H i / l
    else
      dotv n G U i - LU i + mul * dotv n L U i - U i / l + cc * P i / l + S i * (1/2) / l + c_a * (1/2) * H i / l.
