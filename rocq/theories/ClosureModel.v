(** Model of the opacity moments (opacity.py), the scattering term (phi_class.py) and the emission closure
    (radiative_transfer.py).  Paths under /repo/moving_mesh_transport/solver_classes.

    Simplifications.  Arrays of constructor-fixed shape are functions of their indices.  [self.edges = edges]
    (opacity.py 111) keeps a reference to the mesh array; every motion of mesh.py binds a new array, so
    the stored value is the one of the last call.  A quadrature rule is a list of (node, weight). *)
From Verif Require Import Py Legendre DGModel FuncModel.

(** the dict sigma_func *)
Record sfuncs := { f_constant : bool; f_gaussian : bool; f_siewert1 : bool; f_siewert2 : bool; f_sedov : bool }.
(** opacity.py 46-71; std is 2, moving is False, sigma_a = sigma_t - sigma_s *)
Record ocfg := {
  o_t : R; o_s : R; oM : nat; oMs : nat; oN : nat; oquad : list (R * R); ofun : sfuncs; o_v : R }.
Definition o_a (c : ocfg) : R := o_t c - o_s c.

(** functions.py 54-60, one entry: the basis polynomial, whatever a and b *)
Definition Pn (n : nat) (x : R) : R := leg n x.

(** opacity.py 73-76 *)
Definition AAA_entry (c : ocfg) (a b : R) (i j k : nat) : R :=
  let fact := sqrt (2 * INR i + 1) * sqrt (2 * INR j + 1) * sqrt (2 * INR k + 1) / 2 in
  fact * (b - a) / 2 * qsum (oquad c) (fun z => let x := (b - a) / 2 * z + (a + b) / 2 in Pn i x * Pn j x * Pn k x).
(** opacity.py 82-92 *)
Definition both_even_or_odd (i j k : nat) : bool :=
  if (i mod 2 =? 0)%nat then ((j + k) mod 2 =? 0)%nat else negb ((j + k) mod 2 =? 0)%nat.
(** opacity.py 94-103; entries not computed keep the zero of line 63 *)
Definition AAA (c : ocfg) (i j k : nat) : R :=
  if (i <=? j + k)%nat && both_even_or_odd i j k then AAA_entry c (-1) 1 i j k else 0.

(** opacity.py 113-114 *)
Definition xi2 (x t x0 c1 v0tilde : R) : R := - x - c1 - v0tilde * t.
(** opacity.py 122-127, one entry *)
Definition heaviside (x : R) : R := if Rltb x 0 then 0 else 1.
(** opacity.py 129-160, one entry; no branch returns None, which cannot be multiplied *)
Definition sigma_function (c : ocfg) (x t : R) : result R :=
  if f_constant (ofun c) then Ok (x * 0 + 1)
  else if f_gaussian (ofun c) then Ok (exp (- x ^ 2 / (2 * 2 ^ 2)))
  else if f_siewert1 (ofun c) then Ok (exp (- x - 5 / 2))
  else if f_siewert2 (ofun c) then Ok (exp (- x / 100000000000))
  else if f_sedov (ofun c) then
    let c1 := 1 in
    let xi2x := xi2 x t 0 c1 (o_v c) in
    let rho2 := 2 / 10 in
    Ok (exp (- xi2x ^ 2 / 2 ^ 2) * heaviside (- xi2x - c1) + rho2 * heaviside (xi2x + c1))
  else Err TypeError.

(** opacity.py 78-80 *)
Definition integrate_moments (c : ocfg) (a b : R) (j : nat) (t : R) : result R :=
  vals <- map_result (fun p => let x := (b - a) / 2 * fst p + (a + b) / 2 in
                               s <- sigma_function c x t ;; Ok (snd p * s * normPn j x a b)) (oquad c) ;;
  Ok ((b - a) / 2 * rsum vals).

(** the fields kept between calls: edges, cs, VV (59-61 set them to zero) *)
Record ostate := { so_edges : nat -> R; so_cs : nat -> nat -> R; so_VV : nat -> R }.
Definition oinit : ostate := {| so_edges := fun _ => 0; so_cs := fun _ _ => 0; so_VV := fun _ => 0 |}.

(** opacity.py 106-111; self.moving is False *)
Definition cell_changed (old new : nat -> R) (i : nat) : bool :=
  negb (Reqb (new i) (old i)) || negb (Reqb (new (i + 1)%nat) (old (i + 1)%nat)).
Fixpoint moments_cells (c : ocfg) (s : ostate) (edges : nat -> R) (t : R) (n : nat) : result (nat -> nat -> R) :=
  match n with
  | O => Ok (so_cs s)
  | S i =>
      cs <- moments_cells c s edges t i ;;
      if cell_changed (so_edges s) edges i then
        row <- map_result (fun j => integrate_moments c (edges i) (edges (i + 1)%nat) j t) (seq 0 (oMs c + 1)) ;;
        Ok (fun k j => if (k =? i)%nat && (j <? oMs c + 1)%nat then nth j row 0 else cs k j)
      else Ok cs
  end.
Definition sigma_moments (c : ocfg) (s : ostate) (edges : nat -> R) (t : R) : result ostate :=
  cs <- moments_cells c s edges t (oN c) ;;
  Ok {| so_edges := edges; so_cs := cs; so_VV := so_VV s |}.

(** opacity.py 162-174 *)
Definition make_vectors (c : ocfg) (s : ostate) (edges : nat -> R) (u : nat -> R) (space : nat) : ostate :=
  let xL := edges space in
  let xR := edges (space + 1)%nat in
  let dx := sqrt (xR - xL) in
  let VV :=
    if f_constant (ofun c) then fun i => u i * o_t c
    else fun i => if (i <? oM c + 1)%nat
      then so_VV s i + sumn (oM c + 1) (fun j => sumn (oMs c + 1) (fun k =>
             (o_a c + o_s c) * so_cs s space k * u j * AAA c i j k / dx))
      else so_VV s i in
  {| so_edges := so_edges s; so_cs := so_cs s; so_VV := VV |}.

(** phi_class.py 70-86: the vector scalar_flux_term; cs and AAA are those of the opacity object *)
Definition scalar_flux_term (c : ocfg) (g : geom) (N_ang : nat) (ws : nat -> R) (s : ostate) (u : nat -> nat -> R)
    (space : nat) (xL xR : R) (i : nat) : R :=
  if f_constant (ofun c) then
    match g with
    | Slab => o_s c * make_P N_ang ws u i
    | Sphere => make_P N_ang ws u i
    end
  else
    sumn N_ang (fun l => sumn (oM c + 1) (fun j => sumn (oMs c + 1) (fun k =>
      o_s c * so_cs s space k * u l j * ws l * AAA c i j k))) / sqrt (xR - xL).

(** build_problem.py 103 *)
Definition normalise_ws (N_ang : nat) (ws : nat -> R) (l : nat) : R := ws l / sumn N_ang ws.

(* ------------------------------------------------------------------ radiative_transfer.py *)
(** np.power(x, 0.25) of a non-negative number *)
Definition power_quarter (x : R) : R := if Reqb x 0 then 0 else Rpower x (1 / 4).
(** radiative_transfer.py 54-70: a, alpha, cv0 (divided by a), the two options of temp_function *)
Definition arad : R := 137225 / 10 ^ 7.
Definition alpha : R := 4 * arad.
Record tcfg := { tM : nat; tquad : list (R * R); cv0_in : R; temp0 : bool; temp1 : bool; couple_none : bool }.
Definition tcv0 (c : tcfg) : R := cv0_in c / arad.
(** radiative_transfer.py 73-78, one entry *)
Definition make_e (c : tcfg) (e_vec : nat -> R) (x a b : R) : R := sumn (tM c + 1) (fun j => normPn j x a b * e_vec j).
(** radiative_transfer.py 109-123, one entry: (T, fudge_factor); reals are never nan *)
Definition su_olson_source (e : R) : R * R :=
  (power_quarter (Rabs (4 * e / alpha)), if Rltb e 0 then -1 else 1).
(** radiative_transfer.py 87-104 applied to one energy density; test_dimensional_rhs is False (line 68) *)
Definition T_of_e (c : tcfg) (e : R) : result R :=
  if temp0 c then let '(T, fudge) := su_olson_source e in Ok (arad * T ^ 4 * fudge)
  else if temp1 c then (if Reqb (tcv0 c) 0 then Err NaN else let T := e / tcv0 c in Ok (T ^ 4))
  else Err AssertionError.
Definition T_func (c : tcfg) (e_vec : nat -> R) (x a b : R) : result R := T_of_e c (make_e c e_vec x a b).
(** radiative_transfer.py 80-85, 126-130: the vector H *)
Definition make_H_entry (c : tcfg) (e_vec : nat -> R) (a b : R) (j : nat) : result R :=
  if negb (couple_none c) then
    vals <- map_result (fun p => let x := (b - a) / 2 * fst p + (a + b) / 2 in
                                 v <- T_func c e_vec x a b ;; Ok (snd p * v * normPn j x a b)) (tquad c) ;;
    Ok ((b - a) / 2 * rsum vals)
  else Ok 0.
