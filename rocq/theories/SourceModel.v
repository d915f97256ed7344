(** Model of solver_classes/uncollided_solutions.py, sources.py, the source formulas of functions.py,
    mutables.py (initial conditions) and build_problem.py (initial coefficients).

    Simplifications.  Arrays are treated entry by entry.  scipy's exponential integral and math.erf are the
    fields [expi] and [erf].  source_type has at least six entries.  The semi-analytic solution of the
    boundary-driven shock problem (fake_sedov) is the field [sedov]; it is modelled in SedovModel.v. *)
From Verif Require Import Py Legendre Cheb DGModel FuncModel.

(** build_problem.py 87-148: the settings that sources.py, uncollided_solutions.py and mutables.py copy *)
Record scfg := SCfg {
  sgeom : geom;
  stype : list Z;
  uncollided : bool;
  smoving : bool;
  sM : nat;
  sx0 : R;
  st0 : R;
  ssigma : R;
  ssigma_s : R;
  strength_s : R;
  sN_ang : nat;
  squad : list (R * R);          (* xs_quad, ws_quad *)
  tquad : list (R * R);          (* t_quad, t_ws *)
  expi : R -> R;
  erf : R -> R;
  sedov : R -> R -> R }.
Definition sty (c : scfg) (k : nat) : Z := nth k (stype c) 0%Z.
Definition sty_is (c : scfg) (k : nat) (v : Z) : bool := Z.eqb (sty c k) v.
Definition sty_zero (c : scfg) : bool := forallb (fun z => Z.eqb z 0) (stype c).

(* ------------------------------------------------------------------ functions.py *)
(** functions.py 211-222 (f1, f2, f3) *)
Definition f1 (Ei : R -> R) (t tau x0 : R) : R := - x0 * Ei (tau - t).
Definition f2 (Ei : R -> R) (t tau x0 x : R) : R :=
  if Reqb tau t then 1 / 2 else 1 / 2 * ((- x0 + Rabs x) * Ei (tau - t) + exp (tau - t)).
Definition f3 (t tau : R) : R := exp (tau - t).
(** functions.py 223-245 *)
Definition uncollided_square_s2 (Ei : R -> R) (x t x0 t0 : R) : R :=
  let t_ceiling := Rmin t t0 in
  if Rgtb t 0 then
    let tau_1 := 0 in
    let e := Rmin t_ceiling (t - Rabs x + x0) in
    if Rleb e 0 then 0 else
    let tau_2 := Rmin e (t - x0 - Rabs x) in
    let tau_2 := if Rltb tau_2 0 then 0 else tau_2 in
    let tau_3 := Rmin e (t - x0 + Rabs x) in
    let tau_3 := if Rltb tau_3 0 then 0 else tau_3 in
    let tau_4 := e in
    let tau_4 := if Rltb tau_4 0 then 0 else tau_4 in
    let t1 := f1 Ei t tau_2 x0 - f1 Ei t tau_1 x0 in
    let t2 := f2 Ei t tau_3 x0 x - f2 Ei t tau_2 x0 x in
    let t3 := f3 t tau_4 - f3 t tau_3 in
    t1 + t2 + t3
  else 0.

(** functions.py 248-251 *)
Definition s2_F (t tau : R) : R := 1 / 2 * exp (- t + tau).
(** functions.py 254-316; the final branches that return nothing are unreachable and modelled as None *)
Definition uncollided_su_olson_s2 (x t x0 t0 : R) : option R :=
  let sqrt3 := sqrt 3 in
  let abx := Rabs x in
  let edge := Rmin t t0 in
  if Rleb t t0 then
    if Rgtb abx x0 then
      let arg1 := Rmax 0 (edge - sqrt3 * (abx - x0)) in
      let arg2 := Rmax 0 (edge - sqrt3 * (abx + x0)) in
      Some (s2_F t arg1 - s2_F t arg2)
    else if Rleb (edge + sqrt3 * abx) (sqrt3 * x0) then Some (2 * (s2_F t edge - s2_F t 0))
    else if Rgtb (edge + sqrt3 * abx) (sqrt3 * x0) && Rgtb (edge - sqrt3 * (abx + x0)) 0 then
      let arg2 := edge - sqrt3 * (x0 - abx) in
      let arg1 := edge - sqrt3 * (abx + x0) in
      Some (s2_F t arg2 - s2_F t arg1 + 2 * (s2_F t edge - s2_F t arg2))
    else if Rgtb (edge + sqrt3 * abx) (sqrt3 * x0) && Rleb (edge - sqrt3 * (abx + x0)) 0 then
      let arg1 := Rmax 0 (edge - sqrt3 * (x0 - abx)) in
      Some (2 * (s2_F t edge - s2_F t arg1) + s2_F t arg1 - s2_F t 0)
    else None
  else
    let T0 := edge in
    let x := Rabs x in
    if Rleb (x0 - sqrt 3 * (t - T0) / 3) x && Rleb x (x0 + sqrt 3 * (t - T0) / 3) then
      let arg := Rmax (t - (x - x0) * 3 / sqrt 3) 0 in
      let argp := Rmin arg T0 in
      let arg2 := Rmax (t - (x + x0) * 3 / sqrt 3) 0 in
      let arg2p := Rmin arg2 T0 in
      Some (s2_F t argp - s2_F t arg2p)
    else if Rgtb x (x0 + sqrt 3 * (t - T0) / 3) then
      let arg := Rmax (t - (x - x0) * 3 / sqrt 3) 0 in
      let arg2 := Rmax (t - (x + x0) * 3 / sqrt 3) 0 in
      let arg := Rmin arg edge in
      let arg2 := Rmin arg2 edge in
      Some (s2_F t arg - s2_F t arg2)
    else if Rltb x (x0 - sqrt 3 * (t - T0) / 3) then
      let arg := t - (x0 - x) * 3 / sqrt 3 in
      if Rleb arg 0 then Some (2 * (s2_F t T0 - s2_F t 0))
      else if Rgtb arg 0 && Rltb arg T0 then
        Some (2 * (s2_F t T0 - s2_F t arg) + s2_F t arg - s2_F t 0)
      else Some 0
    else None.

(** functions.py 323-328 *)
Definition uncollided_s2_gaussian (erf : R -> R) (x t sigma t0 : R) : R :=
  let tf := Rmin t t0 in
  (exp (- (sqrt 3 * x) + (3 * sigma ^ 2) / 4) * sqrt (3 * PI) * sigma *
    (erf ((- 2 * t + 2 * tf + 2 * sqrt 3 * x - 3 * sigma ^ 2) / (2 * sqrt 3 * sigma))
     + exp (2 * sqrt 3 * x) *
         (erf (t / (sqrt 3 * sigma) + x / sigma + (sqrt 3 * sigma) / 2)
          - erf ((2 * t - 2 * tf + 2 * sqrt 3 * x + 3 * sigma ^ 2) / (2 * sqrt 3 * sigma)))
     + erf ((2 * sqrt 3 * t - 6 * x + 3 * sqrt 3 * sigma ^ 2) / (6 * sigma)))) / 4.

(* ------------------------------------------------------------------ uncollided_solutions.py *)
(** uncollided_solutions.py 87-91 *)
Definition integrate_quad_time (q : list (R * R)) (a b : R) (func : R -> R) : R :=
  (b - a) / 2 * qsum q (fun z => func ((b - a) / 2 * z + (a + b) / 2)).
(** uncollided_solutions.py 103-115 *)
Definition gaussian_source_integrand (c : scfg) (tau t x : R) : R :=
  let abx := Rabs x in
  let tp := t - tau in
  if Reqb tp 0 then 0
  else exp (- tp) * (erf c ((tp - abx) / ssigma c) + erf c ((tp + abx) / ssigma c)) / tp / 4.
(** uncollided_solutions.py 139-148 *)
Definition gaussian_source_uncollided_solution (c : scfg) (x t : R) : R :=
  integrate_quad_time (tquad c) 0 (Rmin t (st0 c)) (fun tau => gaussian_source_integrand c tau t x) * sqrt PI * ssigma c.
(** uncollided_solutions.py 184-209 *)
Definition square_source_uncollided_solution (c : scfg) (x t : R) : R := uncollided_square_s2 (expi c) x t (sx0 c) (st0 c).
(** uncollided_solutions.py 211-225 *)
Definition square_IC_uncollided_solution (c : scfg) (xx t : R) : R :=
  let x0 := sx0 c in
  let temp :=
    if Rleb t x0 && Rgeb xx (- x0 + t) && Rleb xx (x0 - t) then exp (- t)
    else if Rgtb t x0 && Rleb (- t + x0) xx && Rgeb (t - x0) xx then exp (- t) * x0 / (t + / 10 ^ 12)
    else if Rltb xx (t + x0) && Rgtb xx (- t - x0) then
      if Rgeb (x0 - xx) t && Rleb (x0 + xx) t then exp (- t) * (t + xx + x0) / (2 * t + / 10 ^ 12)
      else if Rleb (x0 - xx) t && Rgeb (x0 + xx) t then exp (- t) * (t - xx + x0) / (2 * t + / 10 ^ 12)
      else 0
    else 0 in
  temp * strength_s c.
(** uncollided_solutions.py 227-239 *)
Definition shell_IC_uncollided_solution (c : scfg) (r t : R) : R :=
  let sigma_abs := 1 in
  let n0 := 1 / (4 * PI / 3 * sx0 c ^ 3) / (4 * PI) in
  let tt := t + / 10 ^ 12 in
  let mu_crit := Rmin 1 (Rmax (-1) (1 / 2 * (tt / r + r / tt - sx0 c ^ 2 / (r * tt)))) in
  n0 * 2 * PI * (1 - mu_crit) * exp (- t * sigma_abs).
(** uncollided_solutions.py 242-248 *)
Definition gaussian_IC_uncollided_solution (c : scfg) (xx t : R) : R :=
  ssigma c * exp (- t) * sqrt PI * (erf c ((t - xx) / ssigma c) + erf c ((t + xx) / ssigma c)) / (4 * t + / 10 ^ 12) * strength_s c.
(** uncollided_solutions.py 250-259 *)
Definition plane_IC_uncollided_solution (c : scfg) (x t : R) : R :=
  if Rleb (- t) x && Rleb x t then exp (- t) / (2 * t + / 10 ^ 12) else 0.
(** uncollided_solutions.py 261-264 *)
Definition plane_IC_uncollided_solution_integrated (c : scfg) (t xL xR : R) : R :=
  exp (- t) / (2 * t + sx0 c) * sqrt (xR - xL).
(** uncollided_solutions.py 266-270 *)
Definition su_olson_s2_uncollided_solution (c : scfg) (x t : R) : R :=
  match uncollided_su_olson_s2 x t (sx0 c) (st0 c) with Some v => v | None => 0 end.
(** uncollided_solutions.py 272-277 *)
Definition gaussian_s2_thick_integrand (c : scfg) (tau t x : R) : R :=
  (exp (- t + tau) * (exp (- (sqrt 3 * t + 3 * x - sqrt 3 * tau) ^ 2 / (9 * ssigma c ^ 2))
                      + exp (- (- (sqrt 3 * t) + 3 * x + sqrt 3 * tau) ^ 2 / (9 * ssigma c ^ 2)))) / 2.
(** uncollided_solutions.py 279-286 *)
Definition gaussian_s2 (c : scfg) (x t : R) : R :=
  if Rleb (ssigma c) 5 then uncollided_s2_gaussian (erf c) x t (ssigma c) (st0 c)
  else integrate_quad_time (tquad c) 0 (Rmin t (st0 c)) (fun tau => gaussian_s2_thick_integrand c tau t x).
(** uncollided_solutions.py 294-300 *)
Definition point_source (rho t : R) : R :=
  if Rleb (Rabs (rho - t)) (/ 10 ^ 10) then exp (- t) / 4 / PI / t ^ 2 / rho else 0.
(** uncollided_solutions.py 302-336.  When no branch applies the attribute still holds the zeros(1) of the
    constructor, which broadcasts. *)
Definition uncollided_solution (c : scfg) (x t : R) : R :=
  if uncollided c then
    match sgeom c with
    | Slab =>
        if sty_is c 0 1 then plane_IC_uncollided_solution c x t * strength_s c
        else if sty_is c 1 1 then square_IC_uncollided_solution c x t * strength_s c
        else if sty_is c 2 1 then
          if (sN_ang c =? 2)%nat then su_olson_s2_uncollided_solution c x t * strength_s c
          else square_source_uncollided_solution c x t * strength_s c
        else if sty_is c 3 1 then gaussian_IC_uncollided_solution c x t * strength_s c
        else if sty_is c 5 1 then
          if (sN_ang c =? 2)%nat then gaussian_s2 c x t * strength_s c
          else gaussian_source_uncollided_solution c x t * strength_s c
        else if sty_zero c then sedov c x t * strength_s c
        else 0
    | Sphere =>
        if sty_is c 0 1 then point_source x t * strength_s c
        else if sty_is c 1 1 then shell_IC_uncollided_solution c x t * strength_s c
        else 0
    end
  else 0.

(* ------------------------------------------------------------------ sources.py *)
(** sources.py 79-81 *)
Definition src_quad (c : scfg) (a b : R) (j : nat) (f : R -> R) : R :=
  (b - a) / 2 * qsum (squad c) (fun z => let x := (b - a) / 2 * z + (a + b) / 2 in f x * normPn j x a b).
(** sources.py 84-86 *)
Definition src_quad_sphere (c : scfg) (a b : R) (j : nat) (f : R -> R) : result R :=
  vals <- map_result (fun p => let x := (b - a) / 2 * fst p + (a + b) / 2 in
                               T <- normTn j x a b ;; Ok (x ^ 2 * sqrt (1 - fst p ^ 2) * snd p * f x * 1 * T)) (squad c) ;;
  Ok (1 / 2 * (b - a) * rsum vals).
(** sources.py 94-100 *)
Definition MMS_source (c : scfg) (x t mu : R) : R :=
  (if Rleb (- t - sx0 c) x && Rleb x (t + sx0 c)
   then - (1 / 2) * (1 + (1 + t) * x * mu) / (exp (x ^ 2 / 2) * (1 + t) ^ 2) else 0) * 2.
(** sources.py 102-107 *)
Definition square_source (c : scfg) (x t : R) : R := if Rleb (Rabs x) (sx0 c) && Rltb t (st0 c) then 1 else 0.
(** sources.py 109-115 *)
Definition gaussian_source (c : scfg) (x t : R) : R := if Rleb t (st0 c) then exp (- x * x / ssigma c ^ 2) else 0.

Fixpoint seqM (n : nat) (f : nat -> result R) : result (nat -> R) :=
  match n with
  | O => Ok (fun _ => 0)
  | S k => g <- seqM k f ;; v <- f k ;; Ok (fun j => if (j =? k)%nat then v else g j)
  end.
(** sources.py 118-149.  [S] is the attribute before the call, used where a branch does not assign it. *)
Definition make_source (c : scfg) (t xL xR : R) (S : nat -> R) : result (nat -> R) :=
  S' <- match sgeom c with
        | Slab =>
            if uncollided c then
              let S1 := if sty_is c 0 1 && smoving c
                        then (fun j => if (j =? 0)%nat then plane_IC_uncollided_solution_integrated c t xL xR else S j)
                        else (fun j => if (j <=? sM c)%nat then src_quad c xL xR j (fun x => uncollided_solution c x t) else S j) in
              Ok (fun j => S1 j * ssigma_s c)
            else if sty_is c 2 1 then Ok (fun j => if (j <=? sM c)%nat then src_quad c xL xR j (fun x => square_source c x t) else S j)
            else if sty_is c 5 1 then Ok (fun j => if (j <=? sM c)%nat then src_quad c xL xR j (fun x => gaussian_source c x t) else S j)
            else Ok S
        | Sphere =>
            if uncollided c && sty_is c 1 1 then
              v <- seqM (sM c + 1) (fun j => src_quad_sphere c xL xR j (fun x => uncollided_solution c x t)) ;;
              Ok (fun j => if (j <=? sM c)%nat then v j else S j)
            else Ok S
        end ;;
  Ok (fun j => S' j * strength_s c).
(** sources.py 151-154 *)
Definition make_source_not_isotropic (c : scfg) (t mu xL xR : R) (S : nat -> R) : nat -> R :=
  if sty_is c 4 1 then (fun j => if (j <=? sM c)%nat then src_quad c xL xR j (fun x => MMS_source c x t mu) else S j) else S.

(* ------------------------------------------------------------------ mutables.py *)
(** np.greater(x, a) as a number *)
Definition greater (x a : R) : R := if Rltb a x then 1 else 0.
(** mutables.py 89-92; x0 may have been replaced by make_IC *)
Definition plane_and_square_IC (c : scfg) (x0 x : R) : R := (greater x (- x0) - greater x x0) * strength_s c / 2.
(** mutables.py 83-85 *)
Definition point_pulse (c : scfg) (x0 x : R) : R := (greater x 0 - greater x x0) * strength_s c.
(** mutables.py 94-99 *)
Definition shell_IC (c : scfg) (x0 x : R) : R := (greater x 0 - greater x x0) * strength_s c * 3 / 4 / PI / x0 ^ 3 / 2.
(** mutables.py 106-108 *)
Definition gaussian_IC (c : scfg) (x : R) : R := exp (- x * x / ssigma c ^ 2) * strength_s c / 2.
(** mutables.py 110-112 *)
Definition gaussian_IC_noniso (c : scfg) (x mu : R) : R := 2 * exp (- x * x / ssigma c ^ 2) * strength_s c * greater mu 0 / 2.
(** mutables.py 114-117 *)
Definition MMS_IC (x : R) : R := exp (- x * x / 2) / 2.
(** mutables.py 119-123 *)
Definition dipole (c : scfg) (x1 x : R) : R :=
  let x1 := Rabs x1 in
  (- (greater x (- x1) - greater x 0) * strength_s c + (greater x 0 - greater x x1) * strength_s c) / 2.
(** mutables.py 125-132 *)
Definition self_sim_plane (x : R) : R :=
  let A := 29998 / 1000 / 3 / 800 in
  let t := 1 / 100 in
  1 / sqrt (PI * (1 / 2)) / sqrt (A * t) * exp (- x ^ 2 / 4 / A / t) / 2.
(** mutables.py 47-81.  The spherical branch for other sources returns nothing.  A width of zero (the dipole when make_IC found none)
    gives 0/0 *)
Definition IC_function (c : scfg) (x0 x1 x mu : R) : result R :=
  match sgeom c with
  | Slab =>
      if uncollided c then Ok 0
      else if sty_is c 0 1 then if Reqb x0 0 then Err NaN else Ok (plane_and_square_IC c x0 x / x0 / 2)
      else if sty_is c 1 1 then Ok (plane_and_square_IC c x0 x)
      else if sty_is c 2 1 then Ok 0
      else if sty_is c 3 1 then
        if Z.eqb (last (stype c) 0%Z) 1 then Ok (gaussian_IC_noniso c x mu) else Ok (gaussian_IC c x)
      else if sty_is c 4 1 && sty_is c 3 0 then Ok (MMS_IC x)
      else if sty_is c 0 2 then if Reqb x1 0 then Err NaN else Ok (dipole c x1 x / Rabs x1)
      else if sty_is c 0 3 then Ok (self_sim_plane x)
      else Ok 0
  | Sphere =>
      if uncollided c then Ok 0
      else if sty_is c 0 1 then if Reqb x0 0 then Err NaN else Ok (point_pulse c x0 x / x0 ^ 3)
      else if sty_is c 1 1 then if Reqb x0 0 then Err NaN else Ok (shell_IC c x0 x)
      else Err TypeError
  end.

(* ------------------------------------------------------------------ build_problem.py *)
(** build_problem.py 103 *)
Definition normalise (ws : list R) : list R := map (fun w => w / rsum ws) ws.
(** build_problem.py 154-162: one entry IC[ang,space,j] *)
Definition ic_entry (c : scfg) (x0 x1 a b mu : R) (j : nat) : result R :=
  match sgeom c with
  | Slab =>
      vals <- map_result (fun p => let x := (b - a) / 2 * fst p + (a + b) / 2 in
                                   v <- IC_function c x0 x1 x mu ;; Ok (snd p * v * normPn j x a b)) (squad c) ;;
      Ok (1 / 2 * (b - a) * rsum vals)
  | Sphere =>
      vals <- map_result (fun p => let x := (b - a) / 2 * fst p + (a + b) / 2 in
                                   v <- IC_function c x0 x1 x mu ;; T <- normTn j x a b ;; Ok (snd p * v * 2 * T)) (squad c) ;;
      Ok (1 / 2 * (b - a) * rsum vals)
  end.
(** build_problem.py 165-170: the extra row for the material energy *)
Definition ic_energy (c : scfg) (e_init a b : R) (j : nat) : R :=
  (b - a) / 2 * qsum (squad c) (fun z => let x := (b - a) / 2 * z + (a + b) / 2 in e_init * normPn j x a b).
(** build_problem.py 172-187: the pulse half-width used for the initial condition; [edges] as constructed *)
Definition ic_x0 (c : scfg) (edges : list R) : result R :=
  let N := (length edges - 1)%nat in
  if negb (smoving c) && sty_is c 0 1 && negb (uncollided c) && Nat.even N then
    match sgeom c with
    | Slab => r <- getitem edges (N / 2 + 1) ;; l <- getitem edges (N / 2 - 1) ;; Ok (r - l)
    | Sphere => r <- getitem edges 1 ;; l <- getitem edges 0 ;; Ok (r - l)
    end
  else Ok (sx0 c).
(** build_problem.py 194-210: the width of the dipole; the search loop before it only checks that -x0 lies in the mesh *)
Fixpoint dipole_search (edges : list R) (x0 : R) : result unit :=
  match edges with
  | l :: ((r :: _) as rest) => if Rleb l (- x0) && Rleb (- x0) r then Ok tt else dipole_search rest x0
  | _ => Err IndexError
  end.
Definition ic_x1 (c : scfg) (edges : list R) : result R :=
  let N := (length edges - 1)%nat in
  if negb (smoving c) && sty_is c 0 2 && negb (uncollided c) && Nat.even N then
    _ <- dipole_search edges (sx0 c) ;;
    l <- getitem edges (N / 2) ;; r <- getitem edges (N / 2 + 1) ;; Ok (l - r)
  else Ok 0.
(** build_problem.py 213-219: row [ang] of the coefficients, as a list over cells of functions of the order *)
Fixpoint ic_cells (c : scfg) (x0 x1 mu : R) (edges : list R) : result (list (nat -> R)) :=
  match edges with
  | a :: ((b :: _) as rest) =>
      u <- seqM (sM c + 1) (ic_entry c x0 x1 a b mu) ;;
      us <- ic_cells c x0 x1 mu rest ;;
      Ok (u :: us)
  | _ => Ok []
  end.
Definition make_IC (c : scfg) (mus edges : list R) : result (list (list (nat -> R))) :=
  x0 <- ic_x0 c edges ;;
  x1 <- ic_x1 c edges ;;
  map_result (fun mu => ic_cells c x0 x1 mu edges) mus.
