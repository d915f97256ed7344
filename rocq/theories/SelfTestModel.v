(** Model of the checks the matrix class can make of itself:
    /repo/moving_mesh_transport/solver_classes/matrices.py 169-176, 203-211, 239-251, 281-292 (inside the functions that
    build the matrices, when [testing] is on) and matrix_test (307-361).

    float64 is R; [M] is the order (the matrices have M + 1 rows). *)
From Verif Require Import Py DGModel GmatModel MatModel.
Open Scope R_scope.

(** [abs(x - y) <= 1e-10] *)
Definition tol : R := 1 / 10 ^ 10.
Definition close (x y : R) : bool := Rleb (Rabs (x - y)) tol.
(** [abs(x - y <= 1e-10)]: the absolute value of a truth value (170, 172-174) *)
Definition not_above (x y : R) : bool := Rleb (x - y) tol.
(** an assert that is met only when the condition on the order holds *)
Definition when (c b : bool) : bool := if c then b else true.

(** 169-176 *)
Definition check_mass (M : nat) (A : nat -> nat -> R) (rL rR : R) : bool :=
  let rL2 := rL ^ 2 in let rR2 := rR ^ 2 in let rLrR := rL * rR in
  not_above (A 0 0)%nat ((rL2 + rLrR + rR2) / 3 / PI)
  && when (0 <? M)%nat
       (not_above (A 1 0)%nat ((rR2 - rL2) / 3 / sqrt 2 / PI) && not_above (A 0 1)%nat ((rR2 - rL2) / 3 / sqrt 2 / PI)
        && not_above (A 1 1)%nat (2 * (2 * rL2 + rLrR + 2 * rR2) / 15 / PI))
  && when (1 <? M)%nat (close (A 2 2)%nat ((30 * rL2 + 38 * rLrR + 30 * rR2) / 105 / PI)).
(** 203-211 *)
Definition check_J (M : nat) (A : nat -> nat -> R) (rL rR : R) : bool :=
  close (A 0 0)%nat (1 / 2 * (rR + rL) / PI)
  && when (0 <? M)%nat
       (close (A 1 0)%nat ((rR - rL) / 3 / sqrt 2 / PI) && close (A 0 1)%nat ((rR - rL) / 3 / sqrt 2 / PI)
        && close (A 1 1)%nat ((rR + rL) / PI / 3))
  && when (1 <? M)%nat (close (A 2 2)%nat (7 * (rL + rR) / 15 / PI)).
(** 239-251 (0.16666666666666666 read as 1/6): the branch [elif self.M > 1] is not reached, [if self.M > 0] having been taken; its second assert would
    have tested a number, not a comparison *)
Definition check_G (M : nat) (A : nat -> nat -> R) (a b ap bp : R) : bool :=
  close (A 0 0)%nat (- (1 / 6 * ((a ^ 2 + a * b + b ^ 2) * (ap - bp)) / ((a - b) * PI)))
  && if (0 <? M)%nat then
       close (A 0 1)%nat (((a + b) * (ap - bp)) / (6 * sqrt 2 * PI))
       && close (A 1 0)%nat ((ap * (7 * a ^ 2 + 4 * a * b + b ^ 2) + (a ^ 2 + 4 * a * b + 7 * b ^ 2) * bp) / (6 * sqrt 2 * (a - b) * PI))
       && close (A 1 1)%nat ((- (ap * (11 * a ^ 2 + 3 * a * b + b ^ 2)) + (a ^ 2 + 3 * a * b + 11 * b ^ 2) * bp) / (15 * (a - b) * PI))
     else if (1 <? M)%nat then
       close (A 2 0)%nat ((ap * (-7 * a ^ 2 - a * b + b ^ 2) + (- a ^ 2 + a * b + 7 * b ^ 2) * bp) / (3 * sqrt 2 * (a - b) * PI))
       && negb (Reqb (Rabs (A 0%nat 2%nat - ((a ^ 2 + 3 * a * b + b ^ 2) * (ap - bp)) / (15 * sqrt 2 * (a - b) * PI))) 0)
     else true.
(** 281-292 *)
Definition check_L (M : nat) (A : nat -> nat -> R) (rL rR : R) : bool :=
  let rL2 := rL ^ 2 in let rR2 := rR ^ 2 in let rLrR := rL * rR in
  Reqb (A 0 0)%nat 0
  && when (0 <? M)%nat
       (Reqb (A 0 1)%nat 0 && close (A 1 0)%nat (- (2 * sqrt 2 * (rL2 + rLrR + rR2) / 3 / PI / (rL - rR)))
        && close (A 1 1)%nat (2 * (rL + rR) / 3 / PI))
  && when (1 <? M)%nat (close (A 2 1)%nat (-16 * (2 * rL2 + rLrR + 2 * rR2) / 15 / PI / (rL - rR)))
  && when (2 <? M)%nat (close (A 3 3)%nat (18 * (rR + rL) / 35 / PI)).

(** the five matrices after make_all_matrices (109-115) *)
Record matrices := { m_L : nat -> nat -> R; m_G : nat -> nat -> R; m_Mass : nat -> nat -> R; m_J : nat -> nat -> R; m_MPRIME : nat -> nat -> R }.
(** [assert] *)
Definition check (b : bool) : result unit := if b then Ok tt else Err AssertionError.
(** make_all_matrices with [testing] on (109-115): in the sphere each matrix is checked as it is built; in the slab
    nothing is, and Mass, J and MPRIME keep the zeros of __init__ (64-65, 67) *)
Definition make_all_tested (g : geom) (T : tables) (M : nat) (rL rR rLp rRp : R) : result matrices :=
  match g with
  | Slab => Ok {| m_L := L_slab rL rR; m_G := G_slab rL rR rLp rRp; m_Mass := fun _ _ => 0; m_J := fun _ _ => 0; m_MPRIME := fun _ _ => 0 |}
  | Sphere =>
      _ <- check (check_L M (make_L_sphere T rL rR) rL rR) ;;
      G <- make_G_sphere (M + 1) rL rR rLp rRp ;;
      _ <- check (check_G M G rL rR rLp rRp) ;;
      _ <- check (check_mass M (make_mass_sphere T rL rR) rL rR) ;;
      _ <- check (check_J M (make_J_sphere T rL rR) rL rR) ;;
      P <- make_MPRIME (M + 1) rL rR rLp rRp ;;
      Ok {| m_L := make_L_sphere T rL rR; m_G := G; m_Mass := make_mass_sphere T rL rR; m_J := make_J_sphere T rL rR; m_MPRIME := P |}
  end.

(** the numbers of 317-341, as integers over a power of ten *)
Definition bench (rows : list (list Z)) (e : nat) (i j : nat) : R := IZR (nth j (nth i rows []) 0%Z) / 10 ^ e.
Definition L_bench : nat -> nat -> R := bench
  [[0; 0; 0; 0]; [441584; 233427; -168553; -140056]; [660232; 911882; 186742; -465642]; [609643; 980394; 1175020; 180072]]%Z 6.
Definition J_bench : nat -> nat -> R := bench
  [[1750700; 525185; -825290; -315111]; [525185; 1167140; 148545; -700282]; [-825290; 148545; 1633990; 318310]; [-315111; -700282; 318310; 1700680]]%Z 7.
Definition Mass_bench : nat -> nat -> R := bench
  [[1092860; 577703; -417147; -346622]; [577703; 797897; 163399; -407437]; [-417147; 163399; 980394; 350141]; [-346622; -407437; 350141; 1051740]]%Z 7.
Definition G_bench : nat -> nat -> R := bench
  [[-2341850; -1237930; 893885; 742761]; [-50080100; -29639200; 16647600; 17325200]; [-78102400; -104501000; -25055500; 49342600];
   [-73668400; -117347000; -132831000; -24206700]]%Z 8.
Definition MPRIME_bench : nat -> nat -> R := bench
  [[3787890; 1350470; -1701600; -810285]; [1350470; 2584680; 381972; -1489690]; [-1701600; 381972; 3501410; 818511]; [-810285; -1489690; 818511; 3671170]]%Z 7.
(** [(np.abs(X_bench - X) >= 1e-5).any()] of two 4 x 4 arrays, negated (343-360) *)
Definition agrees (B A : nat -> nat -> R) : bool :=
  forallb (fun i => forallb (fun j => Rltb (Rabs (B i j - A i j)) (1 / 10 ^ 5)) (seq 0 4)) (seq 0 4).
(** matrix_test(True) (307-361) *)
Definition matrix_test (g : geom) (T : tables) (M : nat) : result unit :=
  m <- make_all_tested g T M (2 / 10) (9 / 10) (9 / 10) (12 / 10) ;;
  if (M =? 3)%nat then
    _ <- check (agrees L_bench (m_L m)) ;;
    _ <- check (agrees J_bench (m_J m)) ;;
    _ <- check (agrees Mass_bench (m_Mass m)) ;;
    _ <- check (agrees G_bench (m_G m)) ;;
    check (agrees MPRIME_bench (m_MPRIME m))
  else Ok tt.
