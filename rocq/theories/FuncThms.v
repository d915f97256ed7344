(** C32 - C38, C75 - C77: tables, quadrature rules, projections and root finders. *)
From Coq Require Import Sorted Permutation.
From Coquelicot Require Import Coquelicot.
From Verif Require Import Py PyLemmas Calc Legendre Cheb DGModel DGSpec DGProofs FuncModel FuncProofs FuncLobatto.
Open Scope R_scope.

(* ---------------------------------------------------------------- C32 *)
(** the table is the derivative of the Legendre polynomial in the reference variable, normalised *)
Theorem C32_table_is_the_reference_derivative : forall n x a b, (n <= 11)%nat -> a < b ->
  exists d, is_derive (leg n) (refz x a b) d /\ dx_normPn n x a b = d * sqrt ((2 * INR n + 1) / (b - a)).
Proof.
  intros n x a b Hn H. exists (dleg n (refz x a b)). split; [apply leg_derive|]. unfold refz. apply dx_table; auto. lra.
Qed.
Print Assumptions C32_table_is_the_reference_derivative.
(** so the derivative of the basis function itself is 2/(b-a) times the table *)
Theorem C32_physical_derivative_has_another_factor : forall n x a b, (n <= 11)%nat -> a < b ->
  is_derive (fun y => basis Slab n y a b) x (2 / (b - a) * dx_normPn n x a b).
Proof.
  intros n x a b Hn H. rewrite dx_table by (auto; lra). fold (refz x a b). unfold basis.
  apply (dd_eq _ _ (sqrt ((2 * INR n + 1) / (b - a)) * (2 / (b - a) * dleg n (refz x a b)))); [|ring].
  apply dd_scal. apply (dd_comp (leg n) (fun y => refz y a b) x); [apply leg_derive|].
  apply (dd_ext (fun y => 2 / (b - a) * y + - (a + b) / (b - a))); [intro; unfold refz; field; lra|].
  eapply dd_eq; [apply dd_plus; [apply dd_scal; apply dd_id|apply dd_const]|ring].
Qed.
Print Assumptions C32_physical_derivative_has_another_factor.
Theorem C32_zero_above_eleven : forall n x a b, (11 < n)%nat -> dx_normPn n x a b = 0.
Proof. intros n x a b H. unfold dx_normPn. cbv zeta. do 12 (destruct n as [|n]; [lia|]). ring. Qed.
Print Assumptions C32_zero_above_eleven.
Theorem C32_is_the_physical_derivative_refuted : exists n x a b, a < b /\ (n <= 11)%nat /\ ~ is_derive (fun y => basis Slab n y a b) x (dx_normPn n x a b).
Proof.
  exists 1%nat, 0, 0, 3. split; [lra|]. split; [lia|]. intro K.
  pose proof (C32_physical_derivative_has_another_factor 1 0 0 3 ltac:(lia) ltac:(lra)) as P.
  apply is_derive_unique in K, P. rewrite K in P. unfold dx_normPn in P. cbv zeta in P. simpl (INR 1) in P.
  replace ((2 * 1 + 1) / (3 - 0)) with 1 in P by lra. rewrite sqrt_1 in P. lra.
Qed.
Print Assumptions C32_is_the_physical_derivative_refuted.
Example C32_example : dx_normPn 2 1 (-1) 1 = 3 * sqrt (5 / 2).
Proof. unfold dx_normPn. cbv zeta. simpl (INR 2). replace ((1 + -1 - 2 * 1) / (-1 - 1)) with 1 by lra. replace ((2 * (1 + 1) + 1) / (1 - -1)) with (5 / 2) by lra. ring. Qed.

(* ---------------------------------------------------------------- C33 *)
(** with x = cos th the weighted integral is an integral over [0,pi]; the n-point rule is exact below degree 2n *)
Theorem C33_chebyshev_rule_exact : forall n c d, (d < 2 * n)%nat ->
  is_RInt (fun th => sumn (S d) (fun k => c k * cos th ^ k)) 0 PI (qsum (quadrature_chebyshev n) (fun z => sumn (S d) (fun k => c k * z ^ k))).
Proof. exact exact_poly. Qed.
Print Assumptions C33_chebyshev_rule_exact.
Theorem C33_sharp : forall n, (0 < n)%nat ->
  qsum (quadrature_chebyshev n) (cheb (2 * n)) = - PI /\ is_RInt (fun th => cheb (2 * n) (cos th)) 0 PI 0.
Proof. exact not_exact_2n. Qed.
Print Assumptions C33_sharp.
Theorem C33_discrete_orthogonality : forall n i j, (i + j < 2 * n)%nat ->
  qsum (quadrature_chebyshev n) (fun z => cheb i z * cheb j z) = if (i =? j)%nat then (if (i =? 0)%nat then PI else PI / 2) else 0.
Proof. exact qsum_TT. Qed.
Print Assumptions C33_discrete_orthogonality.
Theorem C33_nodes_and_weights : forall n, (0 < n)%nat ->
  length (quadrature_chebyshev n) = n /\ rsum (map snd (quadrature_chebyshev n)) = PI /\
  (forall x w, In (x, w) (quadrature_chebyshev n) -> 0 < w /\ -1 < x < 1) /\
  (forall i j, (i < j < n)%nat -> nth j (map fst (quadrature_chebyshev n)) 0 < nth i (map fst (quadrature_chebyshev n)) 0) /\
  (forall i, (i < n)%nat -> nth (n - 1 - i) (map fst (quadrature_chebyshev n)) 0 = - nth i (map fst (quadrature_chebyshev n)) 0).
Proof.
  intros n Hn. destruct (cheb_weights n Hn) as (S & F & L).
  assert (N : forall i, (i < n)%nat -> nth i (map fst (quadrature_chebyshev n)) 0 = cheb_node n (1 + i)).
  { intros i Hi. unfold quadrature_chebyshev. rewrite map_map. cbn [fst].
    rewrite (nth_indep _ 0 (cheb_node n 0)) by (rewrite map_length, seq_length; auto). rewrite map_nth, seq_nth by auto. reflexivity. }
  split; [auto|]. split; [auto|]. split; [|split].
  - intros x w K. rewrite Forall_forall in F. apply (F _ K).
  - intros i j Hij. rewrite !N by lia. apply node_decr; lia.
  - intros i Hi. rewrite !N by lia. replace (1 + (n - 1 - i))%nat with (n + 1 - (1 + i))%nat by lia. apply node_sym. lia.
Qed.
Print Assumptions C33_nodes_and_weights.
Example C33_example : quadrature_chebyshev 1 = (0, PI) :: nil.
Proof. unfold quadrature_chebyshev, cheb_node. cbn [map seq]. simpl (INR 1). replace ((2 * 1 - 1) / 2 / 1 * PI) with (PI / 2) by field. rewrite cos_PI2. do 2 f_equal. field. Qed.

(* ---------------------------------------------------------------- C34 *)
(** main_functions.py uses the Chebyshev rule with 6M+1 points; any rule with more than M points will do *)
Theorem C34_sphere_projection_left_inverse : forall n M u a b j, a < b -> (M <= 12)%nat -> (M < n)%nat -> (j <= M)%nat ->
  integrate_quad_sphere (quadrature_chebyshev n) (field Sphere M u a b) a b j = Ok (u j).
Proof. exact proj_sphere. Qed.
Print Assumptions C34_sphere_projection_left_inverse.
Theorem C34_solver_rule : forall M u a b j, a < b -> (M <= 12)%nat -> (j <= M)%nat ->
  integrate_quad_sphere (quadrature_chebyshev (6 * M + 1)) (field Sphere M u a b) a b j = Ok (u j).
Proof. intros. apply proj_sphere; auto. lia. Qed.
Print Assumptions C34_solver_rule.
(** any initial condition: above order 12 the projection stops with an assertion *)
Theorem C34_fails_above_order_12 : forall n f a b j, (0 < n)%nat -> (12 < j)%nat ->
  integrate_quad_sphere (quadrature_chebyshev n) f a b j = Err AssertionError.
Proof.
  intros n f a b j Hn Hj. destruct (quadrature_chebyshev n) as [|p q] eqn:E; [|now apply proj_sphere_err].
  apply (f_equal (@length _)) in E. unfold quadrature_chebyshev in E. rewrite map_length, seq_length in E. simpl in E. lia.
Qed.
Print Assumptions C34_fails_above_order_12.
(** the projection is linear in the function, so it is the only left inverse on the polynomials *)
Theorem C34_linear : forall q f g p r a b j F G, integrate_quad_sphere q f a b j = Ok F -> integrate_quad_sphere q g a b j = Ok G ->
  a < b -> (j <= 12)%nat -> integrate_quad_sphere q (fun x => p * f x + r * g x) a b j = Ok (p * F + r * G).
Proof.
  intros q f g p r a b j F G HF HG Hab Hj. rewrite proj_sphere_val in * by auto. injection HF as <-. injection HG as <-. f_equal.
  cbv zeta. rewrite (qsum_ext _ _ (fun z => p * (f ((b - a) / 2 * z + (a + b) / 2) * basis Sphere j ((b - a) / 2 * z + (a + b) / 2) a b) + r * (g ((b - a) / 2 * z + (a + b) / 2) * basis Sphere j ((b - a) / 2 * z + (a + b) / 2) a b))) by (intro; ring).
  pose proof (qsum_lin q (fun z => f ((b - a) / 2 * z + (a + b) / 2) * basis Sphere j ((b - a) / 2 * z + (a + b) / 2) a b) (fun z => g ((b - a) / 2 * z + (a + b) / 2) * basis Sphere j ((b - a) / 2 * z + (a + b) / 2) a b) p r) as E.
  cbv beta in E. rewrite E. unfold basis. ring.
Qed.
Print Assumptions C34_linear.
Example C34_example : integrate_quad_sphere (quadrature_chebyshev 7) (field Sphere 1 (fun j => INR j + 3) 2 5) 2 5 1 = Ok 4.
Proof. rewrite proj_sphere by (lia || lra). f_equal. cbv beta. change (INR 1) with 1. ring. Qed.

(* ---------------------------------------------------------------- C35 *)
Theorem C35_slab_projection_left_inverse : forall q M u a b j, a < b ->
  (forall k, (k <= 2 * M)%nat -> is_RInt (fun z => z ^ k) (-1) 1 (rsum (map (fun p => snd p * fst p ^ k) q))) -> (j <= M)%nat ->
  integrate_quad q (field Slab M u a b) a b j = u j.
Proof. intros q M u a b j H HE Hj. apply proj_slab; auto. Qed.
Print Assumptions C35_slab_projection_left_inverse.

(* ---------------------------------------------------------------- C36 *)
(** points are in the order of the cells, strictly inside them, max(M,1) per cell, increasing *)
Definition nodes_ok (g : geom) (lg : nat -> list (R * R)) : Prop := forall edges M, StronglySorted Rlt edges ->
  let p := Nat.max M 1 in let xs := find_nodes lg edges M g in
  length xs = (p * (length edges - 1))%nat /\ StronglySorted Rlt xs /\
  (forall k i, (S k < length edges)%nat -> (i < p)%nat -> nth k edges 0 < nth (k * p + i) xs 0 < nth (S k) edges 0).
Theorem C36_slab_nodes : forall lg,
  (forall n, (0 < n)%nat -> length (lg n) = n /\ StronglySorted Rlt (map fst (lg n)) /\ List.Forall (fun p => -1 < fst p < 1) (lg n)) ->
  nodes_ok Slab lg.
Proof.
  intros lg G edges M S. cbv zeta.
  replace (Nat.max M 1) with (if (M =? 0)%nat then 1%nat else M) by (destruct M; simpl; lia). unfold find_nodes. cbv zeta. set (p := if (M =? 0)%nat then 1%nat else M).
  assert (Hp : (0 < p)%nat) by (unfold p; destruct M; simpl; lia). split; [|split].
  - apply blocks_len; auto. intros xL xR H. apply (slab_block lg p xL xR G Hp H).
  - apply blocks_sorted; auto. intros xL xR H. destruct (slab_block lg p xL xR G Hp H) as (A & B & C). auto.
  - intros k i Hk Hi. apply (blocks_nth _ p); auto. intros xL xR H. destruct (slab_block lg p xL xR G Hp H) as (A & B & C). auto.
Qed.
Print Assumptions C36_slab_nodes.
Theorem C36_sphere_nodes : forall lg, nodes_ok Sphere lg.
Proof.
  intros lg edges M S. cbv zeta.
  replace (Nat.max M 1) with (if (M =? 0)%nat then 1%nat else M) by (destruct M; simpl; lia). unfold find_nodes. cbv zeta. set (p := if (M =? 0)%nat then 1%nat else M).
  assert (Hp : (0 < p)%nat) by (unfold p; destruct M; simpl; lia). split; [|split].
  - apply blocks_len; auto. intros xL xR H. apply (sphere_block p xL xR Hp H).
  - apply blocks_sorted; auto. intros xL xR H. destruct (sphere_block p xL xR Hp H) as (A & B & C). auto.
  - intros k i Hk Hi. apply (blocks_nth (fun xL xR => np_sort (cell_nodes (map fst (quadrature_chebyshev p)) xL xR)) p); auto. intros xL xR H. destruct (sphere_block p xL xR Hp H) as (A & B & C). auto.
Qed.
Print Assumptions C36_sphere_nodes.
Example C36_example : find_nodes (fun _ => nil) (0 :: 2 :: 6 :: nil) 0 Sphere = 1 :: 4 :: nil.
Proof.
  unfold find_nodes. cbn [Nat.eqb blocks]. pose proof C33_example as E. rewrite E. cbn [map fst cell_nodes np_sort insert app].
  f_equal; [field|]. f_equal. field.
Qed.

(* ---------------------------------------------------------------- C37 *)
Theorem C37_order_recovered : forall C p x1 x2, 0 < C -> 0 < x1 -> 0 < x2 -> x1 <> x2 ->
  convergence (C * Rpower x1 (- p)) x1 (C * Rpower x2 (- p)) x2 = p.
Proof. exact conv_order. Qed.
Print Assumptions C37_order_recovered.
Theorem C37_symmetric : forall e1 x1 e2 x2, 0 < e1 -> 0 < e2 -> 0 < x1 -> 0 < x2 -> x1 <> x2 -> convergence e1 x1 e2 x2 = convergence e2 x2 e1 x1.
Proof. exact conv_swap. Qed.
Print Assumptions C37_symmetric.
Example C37_example : convergence (1 * Rpower 2 (- 3)) 2 (1 * Rpower 4 (- 3)) 4 = 3.
Proof. apply conv_order; lra. Qed.

(* ---------------------------------------------------------------- C38 *)
(** a returned point is an end of a bracket not wider than the tolerance, inside the initial one, where the sign changes *)
Theorem C38_bisection_brackets : forall fuel f a b tol m, a <= b -> bisection fuel f a b tol = Ok m ->
  exists a' b', a <= a' /\ a' <= b' /\ b' <= b /\ b' - a' <= tol /\ np_sign (f a') <> np_sign (f b') /\ (m = a' \/ m = b').
Proof.
  intros fuel f a b tol m Hab. unfold bisection. destruct (Z.eqb_spec (np_sign (f a)) (np_sign (f b))) as [E|E]; cbn [negb]; [discriminate|].
  intro K. eapply bisect_spec; eauto. intros ? [=].
Qed.
Print Assumptions C38_bisection_brackets.
Theorem C38_root_nearby : forall fuel f a b tol m, a <= b -> (forall x, a <= x <= b -> continuity_pt f x) -> bisection fuel f a b tol = Ok m ->
  exists r, a <= r <= b /\ f r = 0 /\ Rabs (m - r) <= tol.
Proof.
  intros fuel f a b tol m Hab Hc K. destruct (C38_bisection_brackets _ _ _ _ _ _ Hab K) as (a' & b' & H1 & H2 & H3 & H4 & H5 & H6).
  destruct (sign_root f a' b' H2) as (r & Hr & Z); [intros x Hx; apply Hc; lra|exact H5|]. exists r. split; [lra|]. split; [auto|].
  apply Rabs_le. destruct H6; subst; lra.
Qed.
Print Assumptions C38_root_nearby.
Theorem C38_terminates : forall f tol a b, 0 < tol -> tol < b - a -> np_sign (f a) <> np_sign (f b) ->
  exists n, forall fuel, (n <= fuel)%nat -> exists m, bisection fuel f a b tol = Ok m.
Proof. exact bisect_terminates. Qed.
Print Assumptions C38_terminates.
Theorem C38_equal_signs_rejected : forall fuel f a b tol, np_sign (f a) = np_sign (f b) -> bisection fuel f a b tol = Err AssertionError.
Proof. intros fuel f a b tol E. unfold bisection. now rewrite E, Z.eqb_refl. Qed.
Print Assumptions C38_equal_signs_rejected.
Theorem C38_narrow_bracket_unbound : forall fuel f a b tol, np_sign (f a) <> np_sign (f b) -> b - a <= tol -> bisection fuel f a b tol = Err UnboundLocal.
Proof.
  intros fuel f a b tol E H. unfold bisection. destruct (Z.eqb_spec (np_sign (f a)) (np_sign (f b))); [contradiction|]. cbn [negb].
  destruct fuel; cbn [bisect_loop]; unfold Rgtb; rewrite Rltb_false by lra; reflexivity.
Qed.
Print Assumptions C38_narrow_bracket_unbound.
(** one halving of [0,2] for x - 1/2 *)
Example C38_example : bisection 1 (fun x => x - 1 / 2) 0 2 1 = Ok 1.
Proof.
  unfold bisection, bisect_loop, np_sign, Rgtb. rewrite (Rltb_true (0 - 1 / 2) 0), (Rltb_false (2 - 1 / 2) 0), (Rltb_true 0 (2 - 1 / 2)), (Rltb_true 1 (2 - 0)) by lra. cbn [negb Z.eqb].
  rewrite (Rltb_false (0 + (2 - 0) / 2 - 1 / 2) 0), (Rltb_true 0 (0 + (2 - 0) / 2 - 1 / 2)) by lra. cbn [negb Z.eqb Pos.eqb].
  rewrite Rltb_false by lra. f_equal. lra.
Qed.

(* ---------------------------------------------------------------- C75 *)
Theorem C75_legendre_derivative : forall n x, (1 <= n)%nat -> x ^ 2 <> 1 -> is_derive (leg n) x (eval_legendre_deriv n x).
Proof. intros n x Hn Hx. rewrite legendre_deriv_ok by auto. apply leg_derive. Qed.
Print Assumptions C75_legendre_derivative.
Theorem C75_legendre_second_derivative : forall n x, (2 <= n)%nat -> x ^ 2 <> 1 ->
  exists d, (forall y, is_derive (leg n) y (d y)) /\ is_derive d x (eval_second_legendre_deriv n x).
Proof. intros n x Hn Hx. exists (dleg n). split; [intro; apply leg_derive|now apply legendre_second_ok]. Qed.
Print Assumptions C75_legendre_second_derivative.
Example C75_example : eval_legendre_deriv 2 (1 / 2) = 3 / 2 /\ eval_second_legendre_deriv 2 (1 / 2) = 3.
Proof.
  unfold eval_second_legendre_deriv, eval_legendre_deriv. change (2 - 1)%nat with 1%nat. change (1 - 1)%nat with 0%nat.
  rewrite !leg_SS, !leg_1, !leg_0. simpl INR. split; field.
Qed.

(* ---------------------------------------------------------------- C76 *)
(** a returned Newton iterate is one full step away, by at most the tolerance, from the previous one: the residual there is small *)
Theorem C76_newton_result : forall fuel x0 f f' tol x, newtons fuel x0 f f' tol = Ok x ->
  exists y v d, f y = Ok v /\ f' y = Ok d /\ d <> 0 /\ x = y - v / d /\ Rabs (v / d) <= tol.
Proof.
  intros fuel x0 f f' tol x H. destruct (newton_spec _ _ _ _ _ _ H) as (y & v & d & A & B & N & E & L). exists y, v, d. repeat split; auto.
  replace (v / d) with (- (x - y)) by (rewrite E; ring). now rewrite Rabs_Ropp.
Qed.
Print Assumptions C76_newton_result.
Theorem C76_root_is_a_fixed_point : forall fuel x0 f f' tol d, 0 <= tol -> f x0 = Ok 0 -> f' x0 = Ok d -> d <> 0 -> newtons (S fuel) x0 f f' tol = Ok x0.
Proof. exact newton_fixed. Qed.
Print Assumptions C76_root_is_a_fixed_point.
(** the second routine overwrites the old iterate before comparing: it makes exactly one step, whatever the function *)
Theorem C76_newtons2_single_step : forall fuel x0 f f' tol, 0 <= tol -> (1 <= fuel)%nat -> tol < Rabs (x0 - 1000) -> f' x0 <> 0 ->
  newtons2 fuel x0 f f' tol = Ok (x0 - f x0 / f' x0).
Proof. intros fuel x0 f f' tol Ht Hf H Hd. rewrite newton2_spec by auto. now rewrite Rleb_false by lra. Qed.
Print Assumptions C76_newtons2_single_step.
Theorem C76_newtons2_converges_refuted : exists f f' x0 tol, 0 < tol /\ (forall y, is_derive f y (f' y)) /\
  forall fuel x, newtons2 fuel x0 f f' tol = Ok x -> Rabs (f x) > tol /\ Rabs (f x / f' x) > tol.
Proof.
  exists (fun x => x * x), (fun x => 2 * x), 4, (1 / 10). split; [lra|]. split.
  - intro y. eapply dd_eq; [apply dd_mult; apply dd_id|cbv beta; ring].
  - intros fuel x. destruct fuel as [|k].
    + unfold newtons2, newtons2_loop, Rgtb. replace (4 - 1000) with (-996) by lra. rewrite (Rabs_left (-996)) by lra. rewrite Rltb_true by lra. discriminate.
    + rewrite C76_newtons2_single_step; [|lra|lia|replace (4 - 1000) with (-996) by lra; rewrite (Rabs_left (-996)); lra|lra].
      intro E. injection E as <-. replace (4 - 4 * 4 / (2 * 4)) with 2 by lra. split; rewrite Rabs_pos_eq; lra.
Qed.
Print Assumptions C76_newtons2_converges_refuted.
(** linear functions: one step finds the root, the second confirms it *)
Example C76_example : newtons 2 5 (fun x => Ok (3 * x - 6)) (fun _ => Ok 3) (1 / 10) = Ok 2.
Proof.
  cbn [newtons bind]. rewrite Reqb_false by lra. replace (5 - (3 * 5 - 6) / 3) with 2 by lra. rewrite Rleb_false by (rewrite Rabs_left; lra).
  replace (2 - (3 * 2 - 6) / 3) with 2 by lra. rewrite Rleb_true by (rewrite Rminus_eq_0, Rabs_R0; lra). reflexivity.
Qed.

(* ---------------------------------------------------------------- C77 *)
(** when the root finder hits the interior zeros of P'_{n-1}, the rule is the Gauss-Lobatto rule:
    positive weights that sum to 2, nodes in [-1,1], exact up to degree 2n-3 *)
Theorem C77_lobatto_exact : forall lg fuel n inner q, (3 <= n)%nat -> lobatto_roots lg fuel n = Ok inner -> quadrature_lobatto lg fuel n = Ok q ->
  NoDup inner -> (forall x, In x inner -> -1 < x < 1 /\ is_derive (leg (n - 1)) x 0) ->
  length q = n /\ rsum (map snd q) = 2 /\ (forall x w, In (x, w) q -> 0 < w /\ -1 <= x <= 1) /\
  (forall k, (k <= 2 * n - 3)%nat -> is_RInt (fun z => z ^ k) (-1) 1 (rsum (map (fun p => snd p * fst p ^ k) q))).
Proof.
  intros lg fuel n inner q Hn Hi Hq Hd Hg. destruct (lobatto_exact lg fuel n inner q Hn Hi Hq) as (A & B & C & D).
  - split; auto. intros x K. destruct (Hg x K) as [H1 H2]. split; auto. apply is_derive_unique in H2.
    pose proof (is_derive_unique _ _ _ (leg_derive (n - 1) x)) as E. congruence.
  - split; [auto|]. split; [auto|]. split; [auto|]. intros k Hk. exact (B k Hk).
Qed.
Print Assumptions C77_lobatto_exact.
(** the end points are nodes for every n >= 2, whatever the root finder returns *)
Theorem C77_ends_are_nodes : forall lg fuel n q, (2 <= n)%nat -> quadrature_lobatto lg fuel n = Ok q ->
  length q = n /\ (exists w, nth_error q 0 = Some (-1, w)) /\ (exists w, nth_error q (n - 1) = Some (1, w)).
Proof.
  intros lg fuel n q Hn Hq. unfold quadrature_lobatto in Hq. destruct (lobatto_roots lg fuel n) as [inner|] eqn:E; [|discriminate]. cbn [bind] in Hq.
  apply map_result_length in E. rewrite seq_length in E. destruct n as [|[|n]]; try lia.
  set (we := if (2 <? S (S n))%nat then 2 / (INR (S (S n)) * INR (S (S n) - 1)) else 0) in Hq.
  injection Hq as <-. cbn [length]. rewrite app_length, map_length. cbn [length]. split; [lia|]. split; [exists we; reflexivity|]. exists we.
  replace (S (S n) - 1)%nat with (S n) by lia. cbn [nth_error]. rewrite nth_error_app2 by (rewrite map_length; lia). rewrite map_length.
  replace (n - length inner)%nat with 0%nat by lia. reflexivity.
Qed.
Print Assumptions C77_ends_are_nodes.
(** two points or fewer: the weights are never set *)
Theorem C77_small_rules_have_zero_weight : forall lg fuel,
  quadrature_lobatto lg fuel 2 = Ok ((-1, 0) :: (1, 0) :: nil) /\ quadrature_lobatto lg fuel 1 = Ok ((1, 0) :: nil) /\ quadrature_lobatto lg fuel 0 = Err IndexError.
Proof. intros lg fuel. repeat split. Qed.
Print Assumptions C77_small_rules_have_zero_weight.
Theorem C77_two_point_rule_refuted : exists n, (2 <= n)%nat /\ forall lg fuel q, quadrature_lobatto lg fuel n = Ok q -> rsum (map snd q) = 0.
Proof. exists 2%nat. split; [lia|]. intros lg fuel q H. destruct (C77_small_rules_have_zero_weight lg fuel) as [E _]. rewrite E in H. injection H as <-. simpl. ring. Qed.
Print Assumptions C77_two_point_rule_refuted.
(** three points, with any symmetric two-point starting rule: Simpson's rule *)
Definition lg2 (x : R) : nat -> list (R * R) := fun _ => (- x, 1) :: (x, 1) :: nil.
Lemma simpson_roots x fuel : lobatto_roots (lg2 x) (S fuel) 3 = Ok (0 :: nil).
Proof.
  unfold lobatto_roots, lg2. change (3 - 2)%nat with 1%nat. cbn [Nat.ltb Nat.leb map fst seq map_result]. change (0 + 1)%nat with 1%nat.
  cbn [getitem nth_error bind]. replace ((- x + x) * (1 / 2)) with 0 by field.
  rewrite (newton_fixed _ _ _ _ _ 3); [reflexivity| | | |lra].
  - left. apply Rinv_0_lt_compat. apply pow_lt. lra.
  - unfold off_ends. rewrite Reqb_false by lra. f_equal. change (3 - 1)%nat with 2%nat. unfold eval_legendre_deriv. change (2 - 1)%nat with 1%nat. rewrite leg_SS, leg_1, leg_0. simpl INR. field.
  - unfold off_ends. rewrite Reqb_false by lra. f_equal. change (3 - 1)%nat with 2%nat. unfold eval_second_legendre_deriv, eval_legendre_deriv. change (2 - 1)%nat with 1%nat. change (1 - 1)%nat with 0%nat. rewrite leg_SS, leg_1, leg_0. simpl INR. field.
Qed.
Lemma simpson x fuel : quadrature_lobatto (lg2 x) (S fuel) 3 = Ok ((-1, 1 / 3) :: (0, 4 / 3) :: (1, 1 / 3) :: nil).
Proof.
  unfold quadrature_lobatto. rewrite simpson_roots. cbn [bind map app]. change (3 - 1)%nat with 2%nat. change (2 <? 3)%nat with true. cbv iota.
  rewrite leg_SS, leg_1, leg_0. simpl INR.
  replace (2 / ((1 + 1 + 1) * (1 + 1))) with (1 / 3) by field. do 3 f_equal. f_equal. field.
Qed.
Example C77_example x : exists q, quadrature_lobatto (lg2 x) 1 3 = Ok q /\
  forall k, (k <= 3)%nat -> is_RInt (fun z => z ^ k) (-1) 1 (rsum (map (fun p => snd p * fst p ^ k) q)).
Proof.
  exists ((-1, 1 / 3) :: (0, 4 / 3) :: (1, 1 / 3) :: nil). split; [apply simpson|].
  destruct (C77_lobatto_exact (lg2 x) 1 3 (0 :: nil) _ ltac:(lia) (simpson_roots x 0) (simpson x 0)) as (_ & _ & _ & E).
  - constructor; [intros []|constructor].
  - intros y [<-|[]]. split; [lra|]. eapply dd_eq; [apply leg_derive|]. change (3 - 1)%nat with 2%nat. rewrite dleg_SS, ?dleg_1, ?dleg_0, ?leg_1. simpl INR. field.
  - exact E.
Qed.
(** Simpson's rule is exact enough for the projection of linear functions *)
Example C35_example : forall u, integrate_quad ((-1, 1 / 3) :: (0, 4 / 3) :: (1, 1 / 3) :: nil) (field Slab 1 u 2 6) 2 6 1 = u 1%nat.
Proof.
  intro u. apply C35_slab_projection_left_inverse; [lra| |lia]. intros k Hk. destruct (C77_example 0) as (q & E & X).
  rewrite simpson in E. injection E as <-. apply X. lia.
Qed.
