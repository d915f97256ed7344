(** C151: the repository's own tests; C152: what the angular differences approximate. *)
From Coq Require Import Permutation.
From Coquelicot Require Import Coquelicot.
From Interval Require Import Tactic.
From Verif Require Import Py PyLemmas Calc Legendre Cheb DGModel DGSpec DGProofs FuncModel FuncProofs FuncLobatto GaussExist RhsModel RhsProofs TestModel.
Open Scope R_scope.

(* ---------------------------------------------------------------- C151 *)
Lemma loop_ok {A} (body : A -> result unit) l : (forall x, In x l -> body x = Ok tt) -> loop body l = Ok tt.
Proof. induction l as [|x l IH]; intros H; cbn [loop]; [reflexivity|]. rewrite H by (left; auto). cbn [bind]. apply IH. intros; apply H; now right. Qed.
Lemma loop_err {A} (body : A -> result unit) l x e : In x l -> (forall y, In y l -> body y = Ok tt \/ body y = Err e) -> body x = Err e -> loop body l = Err e.
Proof.
  induction l as [|y l IH]; intros Hx Hall E; [destruct Hx|]. cbn [loop]. destruct (Hall y (or_introl eq_refl)) as [K|K]; rewrite K; cbn [bind]; [|reflexivity].
  destruct Hx as [->|Hx]; [congruence|]. apply IH; auto. intros; apply Hall; now right.
Qed.
Lemma npassert_eq r a x y : 0 <= r -> 0 <= a -> x = y -> npassert r a x y = Ok tt.
Proof. intros Hr Ha ->. unfold npassert. rewrite Rminus_eq_0, Rabs_R0, Rleb_true; [reflexivity|]. apply Rplus_le_le_0_compat; [auto|apply Rmult_le_pos; [auto|apply Rabs_pos]]. Qed.
Lemma tol_pos k : 0 <= / 10 ^ k. Proof. left. apply Rinv_0_lt_compat, pow_lt. lra. Qed.
(** what is assumed of the Gauss-Legendre rules of scipy, numpy and quadpy *)
Definition gauss_points (gl : nat -> list (R * R)) : Prop := forall n, (1 <= n)%nat -> length (gl n) = n /\
  forall k, (k <= 2 * n - 1)%nat -> is_RInt (fun z => z ^ k) (-1) 1 (rsum (map (fun p => snd p * fst p ^ k) (gl n))).
Lemma LL q D i j a b : a < b -> exact_to q D -> (i + j <= D)%nat ->
  (b - a) / 2 * qsum q (fun z => (leg i z * sqrt ((2 * INR i + 1) / (b - a))) * (leg j z * sqrt ((2 * INR j + 1) / (b - a)))) = identity i j.
Proof.
  intros H E Hd. set (p := sqrt ((2 * INR i + 1) / (b - a))). set (r := sqrt ((2 * INR j + 1) / (b - a))).
  rewrite (qsum_ext _ _ (fun z => (p * r) * (leg i z * leg j z))) by (intro; ring). rewrite qsum_scal, (qsum_LL q D) by auto. unfold identity.
  destruct (Nat.eqb_spec i j) as [->|]; [|ring]. unfold p, r. pose proof (pos_INR j).
  rewrite sqrt_sqrt by (apply Rlt_le, Rdiv_lt_0_compat; lra). field. lra.
Qed.
Lemma fixed_quad_PP gl i j a b n : gauss_points gl -> a < b -> (i + j <= 2 * n - 1)%nat -> (1 <= n)%nat -> fixed_quad gl (fun x => normPn i x a b * normPn j x a b) a b n = identity i j.
Proof.
  intros G H Hd Hn. unfold fixed_quad. rewrite <- (LL (gl n) (2 * n - 1) i j a b H); auto; [|exact (proj2 (G n Hn))].
  f_equal. apply qsum_ext. intro z. unfold normPn. cbv zeta. replace ((b + a - 2 * ((b - a) * (z + 1) / 2 + a)) / (a - b)) with z by (field; lra). reflexivity.
Qed.
Theorem C151_normPns_passes : forall gl, gauss_points gl -> test_normPns gl = Ok tt.
Proof.
  intros gl G. apply loop_ok. intros i Hi. apply in_seq in Hi.
  rewrite npassert_eq; [|apply tol_pos|lra|].
  - cbn [bind]. apply loop_ok. intros j Hj. destruct (Nat.eqb_spec j i) as [|N]; cbn [negb]; [reflexivity|]. apply npassert_eq; try apply tol_pos.
    rewrite fixed_quad_PP; auto; [|lra|lia|lia]. unfold identity. destruct (Nat.eqb_spec i j); [congruence|]. apply Rabs_R0.
  - transitivity (fixed_quad gl (fun x => normPn i x 0 2 * normPn i x 0 2) 0 2 (i + 1)).
    + unfold fixed_quad. f_equal. apply qsum_ext. intro; ring.
    + rewrite fixed_quad_PP; auto; [unfold identity; now rewrite Nat.eqb_refl|lra|lia|lia].
Qed.
Print Assumptions C151_normPns_passes.
Theorem C151_node_finder_slab_passes : forall gl, test_node_finder_slab gl = Ok tt.
Proof.
  intros gl. apply loop_ok. intros M HM. apply in_seq in HM. apply loop_ok. intros (x, y) Hp. apply npassert_eq; try apply tol_pos. cbn [fst snd].
  unfold find_nodes in Hp. destruct (Nat.eqb_spec M 0); [lia|]. cbn [blocks] in Hp. rewrite app_nil_r in Hp. unfold cell_nodes in Hp. revert Hp. generalize (map fst (gl M)) as l.
  induction l as [|z l IH]; intros Hp; [destruct Hp|]. cbn [map combine] in Hp. destruct Hp as [E|Hp]; [injection E as <- <-; field|auto].
Qed.
Print Assumptions C151_node_finder_slab_passes.
(** the second node test passes exactly when the drawn cell is not empty *)
Theorem C151_node_finder_slab_2 : forall gl u v, gauss_points gl -> 0 <= v -> (test_node_finder_slab_2 gl u v = Ok tt <-> v <> 0).
Proof.
  intros gl u v G Hv. unfold test_node_finder_slab_2. cbv zeta. set (aa := u * 2 - 1). split.
  - intros H ->. rewrite Rplus_0_r in H. cbn [seq loop] in H. unfold find_nodes in H at 1. cbn [Nat.eqb blocks] in H. rewrite app_nil_r in H.
    destruct (G 1%nat (le_n 1)) as (L & _). destruct (gl 1%nat) as [|p [|]]; cbn in L; try lia. cbn [map cell_nodes loop bind] in H. rewrite (Reqb_refl aa) in H. discriminate.
  - intros Hn. assert (Hb : aa < aa + v) by lra. set (bb := aa + v) in *. apply loop_ok. intros M HM. apply in_seq in HM. apply loop_ok. intros x Hx.
    rewrite Reqb_false by lra. cbn [negb andb]. unfold find_nodes in Hx. destruct (Nat.eqb_spec M 0); [lia|]. cbn [blocks] in Hx. rewrite app_nil_r in Hx. unfold cell_nodes in Hx.
    apply in_map_iff in Hx as (z & <- & Hz). apply in_map_iff in Hz as ((z' & w) & <- & Hq). cbn [fst].
    destruct (G M ltac:(lia)) as (L & E). destruct (rule_unique M (gl M) ltac:(lia) L E) as (_ & U). destruct (U z' w Hq) as (Z & _).
    unfold normPn. cbv zeta. replace ((bb + aa - 2 * (aa + (z' + 1) * (bb - aa) / 2)) / (aa - bb)) with z' by (field; lra). rewrite Z, Rmult_0_l, Rabs_R0, Rleb_true by apply tol_pos. reflexivity.
Qed.
Print Assumptions C151_node_finder_slab_2.
Lemma cheb_at_node M i : (1 <= M)%nat -> cheb M (cheb_node M i) = 0.
Proof.
  intros HM. unfold cheb_node. rewrite cheb_cos. replace (INR M * ((2 * INR i - 1) / 2 / INR M * PI)) with (INR i * PI - PI / 2) by (field; apply not_0_INR; lia).
  rewrite cos_minus, cos_PI2, sin_PI2. rewrite INR_IZR_INZ, (sin_eq_0_1 (IZR (Z.of_nat i) * PI)) by (eexists; reflexivity). ring.
Qed.
Theorem C151_node_finder_sphere : forall gl u v, 0 <= v -> (test_node_finder_sphere gl u v = Ok tt <-> v <> 0).
Proof.
  intros gl u v Hv. unfold test_node_finder_sphere. cbv zeta. split.
  - intros H ->. rewrite Rplus_0_r in H. cbn [seq loop] in H. rewrite (Reqb_refl u) in H. discriminate.
  - intros Hn. apply loop_ok. intros M HM. apply in_seq in HM. rewrite Reqb_false by lra. apply loop_ok. intros x Hx.
    unfold find_nodes in Hx. destruct (Nat.eqb_spec M 0); [lia|]. cbn [blocks] in Hx. rewrite app_nil_r in Hx. apply (Permutation_in _ (sort_perm _)) in Hx. unfold cell_nodes in Hx.
    apply in_map_iff in Hx as (z & <- & Hz). apply in_map_iff in Hz as ((z' & w) & <- & Hq). cbn [fst]. unfold quadrature_chebyshev in Hq. apply in_map_iff in Hq as (i & E & _). injection E as <- <-.
    rewrite normTn_basis by (lra || lia). cbn [bind]. unfold basis, refz. replace ((2 * (u + (cheb_node M i + 1) * (u + v - u) / 2) - u - (u + v)) / (u + v - u)) with (cheb_node M i) by (field; lra).
    rewrite cheb_at_node by lia. rewrite Rmult_0_r, Rabs_R0, Rleb_true by apply tol_pos. reflexivity.
Qed.
Print Assumptions C151_node_finder_sphere.
Lemma draw_lt a v : 0 <= v -> Rltb a (a + v + 1 / 10) = true. Proof. intros. apply Rltb_true. lra. Qed.
Theorem C151_ortho_passes : forall gl u v, gauss_points gl -> (forall i, 0 <= v i) ->
  test_ortho_Pn gl u v = Ok tt /\ test_ortho_Pn_gauss_quad gl u v = Ok tt /\ test_ortho_Tn_gauss_quad u v = Ok tt.
Proof.
  intros gl u v G Hv. split; [|split]; apply loop_ok; intros r _; cbv zeta; rewrite draw_lt by auto; cbn [py_assert bind]; apply loop_ok; intros (i, j) Hij; apply in_prod_iff in Hij as (Hi & Hj); apply in_seq in Hi, Hj; cbn [fst snd].
  - apply npassert_eq; try apply tol_pos. apply fixed_quad_PP; auto; [specialize (Hv r); lra|lia|lia].
  - set (aa := u r * 3). set (bb := aa + v r + 1 / 10). assert (H : aa < bb) by (unfold bb; specialize (Hv r); lra). apply npassert_eq; try apply tol_pos.
    rewrite <- (LL (gl 150%nat) (2 * 150 - 1) i j aa bb H); [|exact (proj2 (G 150%nat ltac:(lia)))|lia].
    replace (1 / 2 * (bb - aa)) with ((bb - aa) / 2) by field. f_equal. apply qsum_ext. intro z. unfold normPn. cbv zeta. replace ((bb + aa - 2 * ((bb - aa) / 2 * z + (aa + bb) * (1 / 2))) / (aa - bb)) with z by (field; lra). reflexivity.
  - assert (ML : forall q, map_result (fun p => let x := 1 / 2 * (1 - 0) * fst p + (0 + 1) * (1 / 2) in T <- normTn i x 0 1 ;; T' <- normTn j x 0 1 ;; Ok (snd p * (T * 2 * T'))) q
       = Ok (map (fun p => snd p * (sqrt ((if (i =? 0)%nat then 1 else 2) / (PI * (1 - 0))) * cheb i (fst p) * 2 * (sqrt ((if (j =? 0)%nat then 1 else 2) / (PI * (1 - 0))) * cheb j (fst p)))) q)).
    { induction q as [|p q IH]; [reflexivity|]. cbn [map_result map]. cbv zeta in *. rewrite !normTn_basis by (lra || lia). cbn [bind]. rewrite IH. cbn [bind].
      unfold basis, refz. replace ((2 * (1 / 2 * (1 - 0) * fst p + (0 + 1) * (1 / 2)) - 0 - 1) / (1 - 0)) with (fst p) by field. reflexivity. }
    rewrite ML. cbn [bind]. apply npassert_eq; try apply tol_pos.
    set (P := sqrt ((if (i =? 0)%nat then 1 else 2) / (PI * (1 - 0)))). set (Q := sqrt ((if (j =? 0)%nat then 1 else 2) / (PI * (1 - 0)))).
    change (rsum _) with (qsum (quadrature_chebyshev 9) (fun z => P * cheb i z * 2 * (Q * cheb j z))).
    rewrite (qsum_ext _ _ (fun z => (2 * P * Q) * (cheb i z * cheb j z))) by (intro; ring). rewrite qsum_scal, qsum_TT by lia. unfold identity.
    destruct (Nat.eqb_spec i j) as [<-|]; [|ring]. replace (1 / 2 * (1 - 0) * (2 * P * Q * (if (i =? 0)%nat then PI else PI / 2))) with ((P * Q) * (if (i =? 0)%nat then PI else PI / 2)) by field.
    unfold P, Q. pose proof PI_RGT_0. rewrite sqrt_sqrt by (apply Rlt_le, Rdiv_lt_0_compat; [destruct (i =? 0)%nat; lra|lra]). destruct (i =? 0)%nat; field; lra.
Qed.
Print Assumptions C151_ortho_passes.
(** test_return_sol never enters its loop: it passes whatever the body does *)
Theorem C151_return_sol_checks_nothing : forall body, test_return_sol body = Ok tt.
Proof. intros body. reflexivity. Qed.
Print Assumptions C151_return_sol_checks_nothing.
(** the edge values are checked, and the test passes, exactly when none of the nineteen drawn widths is zero; a zero width is a division by zero *)
Theorem C151_edgevalues : forall w, (forall i, 0 <= w i) ->
  ((forall i, (i < 19)%nat -> 0 < w i) -> test_Tn_edgevalues w = Ok tt) /\ ((exists i, (i < 19)%nat /\ w i = 0) -> test_Tn_edgevalues w = Err ZeroDivision).
Proof.
  intros w Hw.
  assert (W : forall i, sumn (i + 1) w - sumn i w = w i) by (intros i; rewrite Nat.add_1_r; cbn [sumn]; ring).
  assert (B : forall i, 0 < w i -> (let a := sumn i w in let b := sumn (i + 1)%nat w in let h := sqrt (b - a) in
    if Reqb h 0 then Err ZeroDivision else let edgeval := 1 / h / sqrt PI in
    loop (fun j => let B_right := if (j =? 0)%nat then edgeval else sqrt 2 * edgeval in
      let B_left := if (j =? 0)%nat then edgeval else if (j mod 2 =? 0)%nat then B_right else - B_right in
      Ta <- normTn j a a b ;; _ <- npassert (/ 10 ^ 7) 0 B_left Ta ;; Tb <- normTn j b a b ;; npassert (/ 10 ^ 7) 0 B_right Tb) (seq 0 7)) = Ok tt).
  { intros i Hi. cbv zeta. specialize (W i). set (a := sumn i w) in *. set (b := sumn (i + 1) w) in *. assert (Hab : a < b) by lra.
    assert (Hs : 0 < sqrt (b - a)) by (apply sqrt_lt_R0; lra). rewrite Reqb_false by lra. pose proof PI_RGT_0 as HP. assert (HS : 0 < sqrt PI) by (now apply sqrt_lt_R0).
    apply loop_ok. intros j Hj. apply in_seq in Hj. rewrite !normTn_basis by (lra || lia). cbn [bind]. unfold basis, refz.
    replace ((2 * a - a - b) / (b - a)) with (-1) by (field; lra). replace ((2 * b - a - b) / (b - a)) with 1 by (field; lra). rewrite cheb_at_1, cheb_at_m1.
    assert (E1 : forall k, 0 <= k -> sqrt (k / (PI * (b - a))) = sqrt k * (1 / sqrt (b - a) / sqrt PI)).
    { intros k Hk. rewrite sqrt_div_alt by (apply Rmult_lt_0_compat; lra). rewrite sqrt_mult by lra. field. lra. }
    rewrite E1 by (destruct (j =? 0)%nat; lra). set (ev := 1 / sqrt (b - a) / sqrt PI).
    assert (PW : (-1) ^ j = if (j mod 2 =? 0)%nat then 1 else -1).
    { pose proof (Nat.div_mod j 2 ltac:(lia)) as DM. pose proof (Nat.mod_upper_bound j 2 ltac:(lia)). rewrite DM at 1. rewrite pow_add, pow_1_even. destruct (j mod 2)%nat as [|[|]]; try lia; cbn; ring. }
    rewrite npassert_eq; [cbn [bind]; apply npassert_eq; [apply tol_pos|lra|]|apply tol_pos|lra|].
    - destruct (Nat.eqb_spec j 0); [rewrite sqrt_1|]; ring.
    - rewrite PW. destruct (Nat.eqb_spec j 0) as [->|]; [cbn; rewrite sqrt_1; ring|]. destruct (j mod 2 =? 0)%nat; ring. }
  split.
  - intros Hp. apply loop_ok. intros i Hi. apply in_seq in Hi. apply B. apply Hp. lia.
  - intros (i & Hi & E). apply (loop_err _ _ i); [apply in_seq; lia| |].
    + intros k Hk. apply in_seq in Hk. destruct (Rle_lt_or_eq_dec 0 (w k) (Hw k)) as [P|Z]; [left; apply B; auto|right]. cbv zeta. rewrite W, <- Z, sqrt_0, (Reqb_refl 0). reflexivity.
    + cbv zeta. rewrite W, E, sqrt_0, (Reqb_refl 0). reflexivity.
Qed.
Print Assumptions C151_edgevalues.
Theorem C151_chebyshev_passes : forall cg, cg 50%nat = map (fun i => (cos (PI * (2 * INR i + 1) / (2 * 50)), PI / 50)) (seq 0 50) -> test_quadrature_chebyshev cg = Ok tt.
Proof.
  intros cg E. unfold test_quadrature_chebyshev. rewrite E. unfold quadrature_chebyshev. rewrite !map_map. cbn [fst snd].
  assert (C : forall (f g : nat -> R) m, (forall i, f i = g (S i)) -> forall p, In p (combine (map f (seq 0 m)) (map g (seq 1 m))) -> fst p = snd p).
  { intros f g m H. rewrite <- seq_shift, map_map. generalize (seq 0 m). induction l as [|i l IH]; intros p Hp; [destruct Hp|]. cbn [map combine] in Hp. destruct Hp as [<-|Hp]; [apply H|auto]. }
  assert (F : INR 50 = 50) by (rewrite INR_IZR_INZ; reflexivity).
  rewrite loop_ok; [cbn [bind]; apply loop_ok|]; intros p Hp; apply npassert_eq; try apply tol_pos; try lra.
  - apply (C (fun _ => PI / 50) (fun _ => PI / INR 50) 50%nat); [intros; now rewrite F|exact Hp].
  - refine (C _ _ 50%nat _ p Hp). intros i. unfold cheb_node. f_equal. rewrite F, S_INR. field.
Qed.
Print Assumptions C151_chebyshev_passes.
(** test_finite_diff fails for every list of points that ends at 1: the routine differentiates (1 - x^2) u, not u *)
Theorem C151_finite_diff_test_fails : forall xs, (2 <= length xs)%nat -> (forall i, (i < length xs)%nat -> -1 <= nth i xs 0 <= 1) -> nth (length xs - 1) xs 0 = 1 ->
  test_finite_diff xs = Err AssertionError.
Proof.
  intros xs L In1 Last. apply (loop_err _ _ (length xs - 1)%nat); [apply in_seq; lia| |].
  - intros y _. unfold npassert. destruct (Rleb _ _); auto.
  - cbv zeta. destruct (Nat.eqb_spec (length xs - 1) 0); [lia|]. rewrite Nat.eqb_refl. unfold finite_diff_uneven. cbn [negb andb]. cbv zeta. rewrite Last.
    set (y := nth (length xs - 1 - 1) xs 0). assert (Hy : -1 <= y <= 1) by (apply In1; lia). unfold npassert.
    set (res := - (1 - ((1 - y) * (1 / 2) + y) ^ 2) * (1 / 2 * (sin 1 * (1 - 1 ^ 2) + sin y * (1 - y ^ 2))) / (1 - ((1 - y) * (1 / 2) + y))).
    assert (B : -1 <= res <= 1).
    { unfold res. replace (1 - 1 ^ 2) with 0 by ring. rewrite Rmult_0_r, Rplus_0_l. destruct (Req_dec y 1) as [->|N].
      - replace (1 - ((1 - 1) * (1 / 2) + 1)) with 0 by ring. unfold Rdiv. rewrite Rinv_0. lra.
      - replace (- (1 - ((1 - y) * (1 / 2) + y) ^ 2) * (1 / 2 * (sin y * (1 - y ^ 2))) / (1 - ((1 - y) * (1 / 2) + y))) with (- ((1 + (1 + y) / 2) * (1 / 2) * (sin y * (1 - y ^ 2)))) by (field; lra).
        pose proof (SIN_bound y). assert (0 <= 1 - y ^ 2 <= 1) by nra. assert (-1 <= sin y * (1 - y ^ 2) <= 1) by nra. set (t := sin y * (1 - y ^ 2)) in *. clearbody t. nra. }
    assert (S1 : 84 / 100 <= sin 1 <= 85 / 100) by (split; interval).
    rewrite Rleb_false; [reflexivity|]. assert (T6 : 0 < / 10 ^ 6 <= 1 / 1000) by (split; [apply Rinv_0_lt_compat, pow_lt; lra|interval]).
    replace ((1 - 1 ^ 2) * cos 1 - 2 * 1 * sin 1) with (- (2 * sin 1)) by ring. rewrite Rabs_Ropp, (Rabs_pos_eq (2 * sin 1)) by lra.
    rewrite Rabs_pos_eq by lra. nra.
Qed.
Print Assumptions C151_finite_diff_test_fails.
Example C151_example : test_Tn_edgevalues (fun _ => 1) = Ok tt /\ test_Tn_edgevalues (fun i => if (i =? 3)%nat then 0 else 1) = Err ZeroDivision /\ test_finite_diff (-1 :: 0 :: 1 :: nil) = Err AssertionError.
Proof.
  split; [apply C151_edgevalues; intros; lra|]. split; [apply C151_edgevalues; [intros i; destruct (i =? 3)%nat; lra|exists 3%nat; split; [lia|reflexivity]]|].
  apply C151_finite_diff_test_fails; [cbn; lia| |reflexivity]. intros i Hi. cbn in Hi. destruct i as [|[|[|]]]; cbn; lra || lia.
Qed.
