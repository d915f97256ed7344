(** C26-C30, C67, C69: the active right-hand side, the angular differences and the step counter. *)
From Coquelicot Require Import Coquelicot.
From Verif Require Import Py PyLemmas DGModel DGSpec DGProofs DGInt GmatModel MatModel RhsModel RhsProofs.
Open Scope R_scope.

(* ---------------------------------------------------------------- C26 *)
Theorem C26_slab_rhs_is_identity : forall c st t V, fgeom (rflux c) = Slab -> (0 < fN (rflux c))%nat ->
  (exists W, rhs_call c st t V = Ok W /\ forall k, W k = V k) \/
  (forallb (refl_ok c) (seq 0 (N_ang c)) = false /\ rhs_call c st t V = Err AssertionError).
Proof.
  intros c st t V Hg HN. destruct (forallb (refl_ok c) (seq 0 (N_ang c))) eqn:E.
  - left. now apply slab_identity.
  - right. split; auto. now apply slab_error.
Qed.
Print Assumptions C26_slab_rhs_is_identity.
(** whatever else is configured, a solution of the slab equations handed to the integrator is exp(t) times its start *)
Theorem C26_slab_solution_is_exponential : forall c st (y : R -> nat -> R) T, fgeom (rflux c) = Slab -> (0 < fN (rflux c))%nat -> 0 < T ->
  (forall t k, 0 <= t <= T -> exists W, rhs_call c st t (y t) = Ok W /\ is_derive (fun s => y s k) t (W k)) ->
  forall k, y T k = y 0 k * exp T.
Proof.
  intros c st y T Hg HN HT H k. apply (exp_solution (fun s => y s k) T HT). intros t Ht.
  destruct (H t k Ht) as (W & E & D). destruct (C26_slab_rhs_is_identity c st t (y t) Hg HN) as [(W' & E' & K)|(_ & E')].
  - rewrite E in E'. injection E' as <-. now rewrite <- K.
  - rewrite E in E'. discriminate.
Qed.
Print Assumptions C26_slab_solution_is_exponential.
Definition xflux (g : geom) (M N : nat) : flux_cfg := {| fgeom := g; fM := M; fN := N; src4 := false; boundary_source := false;
  uncollided_on := false; ft0 := 1; bon_left := false; bon_right := false; strength := 0; fquad := [] |}.
Definition xrhs (g : geom) (M N Na : nat) (mu w : nat -> R) (ss st : R) (T : tables) : rhs_cfg := {| rflux := xflux g M N;
  N_ang := Na; mus := mu; wsa := w; sigma_s := ss; sigma_t := st; r_edges := fun _ k => INR k; r_Dedges := fun _ _ => 0; tabs := T;
  inv := fun A i j => / A i j; Src := fun _ _ _ _ => 0 |}.
Definition two (a : nat) : R := if (a =? 0)%nat then -1/2 else 1/2.
Example C26_example : forall T st, exists W, rhs_call (xrhs Slab 3 4 2 two two 1 2 T) st 0 (fun k => INR k) = Ok W /\ W 5%nat = 5.
Proof.
  intros T st. destruct (slab_identity (xrhs Slab 3 4 2 two two 1 2 T) st 0 (fun k => INR k)) as (W & E & K); [reflexivity| |cbn; lia|].
  - apply (refl_all_ok _); cbn [xrhs N_ang mus]; intros a Ha.
    + assert (a = 0)%nat as -> by lia. unfold two; cbn [Nat.eqb]; lra.
    + assert (a = 0 \/ a = 1)%nat as [-> | ->] by lia; unfold two; cbn [Nat.eqb Nat.sub]; lra.
  - exists W. split; auto. rewrite K. cbn; lra.
Qed.

(* ---------------------------------------------------------------- C27 *)
Theorem C27_sigma_t_is_ignored : forall c c' st t V,
  rflux c' = rflux c -> N_ang c' = N_ang c -> mus c' = mus c -> wsa c' = wsa c -> sigma_s c' = sigma_s c ->
  r_edges c' = r_edges c -> r_Dedges c' = r_Dedges c -> tabs c' = tabs c -> inv c' = inv c -> Src c' = Src c ->
  rhs_call c' st t V = rhs_call c st t V.
Proof.
  intros [x1 x2 x3 x4 x5 x6 x7 x8 x9 x10 x11] [y1 y2 y3 y4 y5 y6 y7 y8 y9 y10 y11] st t V H1 H2 H3 H4 H5 H6 H7 H8 H9 H10.
  cbn in H1, H2, H3, H4, H5, H6, H7, H8, H9, H10. subst.
  unfold rhs_call. cbv zeta. cbn [rflux].
  match goal with |- bind (rhs_spaces ?c1 _ _ ?W ?n) _ = bind (rhs_spaces ?c2 _ _ _ _) _ =>
    assert (E : forall k, rhs_spaces c1 st t W k = rhs_spaces c2 st t W k) end.
  { induction k as [|k IH]; [reflexivity|]. cbn [rhs_spaces]. rewrite IH. reflexivity. }
  rewrite E. reflexivity.
Qed.
Print Assumptions C27_sigma_t_is_ignored.
(** the loss term: everything else in the cell update is linear in data that vanish for this state *)
Theorem C27_loss_is_minus_state : forall c st t G MPR V s a i,
  sphere_cell c st t G MPR V s a i =
  dotv (fM (rflux c) + 1) (inv c (make_mass_sphere (tabs c) (r_edges c t s) (r_edges c t (s + 1)%nat)))
    (fun k => - snd (make_LU (rflux c) st t (r_edges c t) (r_Dedges c t) (V a) s (mus c a) (V (refl_index c s a) 0%nat)) k
      + mus c a * dotv (fM (rflux c) + 1) (make_L_sphere (tabs c) (r_edges c t s) (r_edges c t (s + 1)%nat)) (V a s) k
      - dotv (fM (rflux c) + 1) (make_J_sphere (tabs c) (r_edges c t s) (r_edges c t (s + 1)%nat)) (fun j => aterm (N_ang c) (mus c) (fun l => V l s j) a) k
      + dotv (fM (rflux c) + 1) G (V a s) k + 1 / 2 * Src c t (r_edges c t s) (r_edges c t (s + 1)%nat) k * sigma_s c
      - dotv (fM (rflux c) + 1) MPR (V a s) k) i
  + sigma_s c * sumn (N_ang c) (fun l => wsa c l * V l s i) - V a s i.
Proof.
  intros. unfold sphere_cell. cbv zeta. fold (aterm (N_ang c) (mus c)).
  assert (P : (if Reqb (sigma_s c) 0 then 0 else make_P (N_ang c) (wsa c) (fun l j => V l s j) i) * sigma_s c = sigma_s c * sumn (N_ang c) (fun l => wsa c l * V l s i)).
  { destruct (Reqb_spec (sigma_s c) 0) as [->|]; [ring|]. unfold make_P. rewrite Rmult_comm. f_equal. apply sumn_ext. intros; ring. }
  rewrite P. reflexivity.
Qed.
Print Assumptions C27_loss_is_minus_state.
Example C27_example : forall T st t V, rhs_call (xrhs Sphere 0 2 2 two two 1 100 T) st t V = rhs_call (xrhs Sphere 0 2 2 two two 1 1 T) st t V.
Proof. intros. now apply C27_sigma_t_is_ignored. Qed.

(* ---------------------------------------------------------------- C28 *)
Theorem C28_midpoint_weights_conserve : forall N x psi, (2 <= N)%nat -> directions N x ->
  sumn N (fun a => awidth N x a * aterm N x psi a) = 0.
Proof. exact redistribution_zero. Qed.
Print Assumptions C28_midpoint_weights_conserve.
Theorem C28_only_midpoint_weights_conserve : forall N x w, (2 <= N)%nat -> directions N x ->
  ((forall psi, sumn N (fun a => w a * aterm N x psi a) = 0) <-> exists k, forall a, (a < N)%nat -> w a = k * awidth N x a).
Proof. exact redistribution_iff. Qed.
Print Assumptions C28_only_midpoint_weights_conserve.
(** the widths are positive and fill [-1,1] *)
Theorem C28_widths : forall N x, (2 <= N)%nat -> directions N x ->
  (forall a, (a < N)%nat -> 0 < awidth N x a) /\ sumn N (awidth N x) = 2.
Proof.
  intros N x HN H. split; [intros; now apply awidth_pos|]. unfold awidth.
  rewrite sumn_telescope. unfold aedge. rewrite Nat.eqb_refl. destruct (Nat.eqb_spec N 0); [lia|]. simpl. lra.
Qed.
Print Assumptions C28_widths.
(** three-point Gauss-Legendre directions with their normalised weights *)
Definition g3 (a : nat) : R := match a with O => - sqrt (3 / 5) | S O => 0 | _ => sqrt (3 / 5) end.
Definition w3 (a : nat) : R := match a with S O => 4 / 9 | _ => 5 / 18 end.
Lemma s35 : 7 / 10 < sqrt (3 / 5) < 4 / 5 /\ sqrt (3 / 5) * sqrt (3 / 5) = 3 / 5.
Proof.
  assert (E : sqrt (3 / 5) * sqrt (3 / 5) = 3 / 5) by (apply sqrt_sqrt; lra). pose proof (sqrt_pos (3 / 5)). split; [split; nra|auto].
Qed.
Lemma g3_dir : directions 3 g3.
Proof.
  pose proof s35 as [[A B] E]. unfold directions. repeat split.
  - intros a Ha. assert (a = 0 \/ a = 1)%nat as [-> | ->] by lia; cbn [g3]; lra.
  - cbn [g3]. lra.
  - cbn [Nat.sub g3]. lra.
Qed.
Theorem C28_gauss_weights_refuted : exists N x w psi, (2 <= N)%nat /\ directions N x /\ sumn N w = 1 /\
  (forall p q r, sumn N (fun a => w a * (p * x a ^ 2 + q * x a + r)) = p / 3 + r) /\
  sumn N (fun a => w a * aterm N x psi a) <> 0.
Proof.
  exists 3%nat, g3, w3, (fun a => match a with O => 1 | _ => 0 end). pose proof s35 as [[A B] E].
  split; [lia|]. split; [apply g3_dir|]. split; [cbn [sumn w3]; lra|]. split.
  - intros p q r. cbn [sumn w3 g3]. transitivity (p * (5 / 9 * (sqrt (3 / 5) * sqrt (3 / 5))) + r); [field|rewrite E; field].
  - unfold aterm, finite_diff_uneven. cbn -[sqrt]. cbn [sumn w3 g3 Nat.eqb Nat.sub Nat.add negb andb]. cbv zeta.
    set (s := sqrt (3 / 5)) in *.
    match goal with |- ?e <> 0 => replace e with (((1 - 3/20) * (1/2)) * (5 / 18 / (1 - s / 2) - 4 / 9 / s)) end.
    2: { replace (3 / 20) with ((s * s) / 4) by (rewrite E; field). field. split; lra. }
    intro K. assert (K2 : 5 / 18 / (1 - s / 2) - 4 / 9 / s = 0) by lra.
    assert (K3 : 5 / 18 * s = 4 / 9 * (1 - s / 2)).
    { replace (5 / 18 * s) with (5 / 18 / (1 - s / 2) * (s * (1 - s / 2))) by (field; lra).
      replace (5 / 18 / (1 - s / 2)) with (4 / 9 / s) by lra. field. lra. }
    lra.
Qed.
Print Assumptions C28_gauss_weights_refuted.
Example C28_example : directions 2 two /\ awidth 2 two 0 = 1 /\ aterm 2 two (fun a => INR a) 0 = 1 / 2.
Proof.
  split; [|split].
  - unfold directions, two. repeat split; cbn [Nat.eqb Nat.sub]; try lra. intros a Ha. assert (a = 0)%nat as -> by lia. cbn [Nat.eqb]. lra.
  - unfold awidth, aedge, two. cbn [Nat.eqb Nat.sub]. field.
  - unfold aterm, finite_diff_uneven, two. cbn. field.
Qed.

(* ---------------------------------------------------------------- C29 *)
Theorem C29_isotropic_field : forall N x a, (2 <= N)%nat -> directions N x -> (a < N)%nat ->
  aterm N x (fun _ => 1) a = - (aedge N x a + aedge N x (S a)) /\
  (aterm N x (fun _ => 1) a = - 2 * x a <-> x a = (aedge N x a + aedge N x (S a)) / 2).
Proof. intros N x a HN H Ha. rewrite isotropic by auto. split; [auto|]. split; intro; lra. Qed.
Print Assumptions C29_isotropic_field.
Theorem C29_exact_only_for_equal_cells : forall N x, (2 <= N)%nat -> directions N x ->
  ((forall a, (a < N)%nat -> aterm N x (fun _ => 1) a = - 2 * x a) <-> (forall a, (a < N)%nat -> x a = -1 + (2 * INR a + 1) / INR N)).
Proof.
  intros N x HN H. rewrite <- (midpoints_only N x HN H). split; intros K a Ha; apply (C29_isotropic_field N x a HN H Ha); now apply K.
Qed.
Print Assumptions C29_exact_only_for_equal_cells.
Theorem C29_gauss_directions_refuted : exists N x a, (2 <= N)%nat /\ directions N x /\ (a < N)%nat /\ aterm N x (fun _ => 1) a <> - 2 * x a.
Proof.
  exists 3%nat, g3, 0%nat. split; [lia|]. split; [apply g3_dir|]. split; [lia|]. rewrite isotropic by (auto using g3_dir; lia).
  unfold aedge. cbn [Nat.eqb Nat.sub g3]. pose proof s35. lra.
Qed.
Print Assumptions C29_gauss_directions_refuted.
Example C29_example : aterm 2 two (fun _ => 1) 0 = - 2 * two 0.
Proof. unfold aterm, finite_diff_uneven, two. cbn. field. Qed.

(* ---------------------------------------------------------------- C30 *)
Theorem C30_interior_exact_for_quadratics : forall x ix p q r, x (ix - 1)%nat < x ix -> x ix < x (ix + 1)%nat ->
  finite_diff_uneven_2 x ix (fun k => p * x k ^ 2 + q * x k + r) false false = 2 * p * x ix + q.
Proof. exact fdu2_quadratic. Qed.
Print Assumptions C30_interior_exact_for_quadratics.
Theorem C30_ends_exact_for_linear : forall x ix p q,
  (x ix < x (ix + 1)%nat -> finite_diff_uneven_2 x ix (fun k => p * x k + q) true false = p) /\
  (x (ix - 1)%nat < x ix -> finite_diff_uneven_2 x ix (fun k => p * x k + q) false true = p).
Proof. exact fdu2_ends. Qed.
Print Assumptions C30_ends_exact_for_linear.
(** not third order: the cubic error is the product of the spacings *)
Theorem C30_cubic_error : forall x ix, x (ix - 1)%nat < x ix -> x ix < x (ix + 1)%nat ->
  finite_diff_uneven_2 x ix (fun k => x k ^ 3) false false - 3 * x ix ^ 2 = (x (ix + 1)%nat - x ix) * (x ix - x (ix - 1)%nat).
Proof. intros x ix H1 H2. unfold finite_diff_uneven_2. cbn [negb andb]. cbv zeta. field. repeat split; lra. Qed.
Print Assumptions C30_cubic_error.
(** angular_deriv weighs the middle and left values the wrong way round: for linear (1 - mu^2) V it returns the slope
    only when the left gap is sqrt 2 times the right gap *)
Theorem C30_angular_deriv_exact_iff : forall N mus V p q a, (0 < a < N - 1)%nat ->
  mus (a - 1)%nat < mus a -> mus a < mus (a + 1)%nat -> p <> 0 ->
  (forall k, (1 - mus k ^ 2) * V k = p * mus k + q) ->
  (angular_deriv N a mus V = p <-> (mus a - mus (a - 1)%nat) ^ 2 = 2 * (mus (a + 1)%nat - mus a) ^ 2).
Proof.
  intros N mu V p q a Ha H1 H2 Hp HV. unfold angular_deriv.
  destruct (Nat.eqb_spec a 0); [lia|]. destruct (Nat.eqb_spec a (N - 1)); [lia|]. cbn [negb andb]. cbv zeta. rewrite !HV.
  set (x := mu a) in *. set (y := mu (a - 1)%nat) in *. set (z := mu (a + 1)%nat) in *.
  match goal with |- ?e = p <-> _ => replace e with (p * (((x - y) * (z - y) - (z - x) ^ 2) / ((z - x) * (z - y)))) by (field; repeat split; lra) end.
  assert (P : 0 < (z - x) * (z - y)) by nra. split; intro K.
  - assert (K2 : ((x - y) * (z - y) - (z - x) ^ 2) / ((z - x) * (z - y)) = 1) by (apply (Rmult_eq_reg_l p); lra).
    assert (K3 : (x - y) * (z - y) - (z - x) ^ 2 = (z - x) * (z - y)) by (apply (Rmult_eq_reg_r (/ ((z - x) * (z - y)))); [|apply Rinv_neq_0_compat; lra]; rewrite Rinv_r by lra; exact K2).
    nra.
  - replace ((x - y) * (z - y) - (z - x) ^ 2) with ((z - x) * (z - y)) by nra. field. repeat split; nra.
Qed.
Print Assumptions C30_angular_deriv_exact_iff.
(** the equally spaced interior case: half the slope *)
Theorem C30_angular_deriv_equal_spacing_half : forall N mus V p q a, (0 < a < N - 1)%nat ->
  mus (a - 1)%nat < mus a -> mus (a + 1)%nat - mus a = mus a - mus (a - 1)%nat ->
  (forall k, (1 - mus k ^ 2) * V k = p * mus k + q) -> angular_deriv N a mus V = p / 2.
Proof.
  intros N mu V p q a Ha H1 H2 HV. unfold angular_deriv.
  destruct (Nat.eqb_spec a 0); [lia|]. destruct (Nat.eqb_spec a (N - 1)); [lia|]. cbn [negb andb]. cbv zeta. rewrite !HV.
  replace (mu (a + 1)%nat) with (mu a + (mu a - mu (a - 1)%nat)) by lra. field. repeat split; lra.
Qed.
Print Assumptions C30_angular_deriv_equal_spacing_half.
Theorem C30_angular_deriv_linear_refuted : exists N mus V p q a, (0 < a < N - 1)%nat /\ directions N mus /\
  (forall k, (k < N)%nat -> (1 - mus k ^ 2) * V k = p * mus k + q) /\ angular_deriv N a mus V <> p.
Proof.
  exists 3%nat, (fun k => INR k / 2 - 1 / 2), (fun k => match k with O => - (2 / 3) | S O => 0 | _ => 2 / 3 end), 1, 0, 1%nat.
  split; [lia|]. split; [|split].
  - unfold directions. repeat split; [|simpl; lra|simpl; lra]. intros a _. rewrite S_INR. lra.
  - intros k Hk. assert (k = 0 \/ k = 1 \/ k = 2)%nat as [-> | [-> | ->]] by lia; simpl; field.
  - unfold angular_deriv. cbn. lra.
Qed.
Print Assumptions C30_angular_deriv_linear_refuted.
Example C30_example : finite_diff_uneven_2 (fun k => INR k ^ 2) 2 (fun k => (INR k ^ 2) ^ 2) false false = 8 /\
  angular_deriv 3 1 (fun k => INR k / 2 - 1 / 2) (fun k => match k with S O => 1 | _ => 4 / 3 end) = 0.
Proof. split; [unfold finite_diff_uneven_2|unfold angular_deriv]; cbn; field. Qed.

(* ---------------------------------------------------------------- C67 *)
Definition symmetric_directions (N : nat) (x : nat -> R) : Prop :=
  (forall a, (S a < N)%nat -> x a < x (S a)) /\ (forall a, (a < N)%nat -> x (N - 1 - a)%nat = - x a).
Theorem C67_checks_pass : forall c, symmetric_directions (N_ang c) (mus c) -> forallb (refl_ok c) (seq 0 (N_ang c)) = true.
Proof. intros c [H1 H2]. now apply refl_all_ok. Qed.
Print Assumptions C67_checks_pass.
Theorem C67_outgoing_direction_mirrored : forall c a, symmetric_directions (N_ang c) (mus c) -> (a < N_ang c)%nat -> 0 < mus c a ->
  (refl_index c 0 a < N_ang c)%nat /\ mus c (refl_index c 0 a) = - mus c a /\
  (N_ang c - 1 - refl_index c 0 a = a)%nat /\
  forall b, (b < N_ang c)%nat -> mus c b = - mus c a -> b = refl_index c 0 a.
Proof.
  intros c a [H1 H2] Ha Hp.
  assert (MO : forall p q, (p < q)%nat -> (q < N_ang c)%nat -> mus c p < mus c q).
  { intros p q Hpq. induction q as [|q IH]; [lia|]. intros Hq. destruct (Nat.eq_dec p q) as [->|]; [auto|].
    specialize (IH ltac:(lia) ltac:(lia)). specialize (H1 q Hq). lra. }
  assert (HA : (N_ang c <= 2 * a)%nat).
  { destruct (le_lt_dec (N_ang c) (2 * a)) as [|L]; auto. exfalso.
    destruct (Nat.eq_dec a (N_ang c - 1 - a)) as [E|E]; [pose proof (H2 a Ha) as K; rewrite <- E in K; lra|].
    pose proof (MO a (N_ang c - 1 - a)%nat ltac:(lia) ltac:(lia)). rewrite H2 in H by auto. lra. }
  assert (RI : refl_index c 0 a = (N_ang c - 1 - a)%nat).
  { unfold refl_index. cbn [Nat.eqb]. unfold Rgeb. destruct (Rleb_spec (INR (N_ang c) / 2) (INR a)) as [L|L]; [lia|].
    exfalso. apply le_INR in HA. rewrite mult_INR in HA. simpl (INR 2) in HA. lra. }
  rewrite RI. split; [lia|]. split; [now apply H2|]. split; [lia|].
  intros b Hb E. rewrite <- (H2 a Ha) in E. destruct (lt_eq_lt_dec b (N_ang c - 1 - a)) as [[L|L]|L]; auto;
    apply MO in L; try lia; lra.
Qed.
Print Assumptions C67_outgoing_direction_mirrored.
(** a set that is not symmetric is rejected, up to the tolerance *)
Theorem C67_asymmetric_rejected : forall c st t V a, (0 < fN (rflux c))%nat -> (a < N_ang c)%nat -> (N_ang c <= 2 * a)%nat ->
  mus c a <= 0 \/ / 10 ^ 10 < Rabs (mus c (N_ang c - 1 - a)%nat + mus c a) -> forall W, rhs_call c st t V <> Ok W.
Proof.
  intros c st t V a HN Ha Hh Hbad W.
  assert (F : forallb (refl_ok c) (seq 0 (N_ang c)) = false).
  { apply not_true_iff_false. intro E. rewrite forallb_forall in E. specialize (E a). rewrite in_seq in E. specialize (E ltac:(lia)). unfold refl_ok, Rgeb, Rgtb in E.
    destruct (Rleb_spec (INR (N_ang c) / 2) (INR a)) as [L|L].
    - apply andb_prop in E as [E1 E2]. destruct (Rltb_spec 0 (mus c a)); [|discriminate].
      destruct Hbad as [B|B]; [lra|]. match type of E2 with Rleb ?u ?v = true => destruct (Rleb_spec u v) as [K|K]; [|discriminate] end.
      replace (N_ang c - a - 1)%nat with (N_ang c - 1 - a)%nat in K by lia. unfold Rminus in K. rewrite Ropp_involutive in K. lra.
    - apply le_INR in Hh. rewrite mult_INR in Hh. simpl (INR 2) in Hh. lra. }
  assert (S0 : forall st' V', exists e, rhs_space c st' t V' 0 = Err e).
  { intros. unfold rhs_space. rewrite F. cbn [Nat.eqb andb negb]. destruct (fgeom (rflux c)); [eauto|].
    destruct (make_G_sphere _ _ _ _ _) as [|e]; cbn [bind]; [|eauto]. destruct (make_MPRIME _ _ _ _ _); cbn [bind]; eauto. }
  assert (SK : forall k V', exists e, rhs_spaces c st t V' (S k) = Err e).
  { intros k V'. induction k as [|k (e & IH)].
    - cbn [rhs_spaces bind]. destruct (S0 (fun a => st a 0%nat) V') as (e & ->). eexists. reflexivity.
    - remember (S k) as m. cbn [rhs_spaces]. rewrite IH. eexists. reflexivity. }
  unfold rhs_call. cbv zeta. destruct (fN (rflux c)) as [|k] eqn:EN; [lia|]. destruct (SK k (reshape3 (S k) (fM (rflux c) + 1) V)) as (e & ->). discriminate.
Qed.
Print Assumptions C67_asymmetric_rejected.
Example C67_example : symmetric_directions 3 g3 /\ (forall T, refl_index (xrhs Sphere 0 2 3 g3 w3 1 1 T) 0 2 = 0%nat).
Proof.
  pose proof s35 as [[A B] E]. split; [split|].
  - apply g3_dir.
  - intros a Ha. assert (a = 0 \/ a = 1 \/ a = 2)%nat as [-> | [-> | ->]] by lia; cbn [Nat.sub g3]; lra.
  - intro T. unfold refl_index, xrhs. cbn [Nat.eqb N_ang]. destruct (Rgeb _ _); reflexivity.
Qed.

(* ---------------------------------------------------------------- C69 *)
Theorem C69_counter_cycles : forall ts k, counter (tafter ts k) = (k mod 1001)%nat /\ told (tafter ts k) = tprev ts k.
Proof. intros. destruct (tafter_spec ts k) as (A & B & _). auto. Qed.
Print Assumptions C69_counter_cycles.
Theorem C69_report : forall ts k,
  treport ts k = if (k mod 1001 =? 1000)%nat then Some (sumn 1001 (fun j => Rabs (tprev ts (k - 1000 + j) - ts (k - 1000 + j)%nat)) / 1000) else None.
Proof. exact treport_spec. Qed.
Print Assumptions C69_report.
(** for increasing times the printed value is the elapsed time over 1000 although 1001 steps were taken *)
Theorem C69_average_is_off : forall ts m, (forall k, ts k <= ts (S k)) -> 0 <= ts 0%nat ->
  treport ts (1001 * m + 1000) = Some ((ts (1001 * m + 1000)%nat - tprev ts (1001 * m)) / 1000).
Proof.
  intros ts m Hi H0. rewrite treport_spec.
  replace ((1001 * m + 1000) mod 1001)%nat with 1000%nat.
  2: { rewrite Nat.add_comm, (Nat.mul_comm 1001 m), Nat.mod_add, Nat.mod_small by lia. reflexivity. }
  rewrite Nat.eqb_refl. do 2 f_equal. replace (1001 * m + 1000 - 1000)%nat with (1001 * m)%nat by lia.
  generalize (1001 * m)%nat as b. intro b.
  rewrite (sumn_ext _ _ (fun j => tprev ts (b + S j)%nat - tprev ts (b + j)%nat)).
  - rewrite (sumn_telescope _ (fun j => tprev ts (b + j)%nat)). rewrite Nat.add_0_r. replace (b + 1001)%nat with (S (b + 1000)) by lia. reflexivity.
  - intros j Hj. unfold tinc. replace (tprev ts (b + S j)) with (ts (b + j)%nat) by (replace (b + S j)%nat with (S (b + j)) by lia; reflexivity).
    assert (tprev ts (b + j) <= ts (b + j)%nat). { destruct (b + j)%nat; cbn [tprev]; auto. }
    rewrite Rabs_left1 by lra. ring.
Qed.
Print Assumptions C69_average_is_off.
Example C69_example : treport (fun k => INR k) 5 = None /\ treport (fun k => INR k) 1000 = Some 1.
Proof.
  split; [rewrite treport_spec; reflexivity|]. change 1000%nat with (1001 * 0 + 1000)%nat at 1. rewrite C69_average_is_off.
  - f_equal. change (1001 * 0)%nat with 0%nat. cbn [Nat.add tprev]. rewrite (INR_IZR_INZ 1000). change (Z.of_nat 1000) with 1000%Z. lra.
  - intro k. rewrite S_INR. lra.
  - simpl. lra.
Qed.
