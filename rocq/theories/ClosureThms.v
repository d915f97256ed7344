(** C47 - C50, C85 - C89: opacity moments, absorption, scattering, emission. *)
From Coquelicot Require Import Coquelicot.
From Verif Require Import Py PyLemmas Calc Legendre Cheb DGModel DGSpec DGProofs DGInt FuncModel FuncProofs FuncThms ClosureModel ClosureProofs.
Open Scope R_scope.

(** a rule used in the examples *)
Definition simpson_rule : list (R * R) := (-1, 1 / 3) :: (0, 4 / 3) :: (1, 1 / 3) :: nil.
Lemma simpson_exact : exact_to simpson_rule 3.
Proof. destruct (C77_example 0) as (q & E & X). rewrite simpson in E. injection E as <-. exact X. Qed.
Definition noncon : sfuncs := {| f_constant := false; f_gaussian := false; f_siewert1 := false; f_siewert2 := false; f_sedov := true |}.
Definition con : sfuncs := {| f_constant := true; f_gaussian := false; f_siewert1 := false; f_siewert2 := false; f_sedov := false |}.
Definition ocfg0 (f : sfuncs) : ocfg := {| o_t := 2; o_s := 1; oM := 1; oMs := 1; oN := 2; oquad := simpson_rule; ofun := f; o_v := 1 |}.

Lemma map_result_total {A B} (f : A -> result B) : (forall p, exists v, f p = Ok v) -> forall q, exists v, map_result f q = Ok v.
Proof. intros H q. induction q as [|p q [v IH]]; [eexists; reflexivity|]. cbn [map_result]. destruct (H p) as [w E]. rewrite E, IH. eexists. reflexivity. Qed.

(* ---------------------------------------------------------------- C47 *)
(** a sequence of evaluations (edges, state, cell) *)
Definition evaluations (c : ocfg) (s : ostate) (l : list ((nat -> R) * (nat -> R) * nat)) : ostate :=
  fold_left (fun s q => let '(edges, u, space) := q in make_vectors c s edges u space) l s.
(** the absorption vector that one evaluation should produce: sigma_t times the projection of opacity times state *)
Definition absorption (c : ocfg) (cs : nat -> nat -> R) (q : (nat -> R) * (nat -> R) * nat) (i : nat) : R :=
  let '(edges, u, space) := q in let a := edges space in let b := edges (space + 1)%nat in
  o_t c * RInt (fun x => basis Slab i x a b * (field Slab (oMs c) (cs space) a b x * field Slab (oM c) u a b x)) a b.
Lemma vectors_keep_cs c s edges u space : so_cs (make_vectors c s edges u space) = so_cs s. Proof. reflexivity. Qed.
Lemma one_step c s edges u space i : f_constant (ofun c) = false -> (i <= oM c)%nat -> exact_to (oquad c) (2 * oM c + oMs c) ->
  edges space < edges (space + 1)%nat -> so_VV (make_vectors c s edges u space) i = so_VV s i + absorption c (so_cs s) (edges, u, space) i.
Proof.
  intros F Hi HE He. rewrite vectors_step by auto. f_equal. unfold absorption. symmetry.
  rewrite (int_uniq _ _ _ _ (galerkin c (oM c) (oMs c) (2 * oM c + oMs c) i _ _ (so_cs s space) u He HE ltac:(lia) Hi)).
  rewrite <- sumn_scal. apply sumn_ext. intros j _. rewrite <- sumn_scal. apply sumn_ext. intros k _. ring.
Qed.
Theorem C47_absorption_accumulates : forall c l s i, f_constant (ofun c) = false -> (i <= oM c)%nat ->
  exact_to (oquad c) (2 * oM c + oMs c) -> (forall edges u space, In (edges, u, space) l -> edges space < edges (space + 1)%nat) ->
  so_VV (evaluations c s l) i = so_VV s i + rsum (map (fun q => absorption c (so_cs s) q i) l).
Proof.
  intros c l. induction l as [|[[edges u] space] l IH]; intros s i F Hi HE Hl; [simpl; ring|].
  unfold evaluations in *. cbn [fold_left]. rewrite IH; auto.
  - rewrite one_step; auto; [|apply (Hl _ u); now left]. rewrite vectors_keep_cs. cbn [map rsum fold_right]. unfold rsum. ring.
  - intros e u' s' K. apply (Hl e u' s'). now right.
Qed.
Print Assumptions C47_absorption_accumulates.
(** the same evaluation n times (any rule): n times the contribution *)
Theorem C47_repeated_evaluation : forall c s edges u space n i, f_constant (ofun c) = false -> (i <= oM c)%nat ->
  so_VV (evaluations c s (repeat (edges, u, space) n)) i = so_VV s i + INR n * (so_VV (make_vectors c s edges u space) i - so_VV s i).
Proof.
  intros c s edges u space n i F Hi. revert s. induction n as [|n IH]; intro s; [simpl; ring|].
  unfold evaluations in *. cbn [repeat fold_left]. rewrite IH, !vectors_step by auto. rewrite vectors_keep_cs. rewrite S_INR. ring.
Qed.
Print Assumptions C47_repeated_evaluation.
Theorem C47_constant_opacity_recomputed : forall c s l edges u space i, f_constant (ofun c) = true ->
  so_VV (evaluations c s (l ++ (edges, u, space) :: nil)) i = o_t c * u i.
Proof. intros c s l edges u space i F. unfold evaluations. rewrite fold_left_app. cbn [fold_left]. unfold make_vectors. rewrite F. cbn [so_VV]. ring. Qed.
Print Assumptions C47_constant_opacity_recomputed.
Theorem C47_evaluation_is_a_function_of_the_state_refuted : exists c s edges u space, edges space < edges (space + 1)%nat /\
  exact_to (oquad c) (2 * oM c + oMs c) /\ so_VV s = (fun _ => 0) /\
  so_VV (evaluations c s ((edges, u, space) :: (edges, u, space) :: nil)) 0%nat = 2 * so_VV (evaluations c s ((edges, u, space) :: nil)) 0%nat /\
  so_VV (evaluations c s ((edges, u, space) :: nil)) 0%nat <> 0.
Proof.
  exists (ocfg0 noncon), {| so_edges := INR; so_cs := fun _ k => if (k =? 0)%nat then 1 else 0; so_VV := fun _ => 0 |}, INR, (fun j => if (j =? 0)%nat then 1 else 0), 0%nat.
  split; [simpl; lra|]. split; [exact simpson_exact|]. split; [reflexivity|].
  pose proof (C47_repeated_evaluation (ocfg0 noncon) {| so_edges := INR; so_cs := fun _ k => if (k =? 0)%nat then 1 else 0; so_VV := fun _ => 0 |} INR (fun j => if (j =? 0)%nat then 1 else 0) 0 2 0 eq_refl ltac:(simpl; lia)) as K.
  cbn [repeat] in K. rewrite K. unfold evaluations. cbn [fold_left]. split; [simpl (INR 2); simpl (so_VV _ _); ring|].
  rewrite vectors_step by (reflexivity || (simpl; lia)). unfold ocfg0. cbn [so_VV so_cs oM oMs o_t].
  cbn [Nat.add sumn Nat.eqb]. change (INR 1 - INR 0) with (1 - 0). replace (1 - 0) with 1 by ring. rewrite sqrt_1.
  unfold AAA, AAA_entry, both_even_or_odd, qsum. cbn [oquad simpson_rule map rsum fold_right fst snd Nat.add Nat.leb Nat.modulo Nat.divmod Nat.eqb Nat.sub andb negb]. cbv zeta. unfold Pn. rewrite !leg_0. simpl (INR 0).
  replace (2 * 0 + 1) with 1 by ring. rewrite sqrt_1. lra.
Qed.
Print Assumptions C47_evaluation_is_a_function_of_the_state_refuted.
Example C47_example : so_VV (evaluations (ocfg0 con) oinit ((INR, (fun _ => 3), 0%nat) :: (INR, (fun _ => 7), 1%nat) :: nil)) 1%nat = 14.
Proof.
  pose proof (C47_constant_opacity_recomputed (ocfg0 con) oinit ((INR, (fun _ => 3), 0%nat) :: nil) INR (fun _ => 7) 1 1 eq_refl) as K.
  cbn [app] in K. rewrite K. simpl. ring.
Qed.

(* ---------------------------------------------------------------- C48 *)
Theorem C48_refreshed_iff_the_cell_moved : forall c s edges t s', sigma_moments c s edges t = Ok s' ->
  so_edges s' = edges /\ so_VV s' = so_VV s /\ forall i j, (i < oN c)%nat -> (j <= oMs c)%nat ->
    ((edges i <> so_edges s i \/ edges (i + 1)%nat <> so_edges s (i + 1)%nat) -> integrate_moments c (edges i) (edges (i + 1)%nat) j t = Ok (so_cs s' i j)) /\
    (edges i = so_edges s i -> edges (i + 1)%nat = so_edges s (i + 1)%nat -> so_cs s' i j = so_cs s i j).
Proof.
  intros c s edges t s' H. unfold sigma_moments in H. destruct (moments_cells c s edges t (oN c)) as [cs|e] eqn:E; cbn [bind] in H; [|discriminate].
  injection H as <-. cbn [so_edges so_VV so_cs]. split; [auto|]. split; [auto|]. intros i j Hi Hj.
  pose proof (changed_spec (so_edges s) edges i) as C.
  destruct (moments_cells_spec _ _ _ _ _ _ E i j) as [[A B]|(A & B & D & F)].
  - split; [intro K|now auto]. apply C in K. destruct B as [B|[B|B]]; [lia|lia|congruence].
  - split; [auto|]. intros K1 K2. apply C in D. destruct D; contradiction.
Qed.
Print Assumptions C48_refreshed_iff_the_cell_moved.
(** first call on a mesh, then any number of calls at later times without motion: the moments stay those of the first time *)
Theorem C48_static_mesh_keeps_first_moments : forall c edges t ts s, (forall i, (i < oN c)%nat -> edges i < edges (i + 1)%nat) ->
  static_calls c oinit edges (t :: ts) = Ok s ->
  forall i j, (i < oN c)%nat -> (j <= oMs c)%nat -> integrate_moments c (edges i) (edges (i + 1)%nat) j t = Ok (so_cs s i j).
Proof.
  intros c edges t ts s Inc H i j Hi Hj. cbn [static_calls] in H. destruct (sigma_moments c oinit edges t) as [s1|e] eqn:E; cbn [bind] in H; [|discriminate].
  destruct (C48_refreshed_iff_the_cell_moved _ _ _ _ _ E) as (A & _ & B). rewrite static_same in H by auto. injection H as <-.
  apply B; auto. cbn [oinit so_edges]. specialize (Inc i Hi). destruct (Req_dec (edges i) 0); [right; lra|left; auto].
Qed.
Print Assumptions C48_static_mesh_keeps_first_moments.
Theorem C48_first_call_succeeds : forall c edges t, (f_constant (ofun c) || f_gaussian (ofun c) || f_siewert1 (ofun c) || f_siewert2 (ofun c) || f_sedov (ofun c))%bool = true ->
  forall s, exists s', sigma_moments c s edges t = Ok s'.
Proof.
  intros c edges t F s. unfold sigma_moments.
  assert (M : forall a b j, exists v, integrate_moments c a b j t = Ok v).
  { intros a b j. unfold integrate_moments.
    match goal with |- exists v, bind (map_result ?f ?l) _ = _ => destruct (fun H => map_result_total f H l) as [v E] end.
    - intros p. cbv zeta. destruct (sigma_ok c ((b - a) / 2 * fst p + (a + b) / 2) t F) as (w & E & _). rewrite E. eexists. reflexivity.
    - rewrite E. eexists. reflexivity. }
  assert (N : forall n, exists cs, moments_cells c s edges t n = Ok cs).
  { induction n as [|n [cs IH]]; [eexists; reflexivity|]. cbn [moments_cells]. rewrite IH. cbn [bind]. destruct (cell_changed _ _ _); [|eexists; reflexivity].
    assert (L : forall l, exists r, map_result (fun j => integrate_moments c (edges n) (edges (n + 1)%nat) j t) l = Ok r).
    { induction l as [|j l [r IHl]]; [eexists; reflexivity|]. cbn [map_result]. destruct (M (edges n) (edges (n + 1)%nat) j) as [v E]. rewrite E, IHl. eexists. reflexivity. }
    destruct (L (seq 0 (oMs c + 1))) as [r E]. rewrite E. eexists. reflexivity. }
  destruct (N (oN c)) as [cs E]. rewrite E. eexists. reflexivity.
Qed.
Print Assumptions C48_first_call_succeeds.
(** the moving shock opacity on a static mesh: the stored moment is not the one of the current time *)
Definition midpoint_rule : list (R * R) := (0, 2) :: nil.
Definition ocfg1 : ocfg := {| o_t := 1; o_s := 1; oM := 0; oMs := 0; oN := 1; oquad := midpoint_rule; ofun := noncon; o_v := 1 |}.
Lemma sedov_left t : integrate_moments ocfg1 (-1 / 2) (1 / 2) 0 t = Ok (exp (- (- 1 - t) ^ 2 / 4) * heaviside t + 2 / 10 * heaviside (- t)).
Proof.
  unfold integrate_moments, ocfg1. cbn [oquad midpoint_rule map_result fst snd ofun o_v]. unfold sigma_function, xi2. cbn [ofun noncon f_constant f_gaussian f_siewert1 f_siewert2 f_sedov bind o_v].
  rewrite normPn_basis by lra. rewrite basis0 by lra. replace (1 / 2 - -1 / 2) with 1 by lra. rewrite sqrt_1. cbn [rsum fold_right].
  replace (- (1 / 2 * 0 + (-1 / 2 + 1 / 2) / 2) - 1 - 1 * t) with (-1 - t) by field. replace (- (-1 - t) - 1) with t by ring. replace (-1 - t + 1) with (- t) by ring.
  replace (2 ^ 2) with 4 by ring. f_equal. field.
Qed.
Theorem C48_moments_follow_a_moving_opacity_refuted : exists c edges t1 t2 s m1 m2, (forall i, (i < oN c)%nat -> edges i < edges (i + 1)%nat) /\
  static_calls c oinit edges (t1 :: t2 :: nil) = Ok s /\ so_cs s 0%nat 0%nat = m1 /\ integrate_moments c (edges 0%nat) (edges 1%nat) 0 t2 = Ok m2 /\ m1 <> m2.
Proof.
  set (edges := fun i => INR i - 1 / 2).
  destruct (C48_first_call_succeeds ocfg1 edges (-1) eq_refl oinit) as [s1 E1].
  assert (S : static_calls ocfg1 oinit edges (-1 :: 1 :: nil) = Ok s1).
  { cbn [static_calls]. rewrite E1. cbn [bind]. destruct (C48_refreshed_iff_the_cell_moved _ _ _ _ _ E1) as (A & _).
    apply (static_same ocfg1 edges (1 :: nil) s1 A). }
  exists ocfg1, edges, (-1), 1, s1, (so_cs s1 0%nat 0%nat), (exp (- (- 1 - 1) ^ 2 / 4)).
  assert (Inc : forall i, (i < oN ocfg1)%nat -> edges i < edges (i + 1)%nat) by (intros i _; unfold edges; rewrite plus_INR; simpl (INR 1); lra).
  split; [exact Inc|]. split; [exact S|]. split; [reflexivity|].
  assert (E0 : edges 0%nat = -1 / 2) by (unfold edges; simpl; lra). assert (E2 : edges 1%nat = 1 / 2) by (unfold edges; simpl; lra).
  rewrite E0, E2, sedov_left. unfold heaviside. rewrite (Rltb_false 1 0), (Rltb_true (Ropp 1) 0) by lra. split; [f_equal; ring|].
  pose proof (C48_static_mesh_keeps_first_moments ocfg1 edges (-1) (1 :: nil) s1 Inc S 0 0 ltac:(simpl; lia) ltac:(simpl; lia)) as K.
  change (0 + 1)%nat with 1%nat in K. rewrite E0, E2, sedov_left in K. injection K as <-. unfold heaviside. rewrite (Rltb_true (-1) 0), (Rltb_false (Ropp (-1)) 0) by lra.
  intro Q. assert (exp (-1) = 1 / 5) by (replace (-1) with (- (-1 - 1) ^ 2 / 4) by field; lra).
  pose proof (exp_ineq1 (-1 / 2) ltac:(lra)) as X. assert (Y : exp (-1) = exp (-1 / 2) * exp (-1 / 2)) by (rewrite <- exp_plus; f_equal; lra). nra.
Qed.
Print Assumptions C48_moments_follow_a_moving_opacity_refuted.

(* ---------------------------------------------------------------- C49 *)
Theorem C49_isotropic_state_reproduced : forall c N ws s u v space xL xR i, f_constant (ofun c) = true -> sumn N ws = 1 ->
  (forall l, (l < N)%nat -> u l i = v) ->
  scalar_flux_term c Slab N ws s u space xL xR i = o_s c * v /\ scalar_flux_term c Sphere N ws s u space xL xR i = v.
Proof.
  intros c N ws s u v space xL xR i F W U. unfold scalar_flux_term. rewrite F.
  assert (P : make_P N ws u i = v).
  { unfold make_P. rewrite (sumn_ext _ _ (fun l => v * ws l)); [rewrite sumn_scal, W; ring|]. intros l Hl. now rewrite U. }
  rewrite P. auto.
Qed.
Print Assumptions C49_isotropic_state_reproduced.
(** particles scattered out of all directions (sigma_s u) equal particles scattered in *)
Theorem C49_scattering_conserves : forall c N ws s u space xL xR i, f_constant (ofun c) = true -> sumn N ws = 1 ->
  sumn N (fun l => ws l * scalar_flux_term c Slab N ws s u space xL xR i) = sumn N (fun l => ws l * (o_s c * u l i)).
Proof.
  intros c N ws s u space xL xR i F W. rewrite sumn_scal_r, W. unfold scalar_flux_term, make_P. rewrite F.
  rewrite (sumn_ext N (fun l => ws l * (o_s c * u l i)) (fun l => o_s c * (u l i * ws l))) by (intros; ring). rewrite sumn_scal. ring.
Qed.
Print Assumptions C49_scattering_conserves.
Theorem C49_linear : forall c g N ws s u v p q space xL xR i,
  scalar_flux_term c g N ws s (fun l j => p * u l j + q * v l j) space xL xR i =
  p * scalar_flux_term c g N ws s u space xL xR i + q * scalar_flux_term c g N ws s v space xL xR i.
Proof.
  intros. unfold scalar_flux_term. destruct (f_constant (ofun c)).
  - assert (P : make_P N ws (fun l j => p * u l j + q * v l j) i = p * make_P N ws u i + q * make_P N ws v i).
    { unfold make_P. rewrite <- !sumn_scal, <- sumn_plus. apply sumn_ext. intros; ring. }
    rewrite P. destruct g; ring.
  - unfold Rdiv. rewrite <- !Rmult_assoc, <- Rmult_plus_distr_r. f_equal.
    rewrite <- !sumn_scal, <- sumn_plus. apply sumn_ext. intros l _.
    rewrite <- !sumn_scal, <- sumn_plus. apply sumn_ext. intros j _.
    rewrite <- !sumn_scal, <- sumn_plus. apply sumn_ext. intros k _. ring.
Qed.
Print Assumptions C49_linear.
Theorem C49_weights_are_normalised : forall N ws, sumn N ws <> 0 ->
  sumn N (normalise_ws N ws) = 1 /\ forall l m, normalise_ws N ws l * ws m = normalise_ws N ws m * ws l.
Proof.
  intros N ws H. split; [|intros; unfold normalise_ws; field; auto]. unfold normalise_ws, Rdiv. rewrite sumn_scal_r. field. auto.
Qed.
Print Assumptions C49_weights_are_normalised.
Example C49_example : scalar_flux_term (ocfg0 con) Slab 2 (normalise_ws 2 (fun _ => 1)) oinit (fun _ _ => 7) 0 0 1 0 = 7.
Proof.
  destruct (C49_isotropic_state_reproduced (ocfg0 con) 2 (normalise_ws 2 (fun _ => 1)) oinit (fun _ _ => 7) 7 0 0 1 0 eq_refl) as [A _]; auto.
  - apply C49_weights_are_normalised. simpl. lra.
  - rewrite A. simpl. ring.
Qed.

(* ---------------------------------------------------------------- C50 *)
Theorem C50_emission_is_the_energy : forall c e, temp0 c = true -> T_of_e c e = Ok e.
Proof. intros c e H. unfold T_of_e. rewrite H. pose proof (emission_id e) as E. destruct (su_olson_source e). now rewrite E. Qed.
Print Assumptions C50_emission_is_the_energy.
(** the temperature itself: a T^4 = |e|, T >= 0, the factor is the sign of e *)
Theorem C50_temperature : forall e, let '(T, fudge) := su_olson_source e in arad * T ^ 4 = Rabs e /\ 0 <= T /\ (e < 0 -> fudge = -1) /\ (0 <= e -> fudge = 1).
Proof.
  intro e. unfold su_olson_source. assert (A : 0 < arad) by (unfold arad; lra). repeat split.
  - rewrite quarter_pow by apply Rabs_pos. unfold alpha. replace (4 * e / (4 * arad)) with (/ arad * e) by (field; lra).
    rewrite Rabs_mult, (Rabs_right (/ arad)) by (apply Rle_ge; left; now apply Rinv_0_lt_compat). field. lra.
  - unfold power_quarter. destruct (Reqb_spec (Rabs (4 * e / alpha)) 0); [lra|left; apply exp_pos].
  - intro H. now rewrite Rltb_true.
  - intro H. now rewrite Rltb_false by lra.
Qed.
Print Assumptions C50_temperature.
(** constant heat capacity: fourth power, fails without heat capacity; no option selected: assertion *)
Theorem C50_other_closures : forall c e, temp0 c = false ->
  (temp1 c = true -> cv0_in c <> 0 -> T_of_e c e = Ok ((arad * e / cv0_in c) ^ 4)) /\
  (temp1 c = true -> cv0_in c = 0 -> T_of_e c e = Err NaN) /\ (temp1 c = false -> T_of_e c e = Err AssertionError).
Proof.
  intros c e H. unfold T_of_e, tcv0. rewrite H. assert (A : 0 < arad) by (unfold arad; lra). repeat split; intro H1; rewrite H1; auto.
  - intro N. destruct (Reqb_spec (cv0_in c / arad) 0) as [K|K].
    + exfalso. apply N. replace (cv0_in c) with (cv0_in c / arad * arad) by (field; lra). rewrite K. ring.
    + f_equal. f_equal. field. split; lra.
  - intros ->. replace (0 / arad) with 0 by (field; lra). now rewrite Reqb_refl.
Qed.
Print Assumptions C50_other_closures.
Definition tcfg0 : tcfg := {| tM := 1; tquad := simpson_rule; cv0_in := 0; temp0 := true; temp1 := false; couple_none := false |}.
Example C50_example : T_of_e tcfg0 (-3) = Ok (-3). Proof. now apply C50_emission_is_the_energy. Qed.

(* ---------------------------------------------------------------- C85 *)
(** every entry of the table, computed or skipped, is the triple product of the orthonormal basis times the square root of the width *)
Theorem C85_triple_products : forall c i j k a b, a < b -> exact_to (oquad c) (i + j + k) ->
  is_RInt (fun x => basis Slab i x a b * basis Slab j x a b * basis Slab k x a b) a b (AAA c i j k / sqrt (b - a)).
Proof. intros. now apply (triple_basis c (i + j + k)). Qed.
Print Assumptions C85_triple_products.
Theorem C85_symmetric : forall c i j k, exact_to (oquad c) (i + j + k) -> AAA c i j k = AAA c j i k /\ AAA c i j k = AAA c i k j.
Proof.
  intros c i j k HE.
  pose proof (AAA_val c (i + j + k) i j k HE ltac:(lia)) as A. pose proof (AAA_val c (i + j + k) j i k HE ltac:(lia)) as B. pose proof (AAA_val c (i + j + k) i k j HE ltac:(lia)) as D.
  split; (eapply int_uniq2; [exact A|]); (eapply int_ext; [|first [exact B|exact D]]); intro z; cbv beta; unfold Rdiv; ring.
Qed.
Print Assumptions C85_symmetric.
(** the solver's slab rule has 2M+1 Gauss points, exact to degree 4M+1: enough for an opacity expansion of order at most 2M+1 *)
Theorem C85_opacity_order_bound : forall c i j k, exact_to (oquad c) (4 * oM c + 1) -> (oMs c <= 2 * oM c + 1)%nat -> (i <= oM c)%nat -> (j <= oM c)%nat -> (k <= oMs c)%nat ->
  is_RInt (fun x => basis Slab i x (-1) 1 * basis Slab j x (-1) 1 * basis Slab k x (-1) 1) (-1) 1 (AAA c i j k / sqrt 2).
Proof.
  intros c i j k HE H Hi Hj Hk. replace 2 with (1 - -1) by ring. apply (triple_basis c (4 * oM c + 1)); auto; lra || lia.
Qed.
Print Assumptions C85_opacity_order_bound.
Lemma midpoint_exact : exact_to midpoint_rule 1.
Proof.
  intros k Hk. unfold leg_exact, qsum, midpoint_rule. cbn [map rsum fold_right fst snd].
  destruct k as [|[|k]]; [| |lia].
  - apply (int_ext (fun _ => 1)); [intro; simpl; ring|]. eapply int_eq; [apply int_const|]. simpl. ring.
  - eapply int_eq; [apply (int_ftc (fun z => z * z / 2) (fun z => z ^ 1)); [|intro z; apply cpow, cid]|cbv beta; simpl; field].
    intro z. eapply dd_eq; [apply dd_divc; apply dd_mult; apply dd_id|cbv beta; simpl; field].
Qed.
Theorem C85_higher_opacity_order_refuted : exists c, exact_to (oquad c) (4 * oM c + 1) /\ oMs c = (2 * oM c + 2)%nat /\
  AAA c 0 0 (oMs c) <> 0 /\ is_RInt (fun x => basis Slab 0 x (-1) 1 * basis Slab 0 x (-1) 1 * basis Slab (oMs c) x (-1) 1) (-1) 1 0.
Proof.
  exists {| o_t := 1; o_s := 1; oM := 0; oMs := 2; oN := 1; oquad := midpoint_rule; ofun := noncon; o_v := 1 |}. cbn [oquad oM oMs].
  split; [exact midpoint_exact|]. split; [reflexivity|]. split.
  - unfold AAA, AAA_entry, both_even_or_odd, qsum. cbn [oquad midpoint_rule map rsum fold_right fst snd Nat.add Nat.leb Nat.modulo Nat.divmod Nat.eqb Nat.sub andb negb]. cbv zeta. unfold Pn.
    rewrite leg_SS, leg_1, !leg_0. simpl INR.
    pose proof (sqrt_lt_R0 (2 * 0 + 1) ltac:(lra)). pose proof (sqrt_lt_R0 (2 * (1 + 1) + 1) ltac:(lra)).
    assert (0 < sqrt (2 * 0 + 1) * sqrt (2 * 0 + 1) * sqrt (2 * (1 + 1) + 1)) by (repeat apply Rmult_lt_0_compat; auto). nra.
  - apply (int_ext (fun x => 1 / 2 * basis Slab 2 x (-1) 1)).
    + intro x. rewrite basis0 by lra. replace (1 - -1) with 2 by ring. assert (sqrt 2 * sqrt 2 = 2) by (apply sqrt_sqrt; lra).
      pose proof (sqrt_lt_R0 2 ltac:(lra)). replace (1 / 2) with (1 / (sqrt 2 * sqrt 2)) by (rewrite H; reflexivity). field. lra.
    + eapply int_eq; [apply int_scal, int_basis; lra|]. simpl. ring.
Qed.
Print Assumptions C85_higher_opacity_order_refuted.
Example C85_example : AAA (ocfg0 noncon) 1 1 0 = 1 /\ AAA (ocfg0 noncon) 1 0 0 = 0.
Proof.
  split; [|reflexivity]. pose proof (C85_triple_products (ocfg0 noncon) 1 1 0 0 1 ltac:(lra)) as T.
  cbn [oquad ocfg0] in T. specialize (T ltac:(intros k Hk; apply simpson_exact; lia)).
  replace (1 - 0) with 1 in T by ring. rewrite sqrt_1 in T. unfold Rdiv in T. rewrite Rinv_1, Rmult_1_r in T.
  eapply int_uniq2; [exact T|]. apply (int_ext (fun x => basis Slab 1 x 0 1 * basis Slab 1 x 0 1)); [intro; rewrite basis0 by lra; replace (1 - 0) with 1 by ring; rewrite sqrt_1; field|].
  eapply int_eq; [apply orthonormal; lra|]. reflexivity.
Qed.

(* ---------------------------------------------------------------- C86 *)
(** scattering with variable opacity: sigma_s times the projection of the opacity expansion times the scalar flux expansion *)
Theorem C86_scattering_is_the_projection : forall c g N ws s u space a b i, f_constant (ofun c) = false -> a < b -> (i <= oM c)%nat ->
  exact_to (oquad c) (2 * oM c + oMs c) ->
  is_RInt (fun x => o_s c * (basis Slab i x a b * (field Slab (oMs c) (so_cs s space) a b x * field Slab (oM c) (make_P N ws u) a b x))) a b
    (scalar_flux_term c g N ws s u space a b i).
Proof.
  intros c g N ws s u space a b i F Hab Hi HE. eapply int_eq; [apply int_scal; apply (galerkin c (oM c) (oMs c) (2 * oM c + oMs c)); auto|].
  unfold scalar_flux_term. rewrite F. unfold Rdiv. rewrite <- sumn_scal, <- sumn_scal_r.
  rewrite (sumn_ext N _ (fun l => sumn (oM c + 1) (fun j => sumn (oMs c + 1) (fun k => o_s c * so_cs s space k * u l j * ws l * AAA c i j k * / sqrt (b - a))))).
  2: { intros l _. rewrite <- sumn_scal_r. apply sumn_ext. intros j _. now rewrite <- sumn_scal_r. }
  rewrite sumn_swap. apply sumn_ext. intros j _. rewrite sumn_swap, <- sumn_scal. apply sumn_ext. intros k _.
  unfold make_P. transitivity (sumn N (fun l => u l j * ws l) * (o_s c * so_cs s space k * AAA c i j k * / sqrt (b - a))); [ring|].
  rewrite <- sumn_scal_r. apply sumn_ext. intros; ring.
Qed.
Print Assumptions C86_scattering_is_the_projection.
(** absorption of a fresh object *)
Theorem C86_absorption_is_the_projection : forall c s edges u space i, f_constant (ofun c) = false -> (forall k, so_VV s k = 0) ->
  edges space < edges (space + 1)%nat -> (i <= oM c)%nat -> exact_to (oquad c) (2 * oM c + oMs c) ->
  is_RInt (fun x => o_t c * (basis Slab i x (edges space) (edges (space + 1)%nat) *
      (field Slab (oMs c) (so_cs s space) (edges space) (edges (space + 1)%nat) x * field Slab (oM c) u (edges space) (edges (space + 1)%nat) x)))
    (edges space) (edges (space + 1)%nat) (so_VV (make_vectors c s edges u space) i).
Proof.
  intros c s edges u space i F Z He Hi HE. rewrite one_step by auto. rewrite Z.
  eapply int_eq; [apply int_scal; apply (galerkin c (oM c) (oMs c) (2 * oM c + oMs c)); auto|].
  unfold absorption. rewrite (int_uniq _ _ _ _ (galerkin c (oM c) (oMs c) (2 * oM c + oMs c) i _ _ (so_cs s space) u He HE ltac:(lia) Hi)). ring.
Qed.
Print Assumptions C86_absorption_is_the_projection.
(** summed over directions with normalised weights, collisions remove sigma_t - sigma_s times the projected reaction rate *)
Theorem C86_collision_balance : forall c N ws s edges u space i, f_constant (ofun c) = false -> (forall k, so_VV s k = 0) -> sumn N ws = 1 ->
  edges space < edges (space + 1)%nat -> (i <= oM c)%nat -> exact_to (oquad c) (2 * oM c + oMs c) ->
  is_RInt (fun x => (o_t c - o_s c) * (basis Slab i x (edges space) (edges (space + 1)%nat) *
      (field Slab (oMs c) (so_cs s space) (edges space) (edges (space + 1)%nat) x * field Slab (oM c) (make_P N ws u) (edges space) (edges (space + 1)%nat) x)))
    (edges space) (edges (space + 1)%nat)
    (sumn N (fun l => ws l * (so_VV (make_vectors c s edges (u l) space) i - scalar_flux_term c Slab N ws s u space (edges space) (edges (space + 1)%nat) i))).
Proof.
  intros c N ws s edges u space i F Z W He Hi HE.
  pose proof (galerkin c (oM c) (oMs c) (2 * oM c + oMs c) i _ _ (so_cs s space) (make_P N ws u) He HE ltac:(lia) Hi) as G.
  eapply int_eq; [apply int_scal; exact G|].
  assert (S : scalar_flux_term c Slab N ws s u space (edges space) (edges (space + 1)%nat) i = o_s c * RInt (fun x => basis Slab i x (edges space) (edges (space + 1)%nat) *
      (field Slab (oMs c) (so_cs s space) (edges space) (edges (space + 1)%nat) x * field Slab (oM c) (make_P N ws u) (edges space) (edges (space + 1)%nat) x)) (edges space) (edges (space + 1)%nat)).
  { eapply int_uniq2; [apply C86_scattering_is_the_projection; auto|]. apply int_scal. erewrite int_uniq by exact G. exact G. }
  rewrite S, (int_uniq _ _ _ _ G).
  rewrite (sumn_ext N _ (fun l => ws l * so_VV (make_vectors c s edges (u l) space) i - ws l * (o_s c * sumn (oM c + 1) (fun j => sumn (oMs c + 1) (fun k => so_cs s space k * make_P N ws u j * (AAA c i j k / sqrt (edges (space + 1)%nat - edges space))))))) by (intros; ring).
  rewrite sumn_minus, sumn_scal_r, W.
  enough (E : sumn N (fun l => ws l * so_VV (make_vectors c s edges (u l) space) i) = o_t c * sumn (oM c + 1) (fun j => sumn (oMs c + 1) (fun k => so_cs s space k * make_P N ws u j * (AAA c i j k / sqrt (edges (space + 1)%nat - edges space))))) by (rewrite E; ring).
  rewrite (sumn_ext N _ (fun l => sumn (oM c + 1) (fun j => sumn (oMs c + 1) (fun k => o_t c * so_cs s space k * (u l j * ws l) * (AAA c i j k / sqrt (edges (space + 1)%nat - edges space)))))).
  2: { intros l _. rewrite vectors_step, Z by auto. rewrite Rplus_0_l, <- sumn_scal. apply sumn_ext. intros j _. rewrite <- sumn_scal. apply sumn_ext. intros k _. ring. }
  rewrite sumn_swap, <- sumn_scal. apply sumn_ext. intros j _. rewrite sumn_swap, <- sumn_scal. apply sumn_ext. intros k _.
  unfold make_P. transitivity (sumn N (fun l => u l j * ws l) * (o_t c * so_cs s space k * (AAA c i j k / sqrt (edges (space + 1)%nat - edges space)))); [|ring].
  rewrite <- sumn_scal_r. apply sumn_ext. intros; ring.
Qed.
Print Assumptions C86_collision_balance.

(** the balance with a quarter of the particles in each of four directions, evaluated: zeroth moment of cell [0,1] *)
Example C86_example : let s := {| so_edges := INR; so_cs := fun _ k => if (k =? 0)%nat then 1 else 0; so_VV := fun _ => 0 |} in
  sumn 4 (fun l => 1 / 4 * (so_VV (make_vectors (ocfg0 noncon) s INR (fun j => INR l) 0) 0%nat - scalar_flux_term (ocfg0 noncon) Slab 4 (fun _ => 1 / 4) s (fun l j => INR l) 0 0 1 0)) = 3 / 2.
Proof.
  cbv zeta. set (s := {| so_edges := INR; so_cs := fun _ k => if (k =? 0)%nat then 1 else 0; so_VV := fun _ => 0 |}).
  assert (W : sumn 4 (fun _ => 1 / 4) = 1) by (cbn [sumn]; lra).
  pose proof (C86_collision_balance (ocfg0 noncon) 4 (fun _ => 1 / 4) s INR (fun l j => INR l) 0 0 eq_refl (fun _ => eq_refl) W ltac:(simpl; lra) ltac:(simpl; lia) simpson_exact) as K.
  change (0 + 1)%nat with 1%nat in K. change (INR 0) with 0 in K. change (INR 1) with 1 in K.
  eapply int_uniq2; [exact K|]. clear K.
  apply (int_ext (fun x => field Slab 1 (make_P 4 (fun _ => 1 / 4) (fun l j => INR l)) 0 1 x * basis Slab 0 x 0 1)).
  - intro x. cbn [ocfg0 o_t o_s oMs oM so_cs s]. unfold field at 2. cbn [Nat.add sumn Nat.eqb]. rewrite (basis0 _ 0 1) by lra. replace (1 - 0) with 1 by ring. rewrite sqrt_1. field.
  - eapply int_eq; [apply project_field; [lra|lia]|]. unfold make_P. cbn [sumn]. simpl. field.
Qed.

(* ---------------------------------------------------------------- C87 *)
(** the moments of the unit opacity make the general formula agree with the constant one *)
Theorem C87_unit_moments : forall c a b j t, a < b -> f_constant (ofun c) = true -> exact_to (oquad c) (oMs c) -> (j <= oMs c)%nat ->
  integrate_moments c a b j t = Ok (if (j =? 0)%nat then sqrt (b - a) else 0).
Proof. intros. now apply (moment_one c (oMs c)). Qed.
Print Assumptions C87_unit_moments.
Theorem C87_general_formula_reduces_to_constant : forall c s edges u space i, f_constant (ofun c) = false -> (forall k, so_VV s k = 0) ->
  edges space < edges (space + 1)%nat -> (i <= oM c)%nat -> exact_to (oquad c) (2 * oM c + oMs c) ->
  (forall k, (k <= oMs c)%nat -> so_cs s space k = if (k =? 0)%nat then sqrt (edges (space + 1)%nat - edges space) else 0) ->
  so_VV (make_vectors c s edges u space) i = o_t c * u i.
Proof.
  intros c s edges u space i F Z He Hi HE HS. eapply int_uniq2; [apply C86_absorption_is_the_projection; auto|].
  apply int_scal. apply (int_ext (fun x => field Slab (oM c) u (edges space) (edges (space + 1)%nat) x * basis Slab i x (edges space) (edges (space + 1)%nat))).
  - intro x. assert (E : field Slab (oMs c) (so_cs s space) (edges space) (edges (space + 1)%nat) x = 1).
    { unfold field. rewrite (sumn_single _ _ 0%nat); [|lia|].
      - rewrite HS by lia. cbn [Nat.eqb]. rewrite basis0 by auto. field. apply Rgt_not_eq, sqrt_lt_R0. lra.
      - intros k Hk N. rewrite HS by lia. apply Nat.eqb_neq in N. rewrite N. ring. }
    rewrite E. ring.
  - now apply project_field.
Qed.
Print Assumptions C87_general_formula_reduces_to_constant.
(** An object with the constant opacity and the same cross section returns the same vector. *)
Theorem C87_both_branches_agree : forall c c' s s' edges u space i, f_constant (ofun c) = false -> (forall k, so_VV s k = 0) ->
  edges space < edges (space + 1)%nat -> (i <= oM c)%nat -> exact_to (oquad c) (2 * oM c + oMs c) ->
  (forall k, (k <= oMs c)%nat -> so_cs s space k = if (k =? 0)%nat then sqrt (edges (space + 1)%nat - edges space) else 0) ->
  f_constant (ofun c') = true -> o_t c' = o_t c ->
  so_VV (make_vectors c' s' edges u space) i = so_VV (make_vectors c s edges u space) i.
Proof.
  intros. rewrite (C87_general_formula_reduces_to_constant c) by auto. unfold make_vectors. cbn.
  match goal with H : f_constant (ofun c') = true |- _ => rewrite H end. cbn. rewrite Rmult_comm. congruence.
Qed.
Print Assumptions C87_both_branches_agree.
Example C87_example : so_VV (make_vectors (ocfg0 noncon) {| so_edges := INR; so_cs := fun _ k => if (k =? 0)%nat then 1 else 0; so_VV := fun _ => 0 |} INR (fun j => INR j + 5) 0) 1%nat = 12.
Proof.
  rewrite (C87_general_formula_reduces_to_constant (ocfg0 noncon)); auto; try (simpl; lia).
  - simpl. ring.
  - simpl. lra.
  - exact simpson_exact.
  - intros k _. cbn [so_cs]. simpl (INR _). replace (1 - 0) with 1 by ring. now rewrite sqrt_1.
Qed.

(** C48 on a unit opacity: the first call on the mesh 0, 1, 2 stores the moments 1, 0 *)
Example C48_example : exists s, sigma_moments (ocfg0 con) oinit INR 5 = Ok s /\ so_cs s 1%nat 0%nat = 1 /\ so_cs s 1%nat 1%nat = 0.
Proof.
  destruct (C48_first_call_succeeds (ocfg0 con) INR 5 eq_refl oinit) as [s E]. exists s. split; [exact E|].
  destruct (C48_refreshed_iff_the_cell_moved _ _ _ _ _ E) as (_ & _ & B).
  assert (X : exact_to (oquad (ocfg0 con)) (oMs (ocfg0 con))) by (intros k Hk; apply simpson_exact; simpl in *; lia).
  assert (L : INR 1 < INR (1 + 1)) by (simpl; lra).
  destruct (B 1%nat 0%nat ltac:(simpl; lia) ltac:(simpl; lia)) as [B0 _]. destruct (B 1%nat 1%nat ltac:(simpl; lia) ltac:(simpl; lia)) as [B1 _].
  specialize (B0 ltac:(left; simpl; lra)). specialize (B1 ltac:(left; simpl; lra)).
  rewrite C87_unit_moments in B0 by (auto; simpl; lia). rewrite C87_unit_moments in B1 by (auto; simpl; lia).
  injection B0 as <-. injection B1 as <-. cbn [Nat.eqb]. split; [|reflexivity]. simpl; replace (1 + 1 - 1) with 1 by ring. apply sqrt_1.
Qed.

(* ---------------------------------------------------------------- C88 *)
(** the emission vector of the Su-Olson closure is the material energy vector itself *)
Theorem C88_emission_vector : forall c e_vec a b j, a < b -> couple_none c = false -> temp0 c = true -> exact_to (tquad c) (2 * tM c) -> (j <= tM c)%nat ->
  make_H_entry c e_vec a b j = Ok (e_vec j).
Proof. exact H_is_e. Qed.
Print Assumptions C88_emission_vector.
Theorem C88_uncoupled_zero : forall c e_vec a b j, couple_none c = true -> make_H_entry c e_vec a b j = Ok 0.
Proof. intros c e a b j H. unfold make_H_entry. now rewrite H. Qed.
Print Assumptions C88_uncoupled_zero.
Example C88_example : make_H_entry tcfg0 (fun j => INR j - 4) 2 5 1 = Ok (-3).
Proof. rewrite C88_emission_vector; auto; try lra; [f_equal; simpl; ring|intros k Hk; apply simpson_exact; simpl in Hk; lia]. Qed.

(* ---------------------------------------------------------------- C89 *)
Theorem C89_opacity_positive : forall c x t, (f_constant (ofun c) || f_gaussian (ofun c) || f_siewert1 (ofun c) || f_siewert2 (ofun c) || f_sedov (ofun c))%bool = true ->
  exists v, sigma_function c x t = Ok v /\ 0 < v.
Proof. exact sigma_ok. Qed.
Print Assumptions C89_opacity_positive.
Theorem C89_no_option_fails : forall c x t, (f_constant (ofun c) || f_gaussian (ofun c) || f_siewert1 (ofun c) || f_siewert2 (ofun c) || f_sedov (ofun c))%bool = false ->
  sigma_function c x t = Err TypeError.
Proof.
  intros c x t. unfold sigma_function. destruct (f_constant (ofun c)), (f_gaussian (ofun c)), (f_siewert1 (ofun c)), (f_siewert2 (ofun c)), (f_sedov (ofun c)); intros [=]; reflexivity.
Qed.
Print Assumptions C89_no_option_fails.
Definition shock_only (f : sfuncs) : Prop := f_constant f = false /\ f_gaussian f = false /\ f_siewert1 f = false /\ f_siewert2 f = false /\ f_sedov f = true.
(** the shock profile moves to the left with speed v: 0.2 ahead of the shock, a Gaussian tail behind, both added at the shock itself *)
Theorem C89_shock_profile : forall c x t, shock_only (ofun c) ->
  (x + o_v c * t < 0 -> sigma_function c x t = Ok (1 / 5)) /\
  (0 < x + o_v c * t -> sigma_function c x t = Ok (exp (- (x + o_v c * t + 1) ^ 2 / 4))) /\
  (x + o_v c * t = 0 -> sigma_function c x t = Ok (exp (- 1 / 4) + 1 / 5)) /\
  sigma_function c x t = sigma_function c (x + o_v c * t) 0.
Proof.
  intros c x t (A & B & C & D & E). unfold sigma_function. rewrite A, B, C, D, E. cbv zeta. unfold xi2, heaviside.
  replace (- (- x - 1 - o_v c * t) - 1) with (x + o_v c * t) by ring. replace (- x - 1 - o_v c * t + 1) with (- (x + o_v c * t)) by ring.
  replace (- (- (x + o_v c * t) - 1 - o_v c * 0) - 1) with (x + o_v c * t) by ring. replace (- (x + o_v c * t) - 1 - o_v c * 0 + 1) with (- (x + o_v c * t)) by ring.
  replace (2 ^ 2) with 4 by ring. repeat split; intros.
  - rewrite Rltb_true, Rltb_false by lra. f_equal. field.
  - rewrite Rltb_false, Rltb_true by lra. f_equal. replace ((- x - 1 - o_v c * t) ^ 2) with ((x + o_v c * t + 1) ^ 2) by ring. ring.
  - rewrite !Rltb_false by lra. f_equal. replace (- x - 1 - o_v c * t) with (-1) by lra. replace (- (-1) ^ 2) with (- 1) by ring. lra.
  - f_equal. replace (- x - 1 - o_v c * t) with (- (x + o_v c * t) - 1 - o_v c * 0) by ring. reflexivity.
Qed.
Print Assumptions C89_shock_profile.
Example C89_example : sigma_function (ocfg0 noncon) (-3) 2 = Ok (1 / 5).
Proof. apply (C89_shock_profile (ocfg0 noncon) (-3) 2); [repeat split|]. simpl. lra. Qed.
