(** Theorems about the uncollided solutions, sources and initial conditions: C39-C46, C78-C84. *)
From Coquelicot Require Import Coquelicot.
From Verif Require Import Py PyLemmas Calc Legendre Cheb DGModel DGSpec DGProofs FuncModel FuncProofs FuncLobatto SourceModel SourceProofs SourceMore SourceGauss SourceIC.
Local Open Scope R_scope.

(* ---------------------------------------------------------------- contracts can be met *)
Definition Ei_int (y : R) : R := RInt (fun z => exp z / z) (-1) y.
Example expi_contract_holds : expi_ok Ei_int.
Proof.
  intros y Hy. unfold Ei_int.
  assert (C : forall z, z < 0 -> continuous (fun z => exp z / z) z).
  { intros z Hz. apply (ex_derive_continuous (fun z => exp z / z)). eexists. apply (dd_div exp (fun z => z)); [|apply dd_id|lra].
    apply (dd_exp (fun z => z)), dd_id. }
  apply (is_derive_RInt (fun z => exp z / z) _ (-1)); [|now apply C].
  exists (mkposreal (- y / 2) ltac:(lra)). intros b Hb. apply (RInt_correct (fun z => exp z / z)). apply (ex_RInt_continuous (fun z => exp z / z)). intros z Hz. apply C.
  change (Rabs (b - y) < - y / 2) in Hb. apply Rabs_def2 in Hb. unfold Rmin, Rmax in Hz. destruct (Rle_dec (-1) b); lra.
Qed.
Definition erf_int (y : R) : R := 2 / sqrt PI * RInt (fun z => exp (- z ^ 2)) 0 y.
Example erf_contract_holds : erf_ok erf_int.
Proof.
  assert (C : forall z, continuous (fun z => exp (- z ^ 2)) z).
  { intro z. apply (continuous_ext (fun m => 1 * exp (- (0 + 1 * m) ^ 2))); [|apply cont_gauss]. intro m. cbv beta. rewrite Rplus_0_l, !Rmult_1_l. reflexivity. }
  split.
  - unfold erf_int. rewrite RInt_point. change (@zero R_CompleteNormedModule) with 0. ring.
  - intro y. unfold erf_int. apply dd_scal. apply (is_derive_RInt (fun z => exp (- z ^ 2)) _ 0); [|apply C].
    exists (mkposreal 1 Rlt_0_1). intros b _. apply (RInt_correct (fun z => exp (- z ^ 2))). apply (ex_RInt_continuous (fun z => exp (- z ^ 2))). auto.
Qed.

(* ---------------------------------------------------------------- C39 *)
(** emission at time tau seen at (x,t) with two directions of cosine +-1/sqrt 3 *)
Definition two_beams (x t x0 tau : R) : R :=
  1 / 2 * exp (- (t - tau)) * ((if Rleb (Rabs (x - (t - tau) / sqrt 3)) x0 then 1 else 0) + (if Rleb (Rabs (- x - (t - tau) / sqrt 3)) x0 then 1 else 0)).
Theorem C39_s2_closed_form_exact : forall x t x0 t0, 0 <= x0 -> 0 <= t -> 0 <= t0 ->
  t <= t0 \/ x0 - (t - t0) / sqrt 3 <= Rabs x \/ t <= sqrt 3 * (Rabs x + x0) ->
  exists v, uncollided_su_olson_s2 x t x0 t0 = Some v /\ is_RInt (two_beams x t x0) 0 (Rmin t t0) v.
Proof.
  intros x t x0 t0 H0 Ht H1 HC. exists (s2_exact x t x0 t0). split; [|apply s2_integral; auto].
  rewrite s2_closed by auto. f_equal. replace (s2_excess x t x0 t0) with 0; [ring|]. unfold s2_excess.
  destruct (Rltb_spec t0 t) as [A|A]; auto. destruct (Rltb_spec (Rabs x) (x0 - (t - t0) / sqrt 3)) as [B|B]; auto. cbn [andb].
  rewrite Rmax_left by lra. rewrite exp_0. ring.
Qed.
Print Assumptions C39_s2_closed_form_exact.
(** in the remaining region it is larger than the integral, by a known amount *)
Theorem C39_s2_closed_form_over_counts : forall x t x0 t0, 0 <= x0 -> 0 <= t -> 0 <= t0 ->
  t0 < t -> Rabs x < x0 - (t - t0) / sqrt 3 -> sqrt 3 * (Rabs x + x0) < t ->
  exists v I, uncollided_su_olson_s2 x t x0 t0 = Some v /\ is_RInt (two_beams x t x0) 0 (Rmin t t0) I /\
    v = I + 1 / 2 * (exp (- (sqrt 3 * (Rabs x + x0))) - exp (- t)) /\ I < v.
Proof.
  intros x t x0 t0 H0 Ht H1 A B C. exists (s2_exact x t x0 t0 + s2_excess x t x0 t0), (s2_exact x t x0 t0). split; [apply s2_closed; auto|]. split; [apply s2_integral; auto|].
  assert (E : s2_excess x t x0 t0 = 1 / 2 * (exp (- (sqrt 3 * (Rabs x + x0))) - exp (- t))).
  { unfold s2_excess. rewrite !Rltb_true by auto. cbn [andb]. rewrite Rmax_right by lra.
    replace (- (sqrt 3 * (Rabs x + x0))) with (- t + (t - sqrt 3 * (Rabs x + x0))) by ring. rewrite exp_plus. ring. }
  rewrite E. split; [auto|]. assert (exp (- t) < exp (- (sqrt 3 * (Rabs x + x0)))) by (apply exp_increasing; lra). lra.
Qed.
Print Assumptions C39_s2_closed_form_over_counts.
Lemma sqrt3_bounds : 17 / 10 < sqrt 3 < 18 / 10.
Proof. pose proof sqrt3_pos. pose proof sqrt3_sq. split; nra. Qed.
Theorem C39_s2_exact_everywhere_refuted : exists x t x0 t0, 0 < x0 /\ 0 < t0 /\ 0 <= t /\
  exists v I, uncollided_su_olson_s2 x t x0 t0 = Some v /\ is_RInt (two_beams x t x0) 0 (Rmin t t0) I /\ v <> I.
Proof.
  exists 0, 2, 1, (3 / 2). repeat split; try lra. pose proof sqrt3_bounds. pose proof sqrt3_pos.
  destruct (C39_s2_closed_form_over_counts 0 2 1 (3 / 2)) as (v & I & A & B & _ & D); try lra; rewrite ?Rabs_R0; try lra.
  - assert ((2 - 3 / 2) / sqrt 3 < 1); [|lra]. apply Rmult_lt_reg_r with (sqrt 3); auto. unfold Rdiv. rewrite Rmult_assoc, Rinv_l; lra.
  - exists v, I. repeat split; auto. lra.
Qed.
Print Assumptions C39_s2_exact_everywhere_refuted.
(** at the centre, before the edges are seen: both beams have been lit all the time *)
Example C39_example : uncollided_su_olson_s2 0 1 1 2 = Some (1 - exp (-1)).
Proof.
  pose proof sqrt3_bounds. unfold uncollided_su_olson_s2. cbv zeta. rewrite Rabs_R0, Rmin_left by lra. unfold Rgtb. rewrite (Rleb_true 1 2), Rltb_false, Rleb_true by lra.
  unfold s2_F. f_equal. replace (- (1) + 1) with 0 by ring. replace (- (1) + 0) with (-1) by ring. rewrite exp_0. field.
Qed.

(* ---------------------------------------------------------------- C40 *)
(** length of the source [-x0,x0] visible at x after flight time s *)
Definition seen (x x0 s : R) : R := Rmax 0 (Rmin (x + s) x0 - Rmax (x - s) (- x0)).
Theorem C40_square_source_exact : forall Ei x t x0 t0, (forall y, y < 0 -> is_derive Ei y (exp y / y)) -> 0 < x0 -> 0 < t -> 0 <= t0 ->
  is_RInt (fun tau => exp (- (t - tau)) / (2 * (t - tau)) * seen x x0 (t - tau)) 0 (Rmin t t0) (uncollided_square_s2 Ei x t x0 t0).
Proof. exact sq_exact. Qed.
Print Assumptions C40_square_source_exact.
Theorem C40_square_source_before_start : forall Ei x t x0 t0, t <= 0 -> uncollided_square_s2 Ei x t x0 t0 = 0.
Proof. intros. unfold uncollided_square_s2, Rgtb. now rewrite Rltb_false by lra. Qed.
Print Assumptions C40_square_source_before_start.
(** the integrand is the average over directions of the attenuated emission *)
Theorem C40_integrand_is_direction_average : forall x x0 s, 0 <= x0 -> 0 < s ->
  is_RInt (fun mu => exp (- s) / 2 * (if Rleb (Rabs (x - mu * s)) x0 then 1 else 0)) (-1) 1 (exp (- s) / (2 * s) * seen x x0 s).
Proof. intros. now apply pulse_integral. Qed.
Print Assumptions C40_integrand_is_direction_average.
Example C40_example : uncollided_square_s2 Ei_int 0 1 2 1 = 1 - exp (-1).
Proof.
  unfold uncollided_square_s2, Rgtb. rewrite Rltb_true by lra. cbv zeta. rewrite Rabs_R0. rewrite !(Rmin_left 1) by lra. rewrite Rleb_false by lra.
  unfold Rmin. repeat (destruct (Rle_dec _ _); try lra). rewrite !Rltb_true by lra. rewrite Rltb_false by lra. unfold f1, f2, f3.
  rewrite Reqb_false by lra. replace (1 - 1) with 0 by ring. replace (0 - 1) with (-1) by ring. rewrite exp_0. ring.
Qed.

(* ---------------------------------------------------------------- C41 *)
Theorem C41_plane_pulse : forall c x t, 0 <= t ->
  plane_IC_uncollided_solution c (- x) t = plane_IC_uncollided_solution c x t /\ 0 <= plane_IC_uncollided_solution c x t /\
  (t < Rabs x -> plane_IC_uncollided_solution c x t = 0).
Proof.
  intros c x t Ht. split; [apply plane_even|]. split; [now apply plane_nonneg|]. intro H. destruct (plane_cases c x t) as [[A _]|[_ E]]; [lra|auto].
Qed.
Print Assumptions C41_plane_pulse.
Theorem C41_square_pulse : forall c x t, 0 <= t -> 0 < sx0 c -> 0 <= strength_s c ->
  square_IC_uncollided_solution c (- x) t = square_IC_uncollided_solution c x t /\ 0 <= square_IC_uncollided_solution c x t /\
  (t + sx0 c < Rabs x -> square_IC_uncollided_solution c x t = 0).
Proof.
  intros c x t Ht H0 Hs. rewrite !square_IC_unit. split; [now rewrite pulse_even|]. split; [apply Rmult_le_pos; auto; now apply pulse_bounds|]. intro H.
  destruct (pulse_cases (sx0 c) x t H0 Ht) as [(A & E)|[(A & B & E)|[(A & B & C & E)|(A & B & E)]]]; try lra. rewrite E. ring.
Qed.
Print Assumptions C41_square_pulse.
Theorem C41_square_source : forall Ei x t x0 t0, (forall y, y < 0 -> is_derive Ei y (exp y / y)) -> 0 < x0 -> 0 <= t -> 0 <= t0 ->
  uncollided_square_s2 Ei (- x) t x0 t0 = uncollided_square_s2 Ei x t x0 t0 /\ 0 <= uncollided_square_s2 Ei x t x0 t0 /\
  (t + x0 <= Rabs x -> uncollided_square_s2 Ei x t x0 t0 = 0).
Proof.
  intros. split; [apply square_s2_even|]. split; [now apply square_s2_nonneg|]. apply square_s2_causal.
Qed.
Print Assumptions C41_square_source.
Theorem C41_s2_square_source : forall x t x0 t0, 0 <= x0 -> 0 <= t -> 0 <= t0 ->
  uncollided_su_olson_s2 (- x) t x0 t0 = uncollided_su_olson_s2 x t x0 t0 /\
  exists v, uncollided_su_olson_s2 x t x0 t0 = Some v /\ 0 <= v /\ (t / sqrt 3 + x0 <= Rabs x -> v = 0).
Proof.
  intros x t x0 t0 H0 Ht H1. split; [apply su_olson_even|]. rewrite s2_closed by auto. eexists. split; [reflexivity|]. pose proof (s2_nonneg x t x0 t0 H0 Ht H1) as N.
  pose proof sqrt3_pos as P. split.
  - assert (0 <= s2_excess x t x0 t0); [|lra]. unfold s2_excess. destruct (_ && _); [|lra]. apply Rmult_le_pos; [pose proof (exp_pos (- t)); lra|].
    pose proof (exp_ineq1_le (Rmax 0 (t - sqrt 3 * (Rabs x + x0)))). pose proof (Rmax_l 0 (t - sqrt 3 * (Rabs x + x0))). lra.
  - intro H. assert (K : t <= sqrt 3 * (Rabs x - x0)).
    { apply (Rmult_le_compat_l (sqrt 3)) in H; [|lra]. replace (sqrt 3 * (t / sqrt 3 + x0)) with (t + sqrt 3 * x0) in H by (field; lra). lra. }
    assert (T0 : 0 <= t / sqrt 3) by (apply Rle_mult_inv_pos; lra).
    rewrite <- s2_abs. unfold s2_excess, s2_exact. cbv zeta. assert (M : 0 <= Rmin t t0) by (now apply Rmin_glb). pose proof (Rmin_l t t0) as ML.
    rewrite (clip_lo _ (t - sqrt 3 * (Rabs x - x0))) by (auto; lra). rewrite (clip_lo _ (t - sqrt 3 * (Rabs x + x0))) by (auto; nra).
    rewrite (clip_hi _ (t - sqrt 3 * (- Rabs x - x0))) by (auto; pose proof (Rabs_pos x); nra). rewrite (clip_hi _ (t - sqrt 3 * (- Rabs x + x0))) by (auto; pose proof (Rabs_pos x); nra).
    destruct (Rltb_spec t0 t) as [A|A]; cbn [andb]; [|ring]. rewrite Rltb_false; [ring|].
    assert (0 <= (t - t0) / sqrt 3) by (apply Rle_mult_inv_pos; lra). lra.
Qed.
Print Assumptions C41_s2_square_source.
Example C41_example : uncollided_su_olson_s2 10 1 1 2 = Some 0 /\ uncollided_square_s2 Ei_int 10 1 1 2 = 0.
Proof.
  pose proof sqrt3_bounds. split.
  - destruct (C41_s2_square_source 10 1 1 2) as (_ & v & -> & _ & Z); try lra. f_equal. apply Z. rewrite Rabs_pos_eq by lra.
    assert (1 / sqrt 3 < 1); [|lra]. apply Rmult_lt_reg_r with (sqrt 3); [lra|]. unfold Rdiv. rewrite Rmult_assoc, Rinv_l; lra.
  - apply C41_square_source; try lra; [apply expi_contract_holds|]. rewrite Rabs_pos_eq; lra.
Qed.

(* ---------------------------------------------------------------- C42 *)
Theorem C42_starts_from_pulse : forall c x, 0 < sx0 c ->
  square_IC_uncollided_solution c x 0 = (if Rleb (Rabs x) (sx0 c) then strength_s c else 0).
Proof.
  intros c x H0. rewrite square_IC_unit. destruct (Rleb_spec (Rabs x) (sx0 c)) as [A|A];
  destruct (pulse_cases (sx0 c) x 0 H0 ltac:(lra)) as [(B & E)|[(B & C & E)|[(B & C & D & E)|(B & C & E)]]]; try lra; rewrite E; [|ring].
  rewrite Ropp_0, exp_0. ring.
Qed.
Print Assumptions C42_starts_from_pulse.
Theorem C42_decays : forall c x t, 0 < sx0 c -> 0 <= strength_s c -> 0 <= t -> 0 <= square_IC_uncollided_solution c x t <= strength_s c * exp (- t).
Proof.
  intros c x t H0 Hs Ht. rewrite square_IC_unit. destruct (pulse_bounds (sx0 c) x t H0 Ht). split; [now apply Rmult_le_pos|].
  rewrite Rmult_comm. now apply Rmult_le_compat_l.
Qed.
Print Assumptions C42_decays.
(** at later times: the direction average of the attenuated pulse, up to the guard 1e-12 in the denominator *)
Theorem C42_square_pulse_accuracy : forall c x t, 0 < sx0 c -> 0 <= strength_s c -> 0 < t -> exists v,
  is_RInt (fun mu => exp (- t) / 2 * (if Rleb (Rabs (x - mu * t)) (sx0 c) then 1 else 0)) (-1) 1 v /\
  strength_s c * v * (t / (t + / 10 ^ 12)) <= square_IC_uncollided_solution c x t <= strength_s c * v.
Proof.
  intros c x t H0 Hs Ht. exists (pulse_exact (sx0 c) x t). split; [apply pulse_integral; lra|]. rewrite square_IC_unit.
  destruct (pulse_accuracy (sx0 c) x t H0 Ht) as [A B]. split.
  - rewrite Rmult_assoc, (Rmult_comm (pulse_unit _ _ _)). now apply Rmult_le_compat_l.
  - rewrite (Rmult_comm (pulse_unit _ _ _)). now apply Rmult_le_compat_l.
Qed.
Print Assumptions C42_square_pulse_accuracy.
Definition scfg0 (st : list Z) (unc mov : bool) (a : R) : scfg :=
  SCfg Slab st unc mov 1 (1 / 2) 1 1 1 a 8 ((0, 2) :: nil) ((0, 2) :: nil) Ei_int erf_int (fun _ _ => 0).
Example C42_example : square_IC_uncollided_solution (scfg0 [0; 1]%Z true false 3) (1 / 4) (1 / 4) = 3 * exp (- (1 / 4)).
Proof.
  rewrite square_IC_unit. destruct (pulse_cases (1 / 2) (1 / 4) (1 / 4)) as [(B & E)|[(B & C & E)|[(B & C & D & E)|(B & C & E)]]]; rewrite ?Rabs_pos_eq in * by lra; try lra.
  cbn [scfg0 sx0 strength_s]. rewrite E. ring.
Qed.

(* ---------------------------------------------------------------- C43 *)
(** square and Gaussian pulse: the strength enters twice in the flux, three times in the source *)
Theorem C43_pulses_quadratic : forall c a x t, sgeom c = Slab -> sty_is c 0 1 = false -> sty_is c 1 1 || negb (sty_is c 2 1) && sty_is c 3 1 = true ->
  uncollided_solution (with_strength c a) x t = a ^ 2 * uncollided_solution (with_strength c 1) x t.
Proof. intros c a x t G P H. rewrite uncollided_power. unfold power, twice. rewrite G, P, H. reflexivity. Qed.
Print Assumptions C43_pulses_quadratic.
(** all others: once *)
Theorem C43_others_linear : forall c a x t, sgeom c = Sphere \/ sty_is c 0 1 = true \/ sty_is c 1 1 = false /\ (sty_is c 2 1 = true \/ sty_is c 3 1 = false) ->
  uncollided_solution (with_strength c a) x t = a * uncollided_solution (with_strength c 1) x t.
Proof.
  intros c a x t H. rewrite uncollided_power. unfold power, twice. destruct (sgeom c); [|now rewrite pow_1].
  replace (negb (sty_is c 0 1) && _) with false; [now rewrite pow_1|]. destruct H as [H|[H|[H [K|K]]]]; [discriminate| | |]; rewrite H, ?K; cbn; rewrite ?Bool.andb_false_r; reflexivity.
Qed.
Print Assumptions C43_others_linear.
(** the scattering source has one more power *)
Theorem C43_source_powers : forall c a t xL xR S, sgeom c = Slab -> uncollided c = true -> sty_is c 0 1 && smoving c = false ->
  exists Sa S1, make_source (with_strength c a) t xL xR S = Ok Sa /\ make_source (with_strength c 1) t xL xR S = Ok S1 /\
    forall j, (j <= sM c)%nat -> Sa j = a ^ (if negb (sty_is c 0 1) && (sty_is c 1 1 || negb (sty_is c 2 1) && sty_is c 3 1) then 3 else 2) * S1 j.
Proof.
  intros c a t xL xR S G U P. destruct (make_source_slab_power c a t xL xR S G U P) as (Sa & S1 & A & B & H). exists Sa, S1. repeat split; auto. intros j Hj. rewrite (H j Hj).
  unfold power, twice. rewrite G. destruct (negb _ && _); reflexivity.
Qed.
Print Assumptions C43_source_powers.
(** the moving plane pulse and the sources without uncollided treatment: one power *)
Theorem C43_plane_moving_linear : forall c a t xL xR, sgeom c = Slab -> uncollided c = true -> sty_is c 0 1 = true -> smoving c = true ->
  exists Sa S1, make_source (with_strength c a) t xL xR (fun _ => 0) = Ok Sa /\ make_source (with_strength c 1) t xL xR (fun _ => 0) = Ok S1 /\ forall j, Sa j = a * S1 j.
Proof.
  intros c a t xL xR G U P M. destruct (make_source_plane_moving c a t xL xR G U P M) as (Sa & E & A & B). destruct (make_source_plane_moving c 1 t xL xR G U P M) as (S1 & E' & A' & B').
  exists Sa, S1. repeat split; auto. intros [|j]; [rewrite A, A'; ring|rewrite B, B' by lia; ring].
Qed.
Print Assumptions C43_plane_moving_linear.
Theorem C43_direct_sources_linear : forall c a t xL xR S, uncollided c = false -> sgeom c = Slab -> sty_is c 2 1 || sty_is c 5 1 = true ->
  exists Sa S1, make_source (with_strength c a) t xL xR S = Ok Sa /\ make_source (with_strength c 1) t xL xR S = Ok S1 /\ forall j, (j <= sM c)%nat -> Sa j = a * S1 j.
Proof. exact make_source_direct. Qed.
Print Assumptions C43_direct_sources_linear.
Theorem C43_shell_source_quadratic : forall c a t xL xR S Sa, sgeom c = Sphere -> uncollided c = true -> sty_is c 0 1 = false -> sty_is c 1 1 = true ->
  make_source (with_strength c a) t xL xR S = Ok Sa -> exists S1, make_source (with_strength c 1) t xL xR S = Ok S1 /\ forall j, (j <= sM c)%nat -> Sa j = a ^ 2 * S1 j.
Proof. exact make_source_shell. Qed.
Print Assumptions C43_shell_source_quadratic.
Theorem C43_doubling_refuted : exists c x t, uncollided c = true /\ uncollided_solution (with_strength c 2) x t <> 2 * uncollided_solution (with_strength c 1) x t.
Proof.
  exists (scfg0 [0; 1]%Z true false 1), 0, 0. split; [reflexivity|].
  rewrite (C43_pulses_quadratic _ 2) by reflexivity.
  assert (E : uncollided_solution (with_strength (scfg0 [0; 1]%Z true false 1) 1) 0 0 = 1); [|rewrite E; lra].
  change (square_IC_uncollided_solution (with_strength (scfg0 [0; 1]%Z true false 1) 1) 0 0 * 1 = 1). rewrite C42_starts_from_pulse by (cbn; lra).
  rewrite Rabs_R0. cbn [sx0 with_strength scfg0 strength_s]. rewrite Rleb_true by lra. ring.
Qed.
Print Assumptions C43_doubling_refuted.

(* ---------------------------------------------------------------- C44 *)
Theorem C44_square_source_support : forall c x t, square_source c x t = (if Rleb (Rabs x) (sx0 c) && Rltb t (st0 c) then 1 else 0) /\
  (st0 c <= t -> square_source c x t = 0) /\ (sx0 c < Rabs x -> square_source c x t = 0) /\ (t < st0 c -> Rabs x <= sx0 c -> square_source c x t = 1) /\
  square_source c (- x) t = square_source c x t.
Proof.
  intros c x t. split; [reflexivity|]. unfold square_source. repeat split.
  - intro H. rewrite (Rltb_false t) by lra. now rewrite Bool.andb_false_r.
  - intro H. now rewrite Rleb_false by lra.
  - intros H K. now rewrite Rleb_true, Rltb_true by lra.
  - now rewrite Rabs_Ropp.
Qed.
Print Assumptions C44_square_source_support.
Theorem C44_gaussian_source_support : forall c x t, (t <= st0 c -> 0 < gaussian_source c x t /\ gaussian_source c x t = exp (- (x ^ 2 / ssigma c ^ 2))) /\
  (st0 c < t -> gaussian_source c x t = 0) /\ gaussian_source c (- x) t = gaussian_source c x t.
Proof.
  intros c x t. unfold gaussian_source. split; [|split].
  - intro H. rewrite Rleb_true by auto. split; [apply exp_pos|]. f_equal. unfold Rdiv. ring.
  - intro H. now rewrite Rleb_false by lra.
  - replace (- - x * - x) with (- x * x) by ring. reflexivity.
Qed.
Print Assumptions C44_gaussian_source_support.
Example C44_example : square_source (scfg0 [] false false 1) (1 / 4) 0 = 1 /\ square_source (scfg0 [] false false 1) (1 / 4) 2 = 0 /\ gaussian_source (scfg0 [] false false 1) 0 2 = 0.
Proof.
  split; [|split].
  - destruct (C44_square_source_support (scfg0 [] false false 1) (1 / 4) 0) as (_ & _ & _ & H & _). apply H; cbn [scfg0 st0 sx0]; [lra|rewrite Rabs_pos_eq; lra].
  - destruct (C44_square_source_support (scfg0 [] false false 1) (1 / 4) 2) as (_ & H & _). apply H. cbn [scfg0 st0]. lra.
  - destruct (C44_gaussian_source_support (scfg0 [] false false 1) 0 2) as (_ & H & _). apply H. cbn [scfg0 st0]. lra.
Qed.

(* ---------------------------------------------------------------- C45 *)
Theorem C45_zero_initial_coefficients : forall c mus edges rows, uncollided c = true -> make_IC c mus edges = Ok rows ->
  List.Forall (List.Forall (fun u => forall j, u j = 0)) rows.
Proof. exact make_IC_zero. Qed.
Print Assumptions C45_zero_initial_coefficients.
Theorem C45_build_succeeds : forall c mus edges, uncollided c = true -> (sgeom c = Sphere -> (sM c <= 12)%nat) -> exists rows, make_IC c mus edges = Ok rows.
Proof. exact make_IC_succeeds. Qed.
Print Assumptions C45_build_succeeds.
Example C45_example : exists u v, make_IC (scfg0 [1]%Z true false 5) (1 / 2 :: nil) (-1 :: 0 :: 1 :: nil) = Ok ((u :: v :: nil) :: nil) /\ u 0%nat = 0 /\ v 1%nat = 0.
Proof.
  destruct (C45_build_succeeds (scfg0 [1]%Z true false 5) (1 / 2 :: nil) (-1 :: 0 :: 1 :: nil) eq_refl) as [rows E]; [discriminate|].
  pose proof (C45_zero_initial_coefficients (scfg0 [1]%Z true false 5) _ _ _ eq_refl E) as Z. cbn in E. injection E as <-. inversion Z as [|? ? A _]. inversion A as [|? ? B C]. inversion C as [|? ? D _].
  eexists. eexists. split; [reflexivity|]. split; auto.
Qed.

(* ---------------------------------------------------------------- C46 *)
Theorem C46_square_isotropic_and_normalised : forall c x0 x1 ws x, sgeom c = Slab -> uncollided c = false -> sty_is c 0 1 = false -> sty_is c 1 1 = true -> 0 <= x0 -> rsum ws = 2 ->
  exists psi, (forall mu, IC_function c x0 x1 x mu = Ok psi) /\
    rsum (map (fun w => w * psi) ws) = (if Rltb (- x0) x && Rleb x x0 then strength_s c else 0).
Proof.
  intros c x0 x1 ws x G U P0 P1 H0 Hw. exists (plane_and_square_IC c x0 x). split; [intro; unfold IC_function; rewrite G, U, P0, P1; reflexivity|].
  rewrite weighted_const by auto. unfold plane_and_square_IC. rewrite greater_window by lra. unfold ind. destruct (_ && _); field.
Qed.
Print Assumptions C46_square_isotropic_and_normalised.
Theorem C46_plane_isotropic_and_normalised : forall c x0 x1 ws L, sgeom c = Slab -> uncollided c = false -> sty_is c 0 1 = true -> 0 < x0 -> x0 <= L -> rsum ws = 2 ->
  exists psi : R -> R, (forall x mu, IC_function c x0 x1 x mu = Ok (psi x)) /\ is_RInt (fun x => rsum (map (fun w => w * psi x) ws)) (- L) L (strength_s c).
Proof.
  intros c x0 x1 ws L G U P H0 HL Hw. exists (fun x => plane_and_square_IC c x0 x / x0 / 2). split; [intros; unfold IC_function; rewrite G, U, P, Reqb_false by lra; reflexivity|].
  apply (int_ext (fun x => 2 * (plane_and_square_IC c x0 x / x0 / 2))); [intro; now rewrite weighted_const|]. now apply plane_total.
Qed.
Print Assumptions C46_plane_isotropic_and_normalised.
Example C46_example : forall mu, IC_function (scfg0 [0; 1]%Z false false 3) (1 / 2) 0 0 mu = Ok (3 / 2).
Proof.
  intro mu. destruct (C46_square_isotropic_and_normalised (scfg0 [0; 1]%Z false false 3) (1 / 2) 0 (2 :: nil) 0) as (psi & A & B); try reflexivity; try lra; [cbn; ring|].
  rewrite A. f_equal. rewrite Rltb_true, Rleb_true in B by lra. cbn in B. lra.
Qed.

(* ---------------------------------------------------------------- C78 *)
(** the manufactured source is what the manufactured solution needs when scattering balances absorption *)
Theorem C78_manufactured_source_is_residual : forall c x t mu, 0 <= t -> Rabs x <= t + sx0 c ->
  let psi := fun x t => exp (- x ^ 2 / 2) / (2 * (1 + t)) in
  exists dt dx, is_derive (fun s => psi x s) t dt /\ is_derive (fun y => psi y t) x dx /\ MMS_source c x t mu / 2 = dt + mu * dx.
Proof.
  intros c x t mu Ht Hx. do 2 eexists. split; [now apply mms_t|]. split; [now apply mms_x|]. now apply mms_source_value.
Qed.
Print Assumptions C78_manufactured_source_is_residual.
Theorem C78_manufactured_initial_value : forall x, MMS_IC x = exp (- x ^ 2 / 2) / (2 * (1 + 0)).
Proof. intro x. unfold MMS_IC. replace (- x * x) with (- x ^ 2) by ring. field. Qed.
Print Assumptions C78_manufactured_initial_value.
Theorem C78_manufactured_source_support : forall c x t mu, t + sx0 c < Rabs x -> MMS_source c x t mu = 0.
Proof.
  intros c x t mu H. unfold MMS_source. destruct (Rleb_spec (- t - sx0 c) x) as [A|A]; destruct (Rleb_spec x (t + sx0 c)) as [B|B]; cbn [andb]; try ring.
  exfalso. revert H. unfold Rabs. destruct (Rcase_abs x); lra.
Qed.
Print Assumptions C78_manufactured_source_support.
Example C78_example : MMS_source (scfg0 [] false false 1) 0 0 1 = -1.
Proof. unfold MMS_source. cbn [scfg0 sx0]. rewrite !Rleb_true by lra. cbn [andb]. replace (0 ^ 2 / 2) with 0 by field. rewrite exp_0. field. Qed.

(* ---------------------------------------------------------------- C79 *)
Theorem C79_s2_gaussian_closed_form : forall c x t, erf_ok (erf c) -> 0 < ssigma c ->
  is_RInt (fun tau => 1 / 2 * exp (- (t - tau)) * (exp (- ((x + (t - tau) / sqrt 3) / ssigma c) ^ 2) + exp (- ((x - (t - tau) / sqrt 3) / ssigma c) ^ 2)))
    0 (Rmin t (st0 c)) (uncollided_s2_gaussian (erf c) x t (ssigma c) (st0 c)).
Proof.
  intros c x t HE Hs. pose proof sqrt3_pos as P. pose proof sqrt3_sq as Q. eapply int_ext; [|apply s2_gauss_closed; auto]. intro tau. unfold gaussian_s2_thick_integrand. cbv beta.
  assert (E : forall u, (u / sqrt 3) = sqrt 3 * u / 3) by (intro u; apply (Rmult_eq_reg_r (sqrt 3)); [|lra]; replace (sqrt 3 * u / 3 * sqrt 3) with (sqrt 3 * sqrt 3 * u / 3) by field; rewrite Q; field; lra).
  rewrite E. replace (- t + tau) with (- (t - tau)) by ring.
  replace (- ((x + sqrt 3 * (t - tau) / 3) / ssigma c) ^ 2) with (- (sqrt 3 * t + 3 * x - sqrt 3 * tau) ^ 2 / (9 * ssigma c ^ 2)) by (field; lra).
  replace (- ((x - sqrt 3 * (t - tau) / 3) / ssigma c) ^ 2) with (- (- (sqrt 3 * t) + 3 * x + sqrt 3 * tau) ^ 2 / (9 * ssigma c ^ 2)) by (field; lra). field.
Qed.
Print Assumptions C79_s2_gaussian_closed_form.
(** so thin and thick branches approximate the same number, whichever is taken *)
Theorem C79_branches_agree : forall c x t, erf_ok (erf c) -> 0 < ssigma c ->
  is_RInt (fun tau => gaussian_s2_thick_integrand c tau t x) 0 (Rmin t (st0 c)) (uncollided_s2_gaussian (erf c) x t (ssigma c) (st0 c)).
Proof. exact s2_gauss_closed. Qed.
Print Assumptions C79_branches_agree.
Example C79_example : uncollided_s2_gaussian erf_int 0 0 1 1 = 0.
Proof.
  pose proof (C79_branches_agree (scfg0 [] false false 1) 0 0 erf_contract_holds ltac:(cbn; lra)) as H. cbn [scfg0 st0 ssigma erf] in H. rewrite Rmin_left in H by lra.
  eapply int_uniq2; [exact H|apply int_point].
Qed.

(* ---------------------------------------------------------------- C80 *)
Theorem C80_gaussian_pulse_exact : forall c x t, erf_ok (erf c) -> 0 < ssigma c -> 0 < t -> exists v,
  is_RInt (fun mu => exp (- t) / 2 * exp (- (x - mu * t) ^ 2 / ssigma c ^ 2)) (-1) 1 v /\
  gaussian_IC_uncollided_solution c x t = strength_s c * v * (4 * t / (4 * t + / 10 ^ 12)).
Proof. exact gauss_pulse. Qed.
Print Assumptions C80_gaussian_pulse_exact.
(** but the value at t = 0 is 0 instead of the pulse *)
Theorem C80_gaussian_pulse_start_refuted : exists c x, erf_ok (erf c) /\ 0 < ssigma c /\ 0 < strength_s c /\
  gaussian_IC_uncollided_solution c x 0 <> strength_s c * exp (- x ^ 2 / ssigma c ^ 2).
Proof.
  exists (scfg0 [] true false 1), 0. split; [apply erf_contract_holds|]. split; [cbn; lra|]. split; [cbn; lra|].
  rewrite gauss_pulse_0; [|apply erf_contract_holds|cbn; lra]. cbn [scfg0 strength_s ssigma]. pose proof (exp_pos (- 0 ^ 2 / 1 ^ 2)). lra.
Qed.
Print Assumptions C80_gaussian_pulse_start_refuted.
Theorem C80_gaussian_source_rate : forall c x t tau, erf_ok (erf c) -> 0 < ssigma c -> tau < t ->
  is_RInt (fun mu => exp (- (t - tau)) / 2 * exp (- (x - mu * (t - tau)) ^ 2 / ssigma c ^ 2)) (-1) 1
    (gaussian_source_integrand c tau t x * sqrt PI * ssigma c).
Proof. exact gauss_source_rate. Qed.
Print Assumptions C80_gaussian_source_rate.
Example C80_example : gaussian_IC_uncollided_solution (scfg0 [] true false 1) 7 0 = 0.
Proof. apply gauss_pulse_0; [apply erf_contract_holds|cbn; lra]. Qed.

(* ---------------------------------------------------------------- C81 *)
(** the critical cosine separates directions that come from inside the shell from the others *)
Theorem C81_shell_critical_cosine : forall r t x0 mu, 0 < r -> 0 < t ->
  (r ^ 2 + t ^ 2 - 2 * r * t * mu <= x0 ^ 2 <-> 1 / 2 * (t / r + r / t - x0 ^ 2 / (r * t)) <= mu).
Proof.
  intros r t x0 mu Hr Ht. set (c := 1 / 2 * (t / r + r / t - x0 ^ 2 / (r * t))).
  assert (E : 2 * r * t * c = r ^ 2 + t ^ 2 - x0 ^ 2) by (unfold c; field; lra). assert (P : 0 < 2 * r * t) by nra. split; intro; nra.
Qed.
Print Assumptions C81_shell_critical_cosine.
Theorem C81_shell_flux_exact : forall c r t, 0 < sx0 c -> 0 < r -> 0 <= t ->
  let s := t + / 10 ^ 12 in
  is_RInt (fun mu => exp (- t) / 2 * (/ (4 * PI / 3 * sx0 c ^ 3) * (if Rleb (r ^ 2 + s ^ 2 - 2 * r * s * mu) (sx0 c ^ 2) then 1 else 0))) (-1) 1
    (shell_IC_uncollided_solution c r t).
Proof. exact shell_flux. Qed.
Print Assumptions C81_shell_flux_exact.
Example C81_example : shell_IC_uncollided_solution (scfg0 [] true false 1) 10 1 = 0.
Proof.
  unfold shell_IC_uncollided_solution. cbv zeta. cbn [scfg0 sx0]. rewrite Rmin_left; [ring|]. pose proof eps_pos. assert (/ 10 ^ 12 < 1).
  { rewrite <- Rinv_1. apply Rinv_lt_contravar; [rewrite Rmult_1_l; apply pow_lt; lra|]. apply Rlt_pow_R1; [lra|lia]. }
  set (e := / 10 ^ 12) in *. eapply Rle_trans; [|apply Rmax_r]. apply Rmult_le_reg_r with (2 * (10 * (1 + e))); [lra|].
  replace (1 / 2 * ((1 + e) / 10 + 10 / (1 + e) - (1 / 2) ^ 2 / (10 * (1 + e))) * (2 * (10 * (1 + e)))) with ((1 + e) ^ 2 + 100 - 1 / 4) by (field; lra). nra.
Qed.

(* ---------------------------------------------------------------- C82 *)
(** spherical initial conditions: the shell holds the source strength, the point pulse 8 pi / 3 times as much *)
Theorem C82_shell_normalised : forall c x0 x1 L, sgeom c = Sphere -> uncollided c = false -> sty_is c 0 1 = false -> sty_is c 1 1 = true -> 0 < x0 -> x0 <= L ->
  exists psi : R -> R, (forall r mu, IC_function c x0 x1 r mu = Ok (psi r)) /\ is_RInt (fun r => 4 * PI * r ^ 2 * (2 * psi r)) 0 L (strength_s c).
Proof.
  intros c x0 x1 L G U P0 P1 H0 HL. exists (shell_IC c x0). split; [intros; unfold IC_function; rewrite G, U, P0, P1, Reqb_false by lra; reflexivity|]. now apply shell_total.
Qed.
Print Assumptions C82_shell_normalised.
Theorem C82_point_pulse_total : forall c x0 x1 L, sgeom c = Sphere -> uncollided c = false -> sty_is c 0 1 = true -> 0 < x0 -> x0 <= L ->
  exists psi : R -> R, (forall r mu, IC_function c x0 x1 r mu = Ok (psi r)) /\ is_RInt (fun r => 4 * PI * r ^ 2 * (2 * psi r)) 0 L (8 * PI / 3 * strength_s c).
Proof.
  intros c x0 x1 L G U P H0 HL. exists (fun r => point_pulse c x0 r / x0 ^ 3). split; [intros; unfold IC_function; rewrite G, U, P, Reqb_false by lra; reflexivity|]. now apply point_total.
Qed.
Print Assumptions C82_point_pulse_total.
(** any other spherical source has no initial condition at all *)
Theorem C82_other_spherical_sources_fail : forall c x0 x1 x mu, sgeom c = Sphere -> uncollided c = false -> sty_is c 0 1 = false -> sty_is c 1 1 = false ->
  IC_function c x0 x1 x mu = Err TypeError.
Proof. intros c x0 x1 x mu G U P0 P1. unfold IC_function. now rewrite G, U, P0, P1. Qed.
Print Assumptions C82_other_spherical_sources_fail.
Definition scfg1 (st : list Z) (a : R) : scfg :=
  SCfg Sphere st false false 1 (1 / 2) 1 1 1 a 8 ((0, 2) :: nil) ((0, 2) :: nil) Ei_int erf_int (fun _ _ => 0).
Theorem C82_point_pulse_normalised_refuted : exists c x0 L I, sgeom c = Sphere /\ 0 < x0 <= L /\ strength_s c = 1 /\
  is_RInt (fun r => 4 * PI * r ^ 2 * (2 * match IC_function c x0 0 r 0 with Ok v => v | Err _ => 0 end)) 0 L I /\ I <> 1.
Proof.
  exists (scfg1 [1]%Z 1), 1, 2, (8 * PI / 3 * 1). split; [reflexivity|]. split; [lra|]. split; [reflexivity|]. split.
  - eapply int_ext; [|apply (point_total (scfg1 [1]%Z 1) 1 2); lra]. intro r. cbn. now rewrite Reqb_false by lra.
  - pose proof PI2_1. lra.
Qed.
Print Assumptions C82_point_pulse_normalised_refuted.
Example C82_example : IC_function (scfg1 [0; 0; 1]%Z 1) 1 0 0 0 = Err TypeError.
Proof. now apply C82_other_spherical_sources_fail. Qed.

(* ---------------------------------------------------------------- C83 *)
(** static plane pulse: the half width is replaced by two cell widths; with at least four cells nothing is lost *)
Theorem C83_static_plane_width : forall c n X, (0 < n)%nat -> sgeom c = Slab -> smoving c = false -> uncollided c = false -> sty_is c 0 1 = true ->
  ic_x0 c (uniform_edges (2 * n) X) = Ok (2 * (2 * X / INR (2 * n))).
Proof. exact static_plane_width. Qed.
Print Assumptions C83_static_plane_width.
Theorem C83_static_plane_total : forall c n X x1, (2 <= n)%nat -> 0 < X -> sgeom c = Slab -> smoving c = false -> uncollided c = false -> sty_is c 0 1 = true ->
  exists x0 (psi : R -> R), ic_x0 c (uniform_edges (2 * n) X) = Ok x0 /\ (forall x mu, IC_function c x0 x1 x mu = Ok (psi x)) /\
    is_RInt (fun x => 2 * psi x) (- X) X (strength_s c).
Proof.
  intros c n X x1 Hn HX G Mv U P. exists (2 * (2 * X / INR (2 * n))), (fun x => plane_and_square_IC c (2 * (2 * X / INR (2 * n))) x / (2 * (2 * X / INR (2 * n))) / 2).
  assert (4 <= INR (2 * n)) by (replace 4 with (INR 4) by (cbn; ring); apply le_INR; lia).
  assert (0 < 2 * (2 * X / INR (2 * n))) by (apply Rmult_lt_0_compat; [lra|apply Rdiv_lt_0_compat; lra]).
  split; [apply static_plane_width; auto; lia|]. split; [intros; unfold IC_function; rewrite G, U, P, Reqb_false by lra; reflexivity|].
  apply plane_total; [apply Rmult_lt_0_compat; [lra|apply Rdiv_lt_0_compat; lra]|].
  apply Rmult_le_reg_r with (INR (2 * n)); [lra|]. replace (2 * (2 * X / INR (2 * n)) * INR (2 * n)) with (4 * X) by (field; lra). rewrite (Rmult_comm X). apply Rmult_le_compat_r; lra.
Qed.
Print Assumptions C83_static_plane_total.
(** with two cells half the particles are lost *)
Theorem C83_two_cells_lose_half : forall c X x1, 0 < X -> sgeom c = Slab -> smoving c = false -> uncollided c = false -> sty_is c 0 1 = true ->
  exists x0 (psi : R -> R), ic_x0 c (uniform_edges 2 X) = Ok x0 /\ (forall x mu, IC_function c x0 x1 x mu = Ok (psi x)) /\
    is_RInt (fun x => 2 * psi x) (- X) X (strength_s c / 2).
Proof.
  intros c X x1 HX G Mv U P. exists (2 * X), (fun x => plane_and_square_IC c (2 * X) x / (2 * X) / 2).
  split; [|split; [intros; unfold IC_function; rewrite G, U, P, Reqb_false by lra; reflexivity|]].
  - change 2%nat with (2 * 1)%nat at 1. rewrite static_plane_width by auto. cbn [Nat.mul Nat.add]. change (INR 2) with 2. f_equal. field.
  - eapply int_eq; [apply plane_partial; lra|]. field. lra.
Qed.
Print Assumptions C83_two_cells_lose_half.
Theorem C83_total_kept_refuted : exists c N X x0, (0 < N)%nat /\ 0 < X /\ ic_x0 c (uniform_edges N X) = Ok x0 /\ exists psi : R -> R, (forall x mu, IC_function c x0 0 x mu = Ok (psi x)) /\
  exists I, is_RInt (fun x => 2 * psi x) (- X) X I /\ I <> strength_s c.
Proof.
  destruct (C83_two_cells_lose_half (scfg0 [1]%Z false false 1) 1 0) as (x0 & psi & A & B & C); try reflexivity; try lra.
  exists (scfg0 [1]%Z false false 1), 2%nat, 1, x0. split; [lia|]. split; [lra|]. split; [auto|]. exists psi. split; auto. eexists. split; [exact C|]. cbn. lra.
Qed.
Print Assumptions C83_total_kept_refuted.
(** the dipole holds +strength on the right and -strength on the left *)
Theorem C83_dipole_halves : forall c x1 L, x1 <> 0 -> Rabs x1 <= L ->
  is_RInt (fun x => 2 * (dipole c x1 x / Rabs x1)) 0 L (strength_s c) /\ is_RInt (fun x => 2 * (dipole c x1 x / Rabs x1)) (- L) 0 (- strength_s c).
Proof. exact dipole_half. Qed.
Print Assumptions C83_dipole_halves.
Example C83_example : ic_x0 (scfg0 [1]%Z false false 1) (uniform_edges 4 1) = Ok 1.
Proof. change 4%nat with (2 * 2)%nat. rewrite C83_static_plane_width by (auto; lia). cbn [Nat.mul Nat.add]. f_equal. simpl INR. field. Qed.

(* ---------------------------------------------------------------- C84 *)
(** moving plane pulse: the zeroth source coefficient is the exact projection of the uncollided flux on a cell inside the
    light cone, with the guard 1e-12 replaced by the source half width *)
Theorem C84_plane_integrated_vs_projection : forall c t xL xR, 0 <= t -> - t <= xL -> xL < xR -> xR <= t -> 0 <= sx0 c ->
  exists I, is_RInt (fun x => plane_IC_uncollided_solution c x t * (/ sqrt (xR - xL))) xL xR I /\
    plane_IC_uncollided_solution_integrated c t xL xR * (2 * t + sx0 c) = I * (2 * t + / 10 ^ 12).
Proof.
  intros c t xL xR Ht H1 H2 H3 H0. pose proof eps_pos as Ep. assert (P : 0 < sqrt (xR - xL)) by (apply sqrt_lt_R0; lra).
  exists (exp (- t) / (2 * t + / 10 ^ 12) * sqrt (xR - xL)). split.
  - apply (int_ext_open (fun x => exp (- t) / (2 * t + / 10 ^ 12) * / sqrt (xR - xL))); [lra| |].
    + intros x Hx. unfold plane_IC_uncollided_solution. rewrite !Rleb_true by lra. reflexivity.
    + eapply int_eq; [apply int_const|]. assert (S : xR - xL = sqrt (xR - xL) * sqrt (xR - xL)) by (rewrite sqrt_sqrt; lra). rewrite S at 1. field. lra.
  - unfold plane_IC_uncollided_solution_integrated. field. lra.
Qed.
Print Assumptions C84_plane_integrated_vs_projection.
(** it is therefore too small whenever the half width exceeds the guard *)
Theorem C84_plane_integrated_exact_refuted : exists c t xL xR I, 0 < t /\ - t <= xL /\ xL < xR /\ xR <= t /\ 0 < sx0 c /\
  is_RInt (fun x => plane_IC_uncollided_solution c x t * (/ sqrt (xR - xL))) xL xR I /\
  plane_IC_uncollided_solution_integrated c t xL xR < 9 / 10 * I.
Proof.
  destruct (C84_plane_integrated_vs_projection (scfg0 [1]%Z true true 1) 1 0 1) as (I & A & B); try lra; [cbn; lra|].
  exists (scfg0 [1]%Z true true 1), 1, 0, 1, I. repeat split; try lra; [cbn; lra|auto|]. pose proof eps_pos as Ep. cbn [scfg0 sx0] in B.
  assert (L : / 10 ^ 12 < / 10). { apply Rinv_lt_contravar; [apply Rmult_lt_0_compat; [lra|apply pow_lt; lra]|]. rewrite <- (pow_1 10) at 1. apply Rlt_pow; [lra|lia]. }
  set (p := plane_IC_uncollided_solution_integrated _ _ _ _) in *.
  assert (0 < p). { unfold p, plane_IC_uncollided_solution_integrated. cbn [scfg0 sx0]. apply Rmult_lt_0_compat; [apply Rdiv_lt_0_compat; [apply exp_pos|lra]|apply sqrt_lt_R0; lra]. }
  assert (0 < I) by nra. nra.
Qed.
Print Assumptions C84_plane_integrated_exact_refuted.
Example C84_example : plane_IC_uncollided_solution_integrated (scfg0 [1]%Z true true 1) 0 0 1 = 2.
Proof. unfold plane_IC_uncollided_solution_integrated. cbn [scfg0 sx0]. rewrite Rminus_0_r, sqrt_1, Ropp_0, exp_0. field. Qed.
