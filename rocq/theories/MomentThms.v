(** Theorems about the moments of the external sources and of smooth initial conditions (C173): the errors of the rule in space. *)
From Coquelicot Require Import Coquelicot.
From Verif Require Import Py PyLemmas Calc Legendre Cheb DGModel DGSpec DGProofs DGInt FuncModel FuncProofs FuncLobatto GaussExist ErrProofs SourceModel SourceProofs SourceMore SourceGauss SourceIC SourceThms UncolThms OutProofs DiffusionModel.
Local Open Scope R_scope.
Local Open Scope list_scope.

(** Legendre polynomials are at most 1 in size on [-1,1] *)
Lemma leg_bound n z : -1 <= z <= 1 -> Rabs (leg n z) <= 1.
Proof.
  intro Hz. destruct n as [|n]; [rewrite leg_0, Rabs_R1; lra|]. set (k := INR (S n) * (INR (S n) + 1)). assert (K : 0 < k) by (unfold k; pose proof (lt_0_INR (S n) ltac:(lia)); nra).
  set (F := fun z => leg (S n) z * leg (S n) z + / k * ((1 - z * z) * (dleg (S n) z * dleg (S n) z))).
  assert (D : forall z, is_derive F z (/ k * (2 * z * (dleg (S n) z * dleg (S n) z)))).
  { intro y. eapply dd_eq; [apply dd_plus; [apply dd_mult; apply leg_derive|apply dd_scal, dd_mult; [apply dd_minus; [apply (dd_const 1)|apply dd_mult; apply dd_id]|apply dd_mult; apply dleg_derive]]|].
    cbv beta. pose proof (legendre_eq (S n) y) as E. fold k in E. assert (E2 : leg (S n) y = / k * (2 * y * dleg (S n) y - (1 - y * y) * ddleg (S n) y)) by (apply (Rmult_eq_reg_l k); [|lra]; rewrite <- Rmult_assoc, Rinv_r by lra; lra).
    rewrite E2. ring. }
  assert (F1 : F 1 = 1 /\ F (-1) = 1).
  { unfold F. rewrite leg_1_val, leg_m1_val. split; [ring|]. replace (1 - -1 * -1) with 0 by ring. rewrite <- Rpow_mult_distr. replace (-1 * -1) with 1 by ring. rewrite pow1. ring. }
  assert (L : F z <= 1).
  { destruct (Rle_lt_dec 0 z) as [P|P].
    - rewrite <- (proj1 F1). destruct (Req_dec z 1) as [->|N]; [lra|]. destruct (MVT_gen F z 1 (fun z => / k * (2 * z * (dleg (S n) z * dleg (S n) z)))) as (w & Hw & E).
      + intros; apply D.
      + intros. apply continuity_pt_filterlim, (ex_derive_continuous F). eexists. apply D.
      + rewrite Rmin_left, Rmax_right in Hw by lra. assert (0 <= / k * (2 * w * (dleg (S n) w * dleg (S n) w))); [|nra]. apply Rmult_le_pos; [left; now apply Rinv_0_lt_compat|]. apply Rmult_le_pos; [lra|apply Rle_0_sqr].
    - rewrite <- (proj2 F1). destruct (Req_dec z (-1)) as [->|N]; [lra|]. destruct (MVT_gen F (-1) z (fun z => / k * (2 * z * (dleg (S n) z * dleg (S n) z)))) as (w & Hw & E).
      + intros; apply D.
      + intros. apply continuity_pt_filterlim, (ex_derive_continuous F). eexists. apply D.
      + rewrite Rmin_left, Rmax_right in Hw by lra. assert (/ k * (2 * w * (dleg (S n) w * dleg (S n) w)) <= 0); [|nra]. assert (0 <= / k * (2 * - w * (dleg (S n) w * dleg (S n) w))); [|lra]. apply Rmult_le_pos; [left; now apply Rinv_0_lt_compat|]. apply Rmult_le_pos; [lra|apply Rle_0_sqr]. }
  assert (Q : 0 <= / k * ((1 - z * z) * (dleg (S n) z * dleg (S n) z))) by (apply Rmult_le_pos; [left; now apply Rinv_0_lt_compat|]; apply Rmult_le_pos; [nra|apply Rle_0_sqr]).
  unfold F in L. apply Rabs_le. nra.
Qed.
Lemma refz_in a b x : a < b -> a <= x <= b -> -1 <= (b + a - 2 * x) / (a - b) <= 1.
Proof.
  intros Hab Hx. replace ((b + a - 2 * x) / (a - b)) with ((2 * x - a - b) / (b - a)) by (field; lra). split; apply (Rmult_le_reg_r (b - a)); try lra; unfold Rdiv; rewrite Rmult_assoc, Rinv_l; lra.
Qed.
Lemma normPn_bound j x a b : a < b -> a <= x <= b -> Rabs (normPn j x a b) <= sqrt ((2 * INR j + 1) / (b - a)).
Proof.
  intros Hab Hx. unfold normPn. cbv zeta. rewrite Rabs_mult, (Rabs_pos_eq (sqrt _)) by apply sqrt_pos. pose proof (leg_bound j _ (refz_in a b x Hab Hx)). pose proof (sqrt_pos ((2 * INR j + 1) / (b - a))). nra.
Qed.
Lemma deg_normPn j a b : a < b -> deg_le j (fun x => normPn j x a b).
Proof.
  intro Hab. unfold normPn. cbv zeta. set (w := sqrt ((2 * INR j + 1) / (b - a))).
  apply (deg_ext _ (fun x => w * leg j (2 / (b - a) * x + - (a + b) / (b - a)) + 0 * leg j (2 / (b - a) * x + - (a + b) / (b - a)))).
  - intro x. replace (2 / (b - a) * x + - (a + b) / (b - a)) with ((b + a - 2 * x) / (a - b)) by (field; lra). ring.
  - apply deg_lin; apply (deg_affine j (leg j)); apply deg_leg.
Qed.
Lemma deg_cont D p x : deg_le D p -> continuous p x.
Proof.
  intros (l & _ & H). apply (continuous_ext (ph l)); [intro; now rewrite H|]. clear H. apply (ex_derive_continuous (ph l)). unfold ph.
  induction l as [|c l IH]; cbn [fold_right]; [apply (ex_derive_const 0)|]. apply (ex_derive_plus (fun _ => c) (fun x => x * fold_right (fun c acc => c + x * acc) 0 l)); [apply (ex_derive_const c)|].
  apply (ex_derive_mult (fun x => x)); [apply (ex_derive_id x)|exact IH].
Qed.
(** the moment of a function near a polynomial *)
Lemma moment_near q a b j D (f p : R -> R) e I : a < b -> sound_rule q -> exact_to q (D + j) -> deg_le D p -> (forall x, a <= x <= b -> Rabs (f x - p x) <= e) ->
  is_RInt (fun x => f x * normPn j x a b) a b I -> Rabs (integrate_quad_time q a b (fun x => f x * normPn j x a b) - I) <= 2 * sqrt ((2 * INR j + 1) * (b - a)) * e.
Proof.
  intros Hab Sd Ex P N HI. assert (He : 0 <= e) by (eapply Rle_trans; [apply Rabs_pos|apply (N a); lra]).
  replace (2 * sqrt ((2 * INR j + 1) * (b - a)) * e) with (2 * (b - a) * (e * sqrt ((2 * INR j + 1) / (b - a)))).
  - apply (quad_near q (D + j) (fun x => f x * normPn j x a b) (fun x => p x * normPn j x a b)); auto; [lra|now apply deg_mul, deg_normPn|].
    intros x Hx. replace (f x * normPn j x a b - p x * normPn j x a b) with ((f x - p x) * normPn j x a b) by ring. rewrite Rabs_mult. apply Rmult_le_compat; try apply Rabs_pos; [now apply N|now apply normPn_bound].
  - pose proof (pos_INR j). replace ((2 * INR j + 1) * (b - a)) with ((2 * INR j + 1) / (b - a) * ((b - a) * (b - a))) by (field; lra). rewrite sqrt_mult_alt by (apply Rmult_le_pos; [lra|left; apply Rinv_0_lt_compat; lra]). rewrite sqrt_square by lra. ring.
Qed.
Lemma src_quad_time c a b j f : src_quad c a b j f = integrate_quad_time (squad c) a b (fun x => f x * normPn j x a b).
Proof. reflexivity. Qed.
(** e^(-x^2/s) times a polynomial of degree d, on a cell *)
Lemma bell_poly s N x m : 0 < s -> Rabs x <= m -> Rabs (exp (- x * x / s) - cut N (- x * x / s)) <= (m ^ 2 / s) ^ (N + 1) / INR (fact (N + 1)).
Proof.
  intros Hs Hx. assert (Q : 0 <= x * x / s <= m ^ 2 / s).
  { split; [apply Rmult_le_pos; [apply Rle_0_sqr|left; now apply Rinv_0_lt_compat]|]. apply Rmult_le_compat_r; [left; now apply Rinv_0_lt_compat|]. pose proof (Rabs_pos x). replace (x * x) with (Rabs x ^ 2) by (rewrite pow2_abs; ring). apply pow_incr. lra. }
  replace (- x * x / s) with (- (x * x / s)) by (field; lra). eapply Rle_trans; [apply exp_cut; lra|]. rewrite Rabs_Ropp, Rabs_pos_eq by lra. apply Rmult_le_compat_r; [left; apply Rinv_0_lt_compat, INR_fact_lt_0|]. apply pow_incr. lra.
Qed.
Lemma deg_bell s N : 0 < s -> deg_le (2 * N) (fun x => cut N (- x * x / s)).
Proof.
  intro Hs. apply (deg_cut N (fun x => - x * x / s)). exists [0; 0; - / s]. split; [cbn; lia|]. intro z. unfold ph. cbn [fold_right]. field. lra.
Qed.
Lemma cont_normPn j a b x : a < b -> continuous (fun x => normPn j x a b) x.
Proof. intro H. apply (deg_cont j). now apply deg_normPn. Qed.
Lemma cell_size a b x : a <= x <= b -> Rabs x <= Rmax (Rabs a) (Rabs b).
Proof. intro H. unfold Rmax, Rabs. repeat destruct (Rcase_abs _); destruct (Rle_dec _ _); lra. Qed.

(* ---------------------------------------------------------------- C173 *)
Definition slab_off (c : scfg) : Prop := sgeom c = Slab /\ uncollided c = false.
(** a cell inside the square source, and a cell outside: exact moments *)
Theorem C173_square_source_moments : forall c t a b S, slab_off c -> sty_is c 2 1 = true -> a < b ->
  (forall p, In p (squad c) -> -1 < fst p < 1 /\ 0 <= snd p) -> exact_to (squad c) (sM c) ->
  exists S', make_source c t a b S = Ok S' /\ forall j, (j <= sM c)%nat ->
    (t < st0 c -> - sx0 c <= a -> b <= sx0 c -> S' j = strength_s c * (if (j =? 0)%nat then sqrt (b - a) else 0)) /\
    (st0 c <= t \/ sx0 c <= a \/ b <= - sx0 c -> S' j = 0).
Proof.
  intros c t a b S (G & U) S2 Hab Sd Ex. unfold make_source. rewrite G, U, S2. cbn [bind]. eexists. split; [reflexivity|]. intros j Hj. cbv beta. rewrite (proj2 (Nat.leb_le j (sM c)) Hj).
  assert (Node : forall p, In p (squad c) -> a < (b - a) / 2 * fst p + (a + b) / 2 < b) by (intros p Hp; destruct (Sd p Hp) as [H _]; nra).
  split.
  - intros Ht Ha Hb. assert (E : src_quad c a b j (fun x => square_source c x t) = (b - a) / 2 * qsum (squad c) (fun z => 1 * normPn j ((b - a) / 2 * z + (a + b) / 2) a b)).
    { unfold src_quad, qsum. f_equal. f_equal. apply map_ext_in. intros p Hp. cbv zeta. unfold square_source. specialize (Node p Hp). rewrite Rleb_true, Rltb_true by (auto; apply Rabs_le; lra). reflexivity. }
    rewrite E, Rmult_comm. f_equal. change (integrate_quad_time (squad c) a b (fun x => 1 * normPn j x a b) = (if (j =? 0)%nat then sqrt (b - a) else 0)).
    assert (B : Rabs (integrate_quad_time (squad c) a b (fun x => 1 * normPn j x a b) - (if (j =? 0)%nat then sqrt (b - a) else 0)) <= 2 * sqrt ((2 * INR j + 1) * (b - a)) * 0).
    { apply (moment_near (squad c) a b j 0 (fun _ => 1) (fun _ => 1)); auto; [intros k Hk; apply Ex; lia|apply deg_const|intros; rewrite Rminus_eq_0, Rabs_R0; lra|].
      eapply int_ext; [|apply (int_basis j a b Hab)]. intro x. rewrite normPn_basis by auto. ring. }
    rewrite Rmult_0_r in B. apply Rminus_diag_uniq. destruct (Req_dec (integrate_quad_time (squad c) a b (fun x => 1 * normPn j x a b) - (if (j =? 0)%nat then sqrt (b - a) else 0)) 0) as [Z|Z]; auto. apply Rabs_pos_lt in Z. lra.
  - intro H. assert (E : src_quad c a b j (fun x => square_source c x t) = (b - a) / 2 * qsum (squad c) (fun z => 0)).
    { unfold src_quad, qsum. f_equal. f_equal. apply map_ext_in. intros p Hp. cbv zeta. unfold square_source. specialize (Node p Hp).
      destruct (Rltb_spec t (st0 c)) as [T|T]; [|rewrite Bool.andb_false_r; ring]. rewrite Rleb_false; [cbn [andb]; ring|]. destruct H as [H|[H|H]]; [lra| |]; unfold Rabs; destruct (Rcase_abs _); lra. }
    rewrite E. assert (Z : qsum (squad c) (fun _ => 0) = 0); [|rewrite Z; ring]. unfold qsum. generalize (squad c). intro l. induction l as [|p l IH]; [reflexivity|]. unfold rsum in *. cbn [map fold_right]. rewrite IH. ring.
Qed.
Print Assumptions C173_square_source_moments.
(** not so when an end of the source lies inside the cell *)
Theorem C173_square_source_cut_cell_refuted : exists c t a b S', slab_off c /\ sty_is c 2 1 = true /\ a < b /\ t < st0 c /\ exact_to (squad c) (4 * sM c + 1) /\ make_source c t a b (fun _ => 0) = Ok S' /\
  is_RInt (fun x => square_source c x t * normPn 0 x a b) a b (1 / sqrt 3) /\ S' 0%nat = 0.
Proof.
  set (c := SCfg Slab [0; 0; 1; 0; 0; 0]%Z false false 0 1 1 1 1 1 8 ((0, 2) :: nil) ((0, 2) :: nil) Ei_int erf_int (fun _ _ => 0)). exists c, 0, 0, 3. eexists. split; [split; reflexivity|]. split; [reflexivity|]. split; [lra|]. split; [cbn; lra|]. split.
  { intros k Hk. assert (k = 0 \/ k = 1)%nat as [->| ->] by (cbn in Hk; lia); unfold leg_exact, qsum, rsum; cbn [map fold_right squad c fst snd pow].
    - apply (int_ext (fun _ => 1)); [intro; reflexivity|]. eapply int_eq; [apply int_const|ring].
    - eapply int_eq; [apply (int_ftc (fun z => / 2 * z ^ 2) (fun z => z * 1))|].
      + intro z. eapply dd_eq; [apply dd_scal, dd_power|]. cbn. field.
      + intro z. apply (ex_derive_continuous (fun z => z * 1)). auto_derive. auto.
      + cbv beta. ring. }
  split; [reflexivity|]. split.
  - replace (1 / sqrt 3) with (1 / sqrt 3 + 0) by ring. apply (int_chasles _ 0 1 3).
    + apply (int_ext_open (fun _ => 1 / sqrt 3)); [lra| |eapply int_eq; [apply int_const|ring]]. intros x Hx. rewrite normPn_basis, basis0 by lra. unfold square_source. cbn [c sx0 st0]. rewrite Rleb_true, Rltb_true by (try lra; apply Rabs_le; lra). cbn [andb]. replace (3 - 0) with 3 by ring. ring.
    + apply (int_ext_open (fun _ => 0)); [lra| |eapply int_eq; [apply int_const|ring]]. intros x Hx. unfold square_source. cbn [c sx0 st0]. rewrite Rleb_false; [cbn [andb]; ring|]. rewrite Rabs_pos_eq; lra.
  - cbn [sM c Nat.leb strength_s]. unfold src_quad, qsum, rsum. cbn [squad c map fold_right fst snd]. cbv zeta. unfold square_source. cbn [c sx0 st0]. rewrite Rleb_false; [cbn [andb]; ring|]. rewrite Rabs_pos_eq; lra.
Qed.
Print Assumptions C173_square_source_cut_cell_refuted.
(** Gaussian source: error of the rule; nothing after the end *)
Theorem C173_gaussian_source_moments : forall c t a b S N, slab_off c -> sty_is c 2 1 = false -> sty_is c 5 1 = true -> a < b -> 0 < ssigma c ->
  (forall p, In p (squad c) -> -1 < fst p < 1 /\ 0 <= snd p) -> exact_to (squad c) (2 * N + sM c) ->
  exists S', make_source c t a b S = Ok S' /\ forall j, (j <= sM c)%nat -> exists I, is_RInt (fun x => gaussian_source c x t * normPn j x a b) a b I /\ (st0 c < t -> I = 0 /\ S' j = 0) /\
    Rabs (S' j - strength_s c * I) <= Rabs (strength_s c) * (2 * sqrt ((2 * INR j + 1) * (b - a)) * ((Rmax (Rabs a) (Rabs b) ^ 2 / ssigma c ^ 2) ^ (N + 1) / INR (fact (N + 1)))).
Proof.
  intros c t a b S N (G & U) S2 S5 Hab Hs Sd Ex. unfold make_source. rewrite G, U, S2, S5. cbn [bind]. eexists. split; [reflexivity|]. intros j Hj. cbv beta. rewrite (proj2 (Nat.leb_le j (sM c)) Hj).
  assert (P2 : 0 < ssigma c ^ 2) by (apply pow_lt; auto). set (m := Rmax (Rabs a) (Rabs b)). set (B := (m ^ 2 / ssigma c ^ 2) ^ (N + 1) / INR (fact (N + 1))).
  assert (PB : 0 <= B). { unfold B. apply Rmult_le_pos; [apply pow_le, Rmult_le_pos; [apply pow2_ge_0|left; now apply Rinv_0_lt_compat]|left; apply Rinv_0_lt_compat, INR_fact_lt_0]. }
  destruct (Rle_lt_dec t (st0 c)) as [T|T].
  - set (f := fun x => gaussian_source c x t). assert (F : forall x, f x = exp (- x * x / ssigma c ^ 2)) by (intro x; unfold f, gaussian_source; now rewrite Rleb_true by auto).
    assert (I : is_RInt (fun x => f x * normPn j x a b) a b (RInt (fun x => f x * normPn j x a b) a b)).
    { apply (int_val (fun x => f x * normPn j x a b)). intro x. apply (continuous_mult f (fun x => normPn j x a b)); [|now apply cont_normPn]. apply (continuous_ext (fun x => exp (- x * x / ssigma c ^ 2))); [intro; now rewrite F|]. apply (ex_derive_continuous (fun x => exp (- x * x / ssigma c ^ 2))). auto_derive. auto. }
    eexists. split; [exact I|]. split; [lra|]. match goal with |- Rabs (?u * ?s - ?s * ?v) <= _ => replace (u * s - s * v) with (s * (u - v)) by ring end. rewrite Rabs_mult. apply Rmult_le_compat_l; [apply Rabs_pos|].
    rewrite src_quad_time. apply (moment_near (squad c) a b j (2 * N) f (fun x => cut N (- x * x / ssigma c ^ 2))); auto; [intros k Hk; apply Ex; lia|now apply deg_bell|].
    intros x Hx. rewrite F. apply bell_poly; auto. now apply cell_size.
  - assert (Z : src_quad c a b j (fun x => gaussian_source c x t) = 0).
    { assert (E : src_quad c a b j (fun x => gaussian_source c x t) = (b - a) / 2 * qsum (squad c) (fun z => 0)).
      { unfold src_quad, qsum. f_equal. f_equal. apply map_ext. intro p. cbv zeta. unfold gaussian_source. rewrite Rleb_false by auto. ring. }
      rewrite E. assert (Z : qsum (squad c) (fun _ => 0) = 0); [|rewrite Z; ring]. unfold qsum. generalize (squad c). intro l. induction l as [|p l IH]; [reflexivity|]. unfold rsum in *. cbn [map fold_right]. rewrite IH. ring. }
    exists 0. split; [|split; [intros _; split; [reflexivity|rewrite Z; ring]|]].
    + apply (int_ext (fun _ => 0)); [intro x; unfold gaussian_source; rewrite Rleb_false by auto; ring|]. eapply int_eq; [apply int_const|ring].
    + rewrite Z. replace (0 * strength_s c - strength_s c * 0) with 0 by ring. rewrite Rabs_R0. apply Rmult_le_pos; [apply Rabs_pos|]. apply Rmult_le_pos; [pose proof (sqrt_pos ((2 * INR j + 1) * (b - a))); lra|exact PB].
Qed.
Print Assumptions C173_gaussian_source_moments.
(** manufactured source, on a cell inside its window; without the flag nothing is changed *)
Theorem C173_manufactured_moments : forall c t mu a b S N j, a < b -> 0 <= t -> -1 <= mu <= 1 -> - t - sx0 c <= a -> b <= t + sx0 c -> sty_is c 4 1 = true ->
  (forall p, In p (squad c) -> -1 < fst p < 1 /\ 0 <= snd p) -> exact_to (squad c) (2 * N + 1 + sM c) -> (j <= sM c)%nat ->
  exists I, is_RInt (fun x => - ((1 + (1 + t) * x * mu) / (1 + t) ^ 2 * exp (- x * x / 2)) * normPn j x a b) a b I /\
    Rabs (make_source_not_isotropic c t mu a b S j - I) <= 2 * sqrt ((2 * INR j + 1) * (b - a)) * ((1 + (1 + t) * Rmax (Rabs a) (Rabs b)) / (1 + t) ^ 2 * ((Rmax (Rabs a) (Rabs b) ^ 2 / 2) ^ (N + 1) / INR (fact (N + 1)))).
Proof.
  intros c t mu a b S N j Hab Ht Hm Ha Hb S4 Sd Ex Hj. unfold make_source_not_isotropic. rewrite S4, (proj2 (Nat.leb_le j (sM c)) Hj). set (m := Rmax (Rabs a) (Rabs b)).
  set (f := fun x => - ((1 + (1 + t) * x * mu) / (1 + t) ^ 2 * exp (- x * x / 2))).
  assert (I : is_RInt (fun x => f x * normPn j x a b) a b (RInt (fun x => f x * normPn j x a b) a b)).
  { apply (int_val (fun x => f x * normPn j x a b)). intro x. apply (continuous_mult f (fun x => normPn j x a b)); [|now apply cont_normPn]. apply (ex_derive_continuous f). unfold f. auto_derive. auto. }
  eexists. split; [exact I|]. rewrite src_quad_time.
  assert (E : integrate_quad_time (squad c) a b (fun x => MMS_source c x t mu * normPn j x a b) = integrate_quad_time (squad c) a b (fun x => f x * normPn j x a b)).
  { unfold integrate_quad_time, qsum. f_equal. f_equal. apply map_ext_in. intros p Hp. destruct (Sd p Hp) as [Hz _]. set (x := (b - a) / 2 * fst p + (a + b) / 2). assert (Hx : a < x < b) by (unfold x; nra). f_equal. f_equal.
    unfold MMS_source. rewrite !Rleb_true by lra. cbn [andb]. unfold f. replace (- x * x / 2) with (- (x ^ 2 / 2)) by field. rewrite exp_Ropp. pose proof (exp_pos (x ^ 2 / 2)). field. split; lra. }
  rewrite E. apply (moment_near (squad c) a b j (1 + 2 * N) f (fun x => (- / (1 + t) ^ 2 + - mu / (1 + t) * x) * cut N (- x * x / 2))); auto.
  - intros k Hk. apply Ex. lia.
  - apply deg_mul; [|apply deg_bell; lra]. exists [- / (1 + t) ^ 2; - mu / (1 + t)]. split; [cbn; lia|]. intro z. unfold ph. cbn [fold_right]. ring.
  - intros x Hx. unfold f. assert (P1 : 0 < 1 + t) by lra. assert (Hxm := cell_size a b x Hx). fold m in Hxm.
    replace (- ((1 + (1 + t) * x * mu) / (1 + t) ^ 2 * exp (- x * x / 2)) - (- / (1 + t) ^ 2 + - mu / (1 + t) * x) * cut N (- x * x / 2))
      with (- ((1 + (1 + t) * x * mu) / (1 + t) ^ 2) * (exp (- x * x / 2) - cut N (- x * x / 2))) by (set (u := exp (- x * x / 2)); set (v := cut N (- x * x / 2)); field; lra).
    rewrite Rabs_mult. apply Rmult_le_compat; try apply Rabs_pos; [|apply bell_poly; lra]. rewrite Rabs_Ropp. unfold Rdiv. assert (0 < / (1 + t) ^ 2) by (apply Rinv_0_lt_compat, pow_lt; auto). rewrite Rabs_mult, (Rabs_pos_eq (/ (1 + t) ^ 2)) by lra. apply Rmult_le_compat_r; [lra|].
    eapply Rle_trans; [apply Rabs_triang|]. rewrite Rabs_R1, !Rabs_mult, (Rabs_pos_eq (1 + t)) by lra. assert (Rabs mu <= 1) by (apply Rabs_le; lra). pose proof (Rabs_pos x). pose proof (Rabs_pos mu).
    assert (Rabs x * Rabs mu <= m) by nra. nra.
Qed.
Print Assumptions C173_manufactured_moments.
Theorem C173_no_flag_no_source : forall c t mu a b S, sty_is c 4 1 = false -> make_source_not_isotropic c t mu a b S = S.
Proof. intros c t mu a b S H. unfold make_source_not_isotropic. now rewrite H. Qed.
Print Assumptions C173_no_flag_no_source.
Example C173_example : exists S', make_source (SCfg Slab [0; 0; 1; 0; 0; 0]%Z false false 0 1 1 1 1 3 8 ((0, 2) :: nil) ((0, 2) :: nil) Ei_int erf_int (fun _ _ => 0)) 0 0 (1 / 4) (fun _ => 7) = Ok S' /\ S' 0%nat = 3 / 2.
Proof.
  set (c := SCfg _ _ _ _ _ _ _ _ _ _ _ _ _ _ _ _). destruct (C173_square_source_moments c 0 0 (1 / 4) (fun _ => 7)) as (S' & E & H); try (split; reflexivity); try reflexivity; try lra.
  - intros p [<-|[]]. cbn. lra.
  - intros k Hk. cbn in Hk. replace k with 0%nat by lia. unfold leg_exact. apply (int_ext (fun _ => 1)); [intro; reflexivity|]. eapply int_eq; [apply int_const|]. unfold qsum, rsum. cbn. ring.
  - exists S'. split; [exact E|]. destruct (H 0%nat (le_n 0)) as [A _]. rewrite A by (cbn; lra). cbn [Nat.eqb c strength_s]. replace (1 / 4 - 0) with ((1 / 2) ^ 2) by field. rewrite sqrt_pow2 by lra. field.
Qed.

(* ---------------------------------------------------------------- C174 *)
Lemma bell_coef c x0 x1 a b mu j N k s v : sgeom c = Slab -> a < b -> 0 < s -> sound_rule (squad c) -> exact_to (squad c) (2 * N + j) ->
  (forall y, a < y < b -> IC_function c x0 x1 y mu = Ok (k * exp (- y * y / s))) -> ic_entry c x0 x1 a b mu j = Ok v ->
  exists I, is_RInt (fun x => exp (- x * x / s) * normPn j x a b) a b I /\
    Rabs (v - k * I) <= Rabs k * (2 * sqrt ((2 * INR j + 1) * (b - a)) * ((Rmax (Rabs a) (Rabs b) ^ 2 / s) ^ (N + 1) / INR (fact (N + 1)))).
Proof.
  intros G Hab Hs Sd Ex HF HV. set (f := fun x => exp (- x * x / s)).
  assert (I : is_RInt (fun x => f x * normPn j x a b) a b (RInt (fun x => f x * normPn j x a b) a b)).
  { apply (int_val (fun x => f x * normPn j x a b)). intro x. apply (continuous_mult f (fun x => normPn j x a b)); [|now apply cont_normPn]. apply (ex_derive_continuous f). unfold f. auto_derive. auto. }
  eexists. split; [exact I|].
  assert (E : v = k * integrate_quad_time (squad c) a b (fun x => f x * normPn j x a b)).
  { unfold ic_entry in HV. rewrite G in HV. rewrite (map_result_ok_in _ (fun p => let x := (b - a) / 2 * fst p + (a + b) / 2 in snd p * (k * f x) * normPn j x a b)) in HV.
    - cbn [bind] in HV. injection HV as <-. unfold integrate_quad_time, qsum.
      assert (Q : rsum (map (fun p => let x := (b - a) / 2 * fst p + (a + b) / 2 in snd p * (k * f x) * normPn j x a b) (squad c)) = k * rsum (map (fun p => snd p * (f ((b - a) / 2 * fst p + (a + b) / 2) * normPn j ((b - a) / 2 * fst p + (a + b) / 2) a b)) (squad c))).
      { generalize (squad c). intro l. induction l as [|p l IH]; [cbn; ring|]. unfold rsum in *. cbn [map fold_right]. rewrite IH. cbv zeta. ring. }
      cbv zeta in Q |- *. unfold rsum in *. rewrite Q. field.
    - intros p Hp. cbv zeta. destruct (Sd p Hp) as [Hz _]. rewrite HF by nra. reflexivity. }
  rewrite E, <- Rmult_minus_distr_l, Rabs_mult. apply Rmult_le_compat_l; [apply Rabs_pos|].
  apply (moment_near (squad c) a b j (2 * N) f (fun x => cut N (- x * x / s))); auto; [now apply deg_bell|]. intros x Hx. apply bell_poly; auto. now apply cell_size.
Qed.
Lemma make_IC_entry c mus edges rows x0 x1 : ic_x0 c edges = Ok x0 -> ic_x1 c edges = Ok x1 -> make_IC c mus edges = Ok rows -> forall ang k j, (ang < length mus)%nat -> (S k < length edges)%nat -> (j <= sM c)%nat ->
  ic_entry c x0 x1 (nth k edges 0) (nth (S k) edges 0) (nth ang mus 0) j = Ok (nth k (nth ang rows nil) (fun _ => 0) j).
Proof.
  intros E0 E1 HI ang k j Ha Hk Hj. unfold make_IC in HI. rewrite E0, E1 in HI. cbn [bind] in HI. pose proof (map_result_nth_ok _ _ _ 0 nil HI ang Ha) as K. exact (ic_cells_nth _ _ _ _ _ _ K k Hk j Hj).
Qed.
(** Gaussian pulses: half the pulse in every direction, or the whole pulse in the directions to the right *)
Theorem C174_gaussian_pulse_coefficients : forall c mus edges rows ang k j N, slab_off c -> sty_is c 0 1 = false -> sty_is c 1 1 = false -> sty_is c 2 1 = false -> sty_is c 3 1 = true -> sty_is c 0 2 = false ->
  0 < ssigma c -> rising edges -> (forall p, In p (squad c) -> -1 < fst p < 1 /\ 0 <= snd p) -> exact_to (squad c) (2 * N + sM c) ->
  make_IC c mus edges = Ok rows -> (ang < length mus)%nat -> (S k < length edges)%nat -> (j <= sM c)%nat ->
  let a := nth k edges 0 in let b := nth (S k) edges 0 in
  let amount := strength_s c * (if Z.eqb (last (stype c) 0%Z) 1 then (if Rltb 0 (nth ang mus 0) then 1 else 0) else 1 / 2) in
  exists I, is_RInt (fun x => exp (- x * x / ssigma c ^ 2) * normPn j x a b) a b I /\
    Rabs (nth k (nth ang rows nil) (fun _ => 0) j - amount * I) <= Rabs amount * (2 * sqrt ((2 * INR j + 1) * (b - a)) * ((Rmax (Rabs a) (Rabs b) ^ 2 / ssigma c ^ 2) ^ (N + 1) / INR (fact (N + 1)))).
Proof.
  intros c mus edges rows ang k j N (G & U) S0 S1 S2 S3 S02 Hs Ri Sd Ex HI Ha Hk Hj a b amount.
  assert (E0 : ic_x0 c edges = Ok (sx0 c)) by (unfold ic_x0; rewrite S0, Bool.andb_false_r; reflexivity). assert (E1 : ic_x1 c edges = Ok 0) by (unfold ic_x1; rewrite S02, Bool.andb_false_r; reflexivity).
  apply (bell_coef c (sx0 c) 0 a b (nth ang mus 0) j N amount (ssigma c ^ 2)); auto; [apply Ri; auto|apply pow_lt; auto|intros i Hi; apply Ex; lia| |now apply (make_IC_entry c mus edges)].
  intros y Hy. unfold IC_function. rewrite G, U, S0, S1, S2, S3. unfold amount. destruct (Z.eqb (last (stype c) 0%Z) 1); f_equal; [unfold gaussian_IC_noniso, greater|unfold gaussian_IC]; set (e := exp _); [destruct (Rltb 0 (nth ang mus 0))|]; field.
Qed.
Print Assumptions C174_gaussian_pulse_coefficients.
(** the self-similar start: sqrt 2 times the solution of the diffusion equation with unit content *)
Theorem C174_self_similar_start : forall x, let A := 29998 / 2400000 in
  self_sim_plane x = sqrt 2 * (benchmark (x / sqrt (A * (1 / 100))) / sqrt (A * (1 / 100))).
Proof.
  intro x. cbv zeta. unfold self_sim_plane, benchmark. cbv zeta. set (A := 29998 / 2400000). replace (29998 / 1000 / 3 / 800) with A by (unfold A; field).
  assert (HA : 0 < A) by (unfold A; lra). assert (P : 0 < A * (1 / 100)) by lra. pose proof (sqrt_lt_R0 _ P) as S. pose proof PI_RGT_0 as P3. pose proof (sqrt_lt_R0 _ P3) as SP. assert (S2 : 0 < sqrt 2) by (apply sqrt_lt_R0; lra). assert (Q2 : sqrt 2 * sqrt 2 = 2) by (apply sqrt_sqrt; lra).
  assert (SS : sqrt (A * (1 / 100)) * sqrt (A * (1 / 100)) = A * (1 / 100)) by (apply sqrt_sqrt; lra).
  replace (- x ^ 2 / 4 / A / (1 / 100)) with (- (x / sqrt (A * (1 / 100))) ^ 2 / 4).
  - replace (PI * (1 / 2)) with (PI / 2) by field. rewrite sqrt_div_alt by lra. set (e := exp _). set (r := sqrt (A * (1 / 100))) in *.
    replace (1 / (sqrt PI / sqrt 2) / r * e / 2) with (sqrt 2 * (1 / sqrt PI / r * e / 2)) by (field; lra). f_equal. field. lra.
  - replace (- (x / sqrt (A * (1 / 100))) ^ 2 / 4) with (- x ^ 2 / 4 / (sqrt (A * (1 / 100)) * sqrt (A * (1 / 100)))) by (field; lra). rewrite SS. field. lra.
Qed.
Print Assumptions C174_self_similar_start.
Theorem C174_self_similar_coefficients : forall c mus edges rows ang k j N, slab_off c -> sty_is c 0 3 = true -> sty_is c 1 1 = false -> sty_is c 2 1 = false -> sty_is c 3 1 = false -> sty_is c 4 1 = false ->
  rising edges -> (forall p, In p (squad c) -> -1 < fst p < 1 /\ 0 <= snd p) -> exact_to (squad c) (2 * N + sM c) ->
  make_IC c mus edges = Ok rows -> (ang < length mus)%nat -> (S k < length edges)%nat -> (j <= sM c)%nat ->
  let a := nth k edges 0 in let b := nth (S k) edges 0 in
  exists I, is_RInt (fun x => self_sim_plane x * normPn j x a b) a b I /\
    Rabs (nth k (nth ang rows nil) (fun _ => 0) j - I) <= Rabs (self_sim_plane 0) * (2 * sqrt ((2 * INR j + 1) * (b - a)) * ((Rmax (Rabs a) (Rabs b) ^ 2 / (29998 / 60000000)) ^ (N + 1) / INR (fact (N + 1)))).
Proof.
  intros c mus edges rows ang k j N (G & U) S03 S1 S2 S3 S4 Ri Sd Ex HI Ha Hk Hj a b. set (s := 29998 / 60000000). assert (Hs : 0 < s) by (unfold s; lra).
  assert (S0 : forall v, v <> 3%Z -> sty_is c 0 v = false). { intros v Hv. unfold sty_is in *. apply Z.eqb_eq in S03. rewrite S03. apply Z.eqb_neq. auto. }
  assert (E0 : ic_x0 c edges = Ok (sx0 c)) by (unfold ic_x0; rewrite S0, Bool.andb_false_r by discriminate; reflexivity). assert (E1 : ic_x1 c edges = Ok 0) by (unfold ic_x1; rewrite S0, Bool.andb_false_r by discriminate; reflexivity).
  assert (F : forall y, self_sim_plane y = self_sim_plane 0 * exp (- y * y / s)).
  { intro y. unfold self_sim_plane. cbv zeta. replace (- y ^ 2 / 4 / (29998 / 1000 / 3 / 800) / (1 / 100)) with (- y * y / s) by (unfold s; field). replace (- 0 ^ 2 / 4 / (29998 / 1000 / 3 / 800) / (1 / 100)) with 0 by field. rewrite exp_0. unfold Rdiv. ring. }
  destruct (bell_coef c (sx0 c) 0 a b (nth ang mus 0) j N (self_sim_plane 0) s (nth k (nth ang rows nil) (fun _ => 0) j)) as (I & HI2 & B); auto; [apply Ri; auto|intros i Hi; apply Ex; lia| |now apply (make_IC_entry c mus edges)|].
  - intros y Hy. unfold IC_function. rewrite G, U, (S0 1%Z), S1, S2, S3, S4, (S0 2%Z), S03 by discriminate. cbn [andb]. now rewrite F.
  - exists (self_sim_plane 0 * I). split; [|exact B]. eapply int_ext; [|apply int_scal, HI2]. intro y. cbv beta. rewrite (F y). ring.
Qed.
Print Assumptions C174_self_similar_coefficients.
(** the row of the material energy: the constant, exactly *)
Theorem C174_energy_row : forall c e a b j, a < b -> (forall p, In p (squad c) -> -1 < fst p < 1 /\ 0 <= snd p) -> exact_to (squad c) j ->
  ic_energy c e a b j = e * (if (j =? 0)%nat then sqrt (b - a) else 0).
Proof.
  intros c e a b j Hab Sd Ex. change (ic_energy c e a b j) with (integrate_quad_time (squad c) a b (fun x => e * normPn j x a b)).
  assert (B : Rabs (integrate_quad_time (squad c) a b (fun x => e * normPn j x a b) - e * (if (j =? 0)%nat then sqrt (b - a) else 0)) <= 2 * sqrt ((2 * INR j + 1) * (b - a)) * 0).
  { apply (moment_near (squad c) a b j 0 (fun _ => e) (fun _ => e)); auto; [apply deg_const|intros; rewrite Rminus_eq_0, Rabs_R0; lra|].
    eapply int_ext; [|apply int_scal, (int_basis j a b Hab)]. intro x. cbv beta. now rewrite normPn_basis by auto. }
  rewrite Rmult_0_r in B. apply Rminus_diag_uniq. destruct (Req_dec (integrate_quad_time (squad c) a b (fun x => e * normPn j x a b) - e * (if (j =? 0)%nat then sqrt (b - a) else 0)) 0) as [Z|Z]; auto. apply Rabs_pos_lt in Z. lra.
Qed.
Print Assumptions C174_energy_row.
Example C174_example : ic_energy (scfg0 [] false false 1) 5 0 4 0 = 10.
Proof.
  rewrite C174_energy_row; [|lra|intros p [<-|[]]; cbn; lra|].
  - cbn [Nat.eqb]. replace (4 - 0) with (2 ^ 2) by ring. rewrite sqrt_pow2 by lra. ring.
  - intros k Hk. replace k with 0%nat by lia. unfold leg_exact. apply (int_ext (fun _ => 1)); [intro; reflexivity|]. eapply int_eq; [apply int_const|]. unfold qsum, rsum. cbn. ring.
Qed.
