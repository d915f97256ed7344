(** Theorems about the quadrature in time of the Gaussian sources (C171) and about the uncollided flux the solver adds: it is the free flight of
    the initial conditions and sources used when the treatment is off (C172). *)
From Coquelicot Require Import Coquelicot.
From Verif Require Import Py PyLemmas Calc Legendre Cheb DGModel DGProofs FuncModel FuncProofs FuncLobatto GaussExist ErrProofs SourceModel SourceProofs SourceMore SourceGauss SourceIC SourceThms GaussRuleThms.
Local Open Scope R_scope.
Local Open Scope list_scope.

(* ---------------------------------------------------------------- polynomials *)
Lemma deg_mul d e u v : deg_le d u -> deg_le e v -> deg_le (d + e) (fun z => u z * v z).
Proof.
  intros U (l & L & H). apply (deg_ext _ (fun z => u z * ph l z)); [intro; now rewrite H|]. clear H v. revert e L U. revert u d.
  induction l as [|c l IH]; intros u d e L U.
  - apply (deg_ext _ (fun _ => 0)); [intro; cbn; ring|]. apply deg_const.
  - cbn [length] in L. destruct l as [|c' l].
    + apply (deg_ext _ (fun z => c * u z + 0 * u z)); [intro; cbn; ring|]. apply (deg_mono d); [lia|]. apply deg_lin; auto.
    + apply (deg_ext _ (fun z => c * u z + 1 * (z * (u z * ph (c' :: l) z)))); [intro; cbn; ring|]. apply deg_lin; [apply (deg_mono d); [lia|auto]|].
      destruct e as [|e]; [cbn in L; lia|]. replace (d + S e)%nat with (S (d + e)) by lia. apply deg_x. apply IH; auto. cbn in *. lia.
Qed.
Lemma deg_powers d u k : deg_le d u -> deg_le (d * k) (fun z => u z ^ k).
Proof.
  intro U. induction k as [|k IH]; [apply (deg_ext _ (fun _ => 1)); [intro; reflexivity|]; apply deg_const|].
  replace (d * S k)%nat with (d + d * k)%nat by lia. apply (deg_ext _ (fun z => u z * u z ^ k)); [intro; reflexivity|]. now apply deg_mul.
Qed.
Lemma dd_power n (y : R) : is_derive (fun z : R => z ^ S n) y (INR (S n) * y ^ n).
Proof. eapply dd_eq; [apply (is_derive_pow (fun z : R => z) (S n) y 1), dd_id|]. cbn [pred]. ring. Qed.
Lemma int_dom (f g : R -> R) a b I J : a <= b -> (forall z, a < z < b -> Rabs (f z) <= g z) -> is_RInt f a b I -> is_RInt g a b J -> Rabs I <= J.
Proof.
  intros Hab H HI HJ. apply Rabs_le. split.
  - replace (- J) with (-1 * J) by ring. eapply is_RInt_le; [exact Hab|apply int_scal, HJ|exact HI|]. intros z Hz. specialize (H z Hz). apply Rabs_le_between in H. lra.
  - eapply is_RInt_le; [exact Hab|exact HI|exact HJ|]. intros z Hz. specialize (H z Hz). apply Rabs_le_between in H. lra.
Qed.
Lemma int_abs_le (f : R -> R) a b e I : a <= b -> (forall z, a < z < b -> Rabs (f z) <= e) -> is_RInt f a b I -> Rabs I <= (b - a) * e.
Proof. intros Hab H HI. apply (int_dom f (fun _ => e) a b); auto. apply int_const. Qed.
(** the first N+1 terms of the exponential series *)
Definition cut (N : nat) (y : R) : R := sumn (N + 1) (fun k => y ^ k / INR (fact k)).
Lemma deg_cut N u : deg_le 2 u -> deg_le (2 * N) (fun z => cut N (u z)).
Proof.
  intro U. unfold cut. apply (deg_sumn _ _ (fun k z => u z ^ k / INR (fact k))). intros k Hk.
  apply (deg_ext _ (fun z => / INR (fact k) * u z ^ k + 0 * u z ^ k)); [intro; unfold Rdiv; ring|]. apply (deg_mono (2 * k)); [lia|]. apply deg_lin; now apply deg_powers.
Qed.
Lemma cut_derive N y : is_derive (cut (S N)) y (cut N y).
Proof.
  unfold cut. replace (S N + 1)%nat with (S (N + 1)) by lia. set (n := (N + 1)%nat). clearbody n. induction n as [|n IH].
  - cbn [sumn]. apply (is_derive_ext (fun _ => 1)); [intro; cbn; field|]. apply (dd_const 1).
  - cbn [sumn] in *. apply dd_plus; [exact IH|]. eapply dd_eq; [apply (dd_ext (fun z => / INR (fact (S n)) * z ^ S n)); [intro; unfold Rdiv; ring|]; apply dd_scal, dd_power|].
    rewrite fact_simpl, mult_INR. pose proof (INR_fact_lt_0 n). pose proof (lt_0_INR (S n) ltac:(lia)). field. lra.
Qed.
Lemma cut_cont N (y : R) : continuous (fun z : R => exp z - cut N z) y.
Proof.
  apply (ex_derive_continuous (fun z : R => exp z - cut N z)). apply (ex_derive_minus exp (cut N)); [exists (exp y); apply is_derive_exp|].
  destruct N as [|N]; [exists 0; apply (is_derive_ext (fun _ : R => 1)); [intro; unfold cut; cbn; field|apply (dd_const 1)]|eexists; apply cut_derive].
Qed.
Lemma exp_cut N : forall y, y <= 0 -> Rabs (exp y - cut N y) <= Rabs y ^ (N + 1) / INR (fact (N + 1)).
Proof.
  assert (C0 : forall n, cut n 0 = 1).
  { intro n. unfold cut. rewrite Nat.add_1_r, sumn_S_l, sumn_zero; [cbn; field|]. intros. cbn [pow]. unfold Rdiv. ring. }
  induction N as [|N IH]; intros y Hy.
  - replace (cut 0 y) with 1 by (unfold cut; cbn; field). replace (Rabs y ^ (0 + 1) / INR (fact (0 + 1))) with (Rabs y) by (cbn; field). assert (exp y <= 1) by (rewrite <- exp_0; destruct Hy as [Hy| ->]; [apply Rlt_le, exp_increasing; lra|lra]). pose proof (exp_ineq1_le y).
    rewrite (Rabs_left1 y) by auto. rewrite Rabs_left1 by lra. lra.
  - pose proof (INR_fact_lt_0 (N + 1)) as F. pose proof (INR_fact_lt_0 (S N + 1)) as F'.
    assert (D : forall z, is_derive (fun z => exp z - cut (S N) z) z (exp z - cut N z)) by (intro z; apply dd_minus; [apply is_derive_exp|apply cut_derive]).
    assert (E : exp y - cut (S N) y = - RInt (fun z => exp z - cut N z) y 0).
    { assert (I : is_RInt (fun z => exp z - cut N z) y 0 (exp 0 - cut (S N) 0 - (exp y - cut (S N) y))).
      { apply (int_ftc (fun z => exp z - cut (S N) z)); auto. intro z. apply cut_cont. }
      rewrite (int_uniq _ _ _ _ I), exp_0, C0. ring. }
    rewrite E, Rabs_Ropp.
    assert (Cn : forall z, continuous (fun z => exp z - cut N z) z).
    { intro z. apply cut_cont. }
    assert (J : is_RInt (fun z => (- z) ^ (N + 1) / INR (fact (N + 1))) y 0 (0 - - ((- y) ^ (S N + 1) / INR (fact (S N + 1))))).
    { eapply int_eq; [apply (int_ftc (fun z => - ((- z) ^ (S N + 1) / INR (fact (S N + 1)))))|].
      - intro z. replace (S N + 1)%nat with (S (N + 1)) by lia. set (n := (N + 1)%nat) in *. eapply dd_eq.
        + apply (dd_ext (fun z => - / INR (fact (S n)) * (- z) ^ S n)); [intro; unfold Rdiv; ring|]. apply dd_scal. apply (dd_comp (fun w => w ^ S n) (fun z => - z)); [apply dd_power|apply dd_opp, dd_id].
        + cbv beta. rewrite fact_simpl, mult_INR. pose proof (lt_0_INR (S n) ltac:(lia)). field. lra.
      - intro z. apply (ex_derive_continuous (fun z => (- z) ^ (N + 1) / INR (fact (N + 1)))). auto_derive. auto.
      - cbv beta. rewrite Ropp_0, pow_ne_zero by lia. unfold Rdiv. ring. }
    rewrite (Rabs_left1 y) by auto. apply (int_dom (fun z => exp z - cut N z) (fun z => (- z) ^ (N + 1) / INR (fact (N + 1))) y 0); [auto| |apply (int_val (fun z => exp z - cut N z)); auto|eapply int_eq; [exact J|ring]].
    intros z Hz. rewrite <- (Rabs_left1 z) by lra. apply IH. lra.
Qed.

(* ---------------------------------------------------------------- rules *)
(** the numbers of a Gauss rule: weights not negative, nodes inside (-1,1) *)
Definition sound_rule (q : list (R * R)) : Prop := forall p, In p q -> -1 < fst p < 1 /\ 0 <= snd p.
Lemma qsum_abs q (v : R -> R) e : sound_rule q -> exact_to q 0 -> (forall z, -1 < z < 1 -> Rabs (v z) <= e) -> Rabs (qsum q v) <= 2 * e.
Proof.
  intros S E H. assert (W : qsum q (fun z => z ^ 0) = 2).
  { pose proof (E 0%nat ltac:(lia)) as X. eapply int_uniq2; [exact X|]. eapply int_eq; [apply (int_ext (fun _ => 1)); [intro; reflexivity|apply int_const]|]. ring. }
  assert (L : Rabs (qsum q v) <= e * qsum q (fun z => z ^ 0)); [|rewrite W in L; lra]. clear W E. unfold qsum. induction q as [|p q IH]; cbn [map rsum].
  - unfold rsum. cbn. rewrite Rabs_R0. lra.
  - assert (A := S p (or_introl eq_refl)). change (rsum ((snd p * v (fst p)) :: map (fun p => snd p * v (fst p)) q)) with (snd p * v (fst p) + rsum (map (fun p => snd p * v (fst p)) q)).
    change (rsum ((snd p * fst p ^ 0) :: map (fun p => snd p * fst p ^ 0) q)) with (snd p * fst p ^ 0 + rsum (map (fun p => snd p * fst p ^ 0) q)).
    eapply Rle_trans; [apply Rabs_triang|]. rewrite Rabs_mult, (Rabs_pos_eq (snd p)) by lra. specialize (H (fst p) (proj1 A)).
    assert (IH' := IH (fun x Hx => S x (or_intror Hx))). pose proof (Rmult_le_compat_l (snd p) _ _ (proj2 A) H). rewrite Rmult_plus_distr_l. replace (e * (snd p * fst p ^ 0)) with (snd p * e) by (cbn [pow]; ring). lra.
Qed.
(** the rule of the code applied to a function near a polynomial *)
Lemma quad_near q D (f p : R -> R) a b e I : sound_rule q -> exact_to q D -> a <= b -> deg_le D p -> (forall z, a <= z <= b -> Rabs (f z - p z) <= e) ->
  is_RInt f a b I -> Rabs (integrate_quad_time q a b f - I) <= 2 * (b - a) * e.
Proof.
  intros S E Hab P N HI. assert (He : 0 <= e) by (eapply Rle_trans; [apply Rabs_pos|apply (N a); lra]).
  set (g := fun z => (b - a) / 2 * z + (a + b) / 2).
  assert (Pz : deg_le D (fun z => p (g z))) by (apply (deg_affine D p ((b - a) / 2) ((a + b) / 2)); auto).
  assert (Ex : leg_exact q (fun z => p (g z))).
  { apply (lexact_ext q (fun z => p (g z) * 1)); [intro; ring|]. apply (exact_prod q D D 0); auto; [apply deg_const|lia]. }
  assert (Ip : is_RInt p a b ((b - a) / 2 * qsum q (fun z => p (g z)))).
  { destruct (Req_dec a b) as [->|Nab]; [eapply int_eq; [apply int_point|]; field|].
    assert (X := int_affine (fun z => (b - a) / 2 * p (g z)) (2 / (b - a)) (- (a + b) / (b - a)) a b).
    specialize (X ((b - a) / 2 * qsum q (fun z => p (g z)))).
    apply (int_ext (fun x => 2 / (b - a) * ((b - a) / 2 * p (g (2 / (b - a) * x + - (a + b) / (b - a)))))).
    { intro z. unfold g. replace ((b - a) / 2 * (2 / (b - a) * z + - (a + b) / (b - a)) + (a + b) / 2) with z by (field; lra). field. lra. }
    apply X. replace (2 / (b - a) * a + - (a + b) / (b - a)) with (-1) by (field; lra). replace (2 / (b - a) * b + - (a + b) / (b - a)) with 1 by (field; lra).
    apply int_scal. exact Ex. }
  unfold integrate_quad_time. change (qsum q (fun z => f ((b - a) / 2 * z + (a + b) / 2))) with (qsum q (fun z => f (g z))).
  assert (Q : Rabs (qsum q (fun z => f (g z)) - qsum q (fun z => p (g z))) <= 2 * e).
  { replace (qsum q (fun z => f (g z)) - qsum q (fun z => p (g z))) with (1 * qsum q (fun z => f (g z)) + -1 * qsum q (fun z => p (g z))) by ring. rewrite <- qsum_lin.
    apply qsum_abs; auto; [intros k Hk; apply E; lia|]. intros z Hz. replace (1 * f (g z) + -1 * p (g z)) with (f (g z) - p (g z)) by ring. apply N. unfold g. nra. }
  assert (Dl : Rabs (I - (b - a) / 2 * qsum q (fun z => p (g z))) <= (b - a) * e).
  { assert (M := int_minus _ _ _ _ _ _ HI Ip). apply (int_abs_le (fun z => f z - p z) a b e _ Hab); auto. intros z Hz. apply N. lra. }
  replace ((b - a) / 2 * qsum q (fun z => f (g z)) - I) with ((b - a) / 2 * (qsum q (fun z => f (g z)) - qsum q (fun z => p (g z))) - (I - (b - a) / 2 * qsum q (fun z => p (g z)))) by ring.
  eapply Rle_trans; [apply Rabs_triang|]. rewrite Rabs_Ropp, Rabs_mult, (Rabs_pos_eq ((b - a) / 2)) by lra. assert ((b - a) / 2 * Rabs (qsum q (fun z => f (g z)) - qsum q (fun z => p (g z))) <= (b - a) / 2 * (2 * e)) by (apply Rmult_le_compat_l; lra). nra.
Qed.

(* ---------------------------------------------------------------- flight from a Gaussian emission *)
(** what is emitted at time tau in direction mu and seen at (x,t) *)
Definition ray (x t sg mu tau : R) : R := exp (- (t - tau)) / 2 * exp (- (x - mu * (t - tau)) ^ 2 / sg ^ 2).
Definition reach (x t sg : R) : R := t + ((Rabs x + t) / sg) ^ 2.
Definition tail (x t sg : R) (n : nat) : R := reach x t sg ^ n / INR (fact n).
Lemma ray_poly x t sg mu N tau : 0 < sg -> -1 <= mu <= 1 -> 0 <= tau <= t ->
  Rabs (ray x t sg mu tau - 1 / 2 * cut N (- (t - tau) - ((x - mu * (t - tau)) / sg) ^ 2)) <= 1 / 2 * tail x t sg (N + 1).
Proof.
  intros Hs Hm Ht. set (y := - (t - tau) - ((x - mu * (t - tau)) / sg) ^ 2).
  assert (E : ray x t sg mu tau = 1 / 2 * exp y).
  { unfold ray, y. replace (- (t - tau) - ((x - mu * (t - tau)) / sg) ^ 2) with (- (t - tau) + - (x - mu * (t - tau)) ^ 2 / sg ^ 2) by (field; lra). rewrite exp_plus. field. }
  assert (Q : 0 <= ((x - mu * (t - tau)) / sg) ^ 2 <= ((Rabs x + t) / sg) ^ 2).
  { split; [apply pow2_ge_0|]. rewrite <- (pow2_abs ((x - mu * (t - tau)) / sg)). apply pow_incr. split; [apply Rabs_pos|]. unfold Rdiv. rewrite Rabs_mult, (Rabs_pos_eq (/ sg)) by (left; now apply Rinv_0_lt_compat).
    apply Rmult_le_compat_r; [left; now apply Rinv_0_lt_compat|]. eapply Rle_trans; [apply Rabs_triang|]. rewrite Rabs_Ropp, Rabs_mult, (Rabs_pos_eq (t - tau)) by lra.
    assert (Rabs mu <= 1) by (apply Rabs_le; lra). pose proof (Rabs_pos mu). nra. }
  assert (Y : y <= 0 /\ Rabs y <= reach x t sg) by (unfold y, reach; rewrite Rabs_left1 by lra; lra).
  rewrite E. replace (1 / 2 * exp y - 1 / 2 * cut N y) with (1 / 2 * (exp y - cut N y)) by ring. rewrite Rabs_mult, (Rabs_pos_eq (1 / 2)) by lra. apply Rmult_le_compat_l; [lra|].
  eapply Rle_trans; [apply exp_cut; tauto|]. unfold tail. apply Rmult_le_compat_r; [left; apply Rinv_0_lt_compat, INR_fact_lt_0|]. apply pow_incr. split; [apply Rabs_pos|tauto].
Qed.
Lemma deg_ray x t sg mu N : 0 < sg -> deg_le (2 * N) (fun tau => 1 / 2 * cut N (- (t - tau) - ((x - mu * (t - tau)) / sg) ^ 2)).
Proof.
  intro Hs. set (u := fun tau => - (t - tau) - ((x - mu * (t - tau)) / sg) ^ 2). assert (U : deg_le 2 u).
  { exists [- t - ((x - mu * t) / sg) ^ 2; 1 - 2 * ((x - mu * t) / sg) * (mu / sg); - (mu / sg) ^ 2]. split; [cbn; lia|]. intro z. unfold u, ph. cbn [fold_right]. field. lra. }
  apply (deg_ext _ (fun z => 1 / 2 * cut N (u z) + 0 * cut N (u z))); [intro; unfold u; ring|]. apply deg_lin; now apply deg_cut.
Qed.
Lemma ray_cont_t x t sg mu tau : continuous (ray x t sg mu) tau.
Proof. apply (ex_derive_continuous (ray x t sg mu)). unfold ray. auto_derive. auto. Qed.
Lemma ray_int x t sg mu T : is_RInt (ray x t sg mu) 0 T (RInt (ray x t sg mu) 0 T).
Proof. apply (int_val (ray x t sg mu)). intro. apply ray_cont_t. Qed.
Lemma exp_lip a b : 0 <= a -> 0 <= b -> Rabs (exp (- a) - exp (- b)) <= Rabs (a - b).
Proof.
  assert (K : forall a b, 0 <= a <= b -> 0 <= exp (- a) - exp (- b) <= b - a).
  { intros u v H. replace (- v) with (- u + - (v - u)) by ring. rewrite exp_plus. pose proof (exp_ineq1_le (- (v - u))). assert (exp (- u) <= 1) by (rewrite <- exp_0; destruct (Req_dec u 0) as [->|]; [right; f_equal; ring|left; apply exp_increasing; lra]).
    assert (exp (- (v - u)) <= 1) by (rewrite <- exp_0; destruct (Req_dec u v) as [->|]; [right; f_equal; ring|left; apply exp_increasing; lra]). pose proof (exp_pos (- u)). nra. }
  intros Ha Hb. destruct (Rle_lt_dec a b) as [H|H].
  - pose proof (K a b ltac:(lra)). rewrite Rabs_pos_eq, Rabs_left1 by lra. lra.
  - pose proof (K b a ltac:(lra)). rewrite Rabs_left1, Rabs_pos_eq by lra. lra.
Qed.
Lemma ray_lip x t sg mu nu tau : 0 < sg -> -2 <= mu <= 2 -> -2 <= nu <= 2 -> 0 <= tau <= t ->
  Rabs (ray x t sg mu tau - ray x t sg nu tau) <= Rabs (mu - nu) * (t * (2 * Rabs x + 4 * t) / sg ^ 2).
Proof.
  intros Hs Hm Hn Ht. unfold ray. rewrite <- Rmult_minus_distr_l, Rabs_mult. set (s := t - tau). assert (S : 0 <= s <= t) by (unfold s; lra).
  assert (P2 : 0 < sg ^ 2) by (apply pow_lt; auto).
  assert (E0 : 0 <= exp (- s) / 2 <= 1) by (pose proof (exp_pos (- s)); assert (exp (- s) <= 1) by (rewrite <- exp_0; destruct (Req_dec s 0) as [->|]; [right; f_equal; ring|left; apply exp_increasing; lra]); lra).
  rewrite (Rabs_pos_eq (exp (- s) / 2)) by lra.
  replace (- (x - mu * s) ^ 2 / sg ^ 2) with (- ((x - mu * s) ^ 2 / sg ^ 2)) by (field; lra). replace (- (x - nu * s) ^ 2 / sg ^ 2) with (- ((x - nu * s) ^ 2 / sg ^ 2)) by (field; lra).
  assert (L : Rabs (exp (- ((x - mu * s) ^ 2 / sg ^ 2)) - exp (- ((x - nu * s) ^ 2 / sg ^ 2))) <= Rabs (mu - nu) * (t * (2 * Rabs x + 4 * t) / sg ^ 2)).
  { eapply Rle_trans; [apply exp_lip; (apply Rmult_le_pos; [apply pow2_ge_0|left; now apply Rinv_0_lt_compat])|].
    replace ((x - mu * s) ^ 2 / sg ^ 2 - (x - nu * s) ^ 2 / sg ^ 2) with (- ((mu - nu) * (s * (2 * x - (mu + nu) * s) / sg ^ 2))) by (field; lra). rewrite Rabs_Ropp, Rabs_mult. apply Rmult_le_compat_l; [apply Rabs_pos|].
    unfold Rdiv. rewrite !Rabs_mult, (Rabs_pos_eq s), (Rabs_pos_eq (/ sg ^ 2)) by (try lra; left; now apply Rinv_0_lt_compat). apply Rmult_le_compat_r; [left; now apply Rinv_0_lt_compat|].
    assert (Q : Rabs (2 * x - (mu + nu) * s) <= 2 * Rabs x + 4 * t).
    { eapply Rle_trans; [apply Rabs_triang|]. rewrite Rabs_Ropp, !Rabs_mult, (Rabs_pos_eq 2), (Rabs_pos_eq s) by lra. assert (Rabs (mu + nu) <= 4) by (apply Rabs_le; lra). pose proof (Rabs_pos (mu + nu)). nra. }
    pose proof (Rabs_pos (2 * x - (mu + nu) * s)). apply Rmult_le_compat; lra. }
  pose proof (Rabs_pos (exp (- ((x - mu * s) ^ 2 / sg ^ 2)) - exp (- ((x - nu * s) ^ 2 / sg ^ 2)))). nra.
Qed.
(** the angular flux is continuous in the direction *)
Lemma flight_cont x t sg T mu : 0 < sg -> 0 <= T <= t -> -1 <= mu <= 1 -> continuous (fun m => RInt (ray x t sg m) 0 T) mu.
Proof.
  intros Hs HT Hm. set (K := T * (t * (2 * Rabs x + 4 * t) / sg ^ 2)). assert (P2 : 0 < / sg ^ 2) by (apply Rinv_0_lt_compat, pow_lt; auto).
  assert (HK : 0 <= K). { unfold K. pose proof (Rabs_pos x). apply Rmult_le_pos; [lra|]. apply Rmult_le_pos; [|lra]. apply Rmult_le_pos; lra. }
  assert (L : forall m, -2 <= m <= 2 -> Rabs (RInt (ray x t sg m) 0 T - RInt (ray x t sg mu) 0 T) <= K * Rabs (m - mu)).
  { intros m H. assert (M := int_minus _ _ _ _ _ _ (ray_int x t sg m T) (ray_int x t sg mu T)).
    replace (K * Rabs (m - mu)) with ((T - 0) * (Rabs (m - mu) * (t * (2 * Rabs x + 4 * t) / sg ^ 2))) by (unfold K; ring).
    apply (int_abs_le (fun z => ray x t sg m z - ray x t sg mu z) 0 T); [lra| |exact M]. intros z Hz. apply ray_lip; lra. }
  apply continuity_pt_filterlim. intros eps He. exists (Rmin 1 (eps / (K + 1))). split; [apply Rmin_pos; [lra|apply Rdiv_lt_0_compat; lra]|].
  intros m (_ & Hd). cbn [Base dist R_met] in *. unfold R_dist in *. pose proof (Rmin_l 1 (eps / (K + 1))). pose proof (Rmin_r 1 (eps / (K + 1))).
  assert (-2 <= m <= 2). { apply Rabs_def2 in Hd. lra. } eapply Rle_lt_trans; [apply L; auto|].
  assert (Rabs (m - mu) < eps / (K + 1)) by lra. apply Rle_lt_trans with (K * (eps / (K + 1))); [apply Rmult_le_compat_l; lra|].
  apply Rmult_lt_reg_r with (K + 1); [lra|]. replace (K * (eps / (K + 1)) * (K + 1)) with (K * eps) by (field; lra). lra.
Qed.
Lemma int_qsum (q : list (R * R)) (F : R -> R -> R) (I : R -> R) a b : (forall p, In p q -> is_RInt (fun m => F (fst p) m) a b (I (fst p))) ->
  is_RInt (fun m => qsum q (fun z => F z m)) a b (qsum q I).
Proof.
  unfold qsum. induction q as [|p q IH]; intro H.
  - cbn. eapply int_eq; [apply (int_const 0)|ring].
  - change (rsum (map (fun p => snd p * I (fst p)) (p :: q))) with (snd p * I (fst p) + rsum (map (fun p => snd p * I (fst p)) q)).
    apply (int_ext (fun m => snd p * F (fst p) m + rsum (map (fun p => snd p * F (fst p) m) q))); [intro; reflexivity|]. apply int_plus; [apply int_scal, H; now left|apply IH; intros; apply H; now right].
Qed.

(* ---------------------------------------------------------------- C171 *)
Lemma gauss_flight c x t N : erf_ok (erf c) -> 0 < ssigma c -> 0 <= t -> 0 <= st0 c -> sound_rule (tquad c) -> exact_to (tquad c) (2 * N) ->
  exists phi, is_RInt (fun mu => RInt (ray x t (ssigma c) mu) 0 (Rmin t (st0 c))) (-1) 1 phi /\
  Rabs (gaussian_source_uncollided_solution c x t - phi) <= 2 * Rmin t (st0 c) * tail x t (ssigma c) (N + 1).
Proof.
  intros HE Hs Ht H0 Sd Ex. set (T := Rmin t (st0 c)). assert (HT : 0 <= T <= t) by (split; [now apply Rmin_glb|apply Rmin_l]). set (sg := ssigma c) in *.
  assert (IG : is_RInt (fun mu => RInt (ray x t sg mu) 0 T) (-1) 1 (RInt (fun mu => RInt (ray x t sg mu) 0 T) (-1) 1)).
  { apply (RInt_correct (fun mu => RInt (ray x t sg mu) 0 T)). apply (ex_RInt_continuous (fun mu => RInt (ray x t sg mu) 0 T)). intros z Hz. rewrite Rmin_left, Rmax_right in Hz by lra. apply flight_cont; auto. }
  eexists. split; [exact IG|].
  assert (IQ : is_RInt (fun mu => integrate_quad_time (tquad c) 0 T (ray x t sg mu)) (-1) 1 (gaussian_source_uncollided_solution c x t)).
  { destruct (Req_dec T 0) as [Z|Z].
    - unfold gaussian_source_uncollided_solution. fold T. rewrite Z. unfold integrate_quad_time. apply (int_ext (fun _ => 0)); [intro; unfold Rdiv; ring|]. eapply int_eq; [apply int_const|]. unfold Rdiv. ring.
    - unfold gaussian_source_uncollided_solution, integrate_quad_time. fold T sg.
      eapply int_eq; [apply int_scal; apply (int_qsum (tquad c) (fun z m => ray x t sg m ((T - 0) / 2 * z + (0 + T) / 2)) (fun z => gaussian_source_integrand c ((T - 0) / 2 * z + (0 + T) / 2) t x * sqrt PI * sg))|].
      + intros p Hp. destruct (Sd p Hp) as [Hz _]. apply (gauss_source_rate c x t); auto. nra.
      + replace (qsum (tquad c) (fun z => gaussian_source_integrand c ((T - 0) / 2 * z + (0 + T) / 2) t x * sqrt PI * sg)) with (qsum (tquad c) (fun z => gaussian_source_integrand c ((T - 0) / 2 * z + (0 + T) / 2) t x) * (sqrt PI * sg)); [ring|].
        unfold qsum. generalize (tquad c). intro l. induction l as [|p l IH]; [cbn; ring|]. cbn [map]. unfold rsum in *. cbn [fold_right]. rewrite <- IH. ring. }
  assert (M := int_minus _ _ _ _ _ _ IQ IG). replace (2 * T * tail x t sg (N + 1)) with ((1 - -1) * (2 * (T - 0) * (1 / 2 * tail x t sg (N + 1)))) by field.
  apply (int_abs_le _ (-1) 1 _ _ ltac:(lra)) with (2 := M). intros m Hm. cbv beta.
  apply (quad_near (tquad c) (2 * N) (ray x t sg m) (fun tau => 1 / 2 * cut N (- (t - tau) - ((x - m * (t - tau)) / sg) ^ 2))); auto; [lra|now apply deg_ray| |apply ray_int].
  intros z Hz. apply ray_poly; lra.
Qed.
Lemma gauss_two c x t N : erf_ok (erf c) -> 5 < ssigma c -> 0 <= t -> 0 <= st0 c -> sound_rule (tquad c) -> exact_to (tquad c) (2 * N) ->
  Rabs (gaussian_s2 c x t - uncollided_s2_gaussian (erf c) x t (ssigma c) (st0 c)) <= 2 * Rmin t (st0 c) * tail x t (ssigma c) (N + 1).
Proof.
  intros HE Hs Ht H0 Sd Ex. set (T := Rmin t (st0 c)). assert (HT : 0 <= T <= t) by (split; [now apply Rmin_glb|apply Rmin_l]). unfold gaussian_s2. rewrite Rleb_false by lra. fold T.
  pose proof (s2_gauss_closed c x t HE ltac:(lra)) as I. fold T in I. set (sg := ssigma c) in *. pose proof sqrt3_pos as P. pose proof sqrt3_sq as Q.
  set (m := / sqrt 3). assert (Hm : -1 <= m <= 1 /\ -1 <= - m <= 1).
  { assert (1 <= sqrt 3) by nra. assert (0 < m <= 1); [|lra]. unfold m. split; [now apply Rinv_0_lt_compat|]. rewrite <- Rinv_1. apply Rinv_le_contravar; lra. }
  assert (Hm3 : sqrt 3 = 3 * m) by (unfold m; apply (Rmult_eq_reg_r (sqrt 3)); [|lra]; rewrite Rmult_assoc, Rinv_l, Q by lra; ring).
  assert (E : forall tau, gaussian_s2_thick_integrand c tau t x = ray x t sg m tau + ray x t sg (- m) tau).
  { intro tau. unfold gaussian_s2_thick_integrand, ray. fold sg. rewrite Hm3. replace (- t + tau) with (- (t - tau)) by ring.
    replace (- (3 * m * t + 3 * x - 3 * m * tau) ^ 2 / (9 * sg ^ 2)) with (- (x - - m * (t - tau)) ^ 2 / sg ^ 2) by (field; lra).
    replace (- (- (3 * m * t) + 3 * x + 3 * m * tau) ^ 2 / (9 * sg ^ 2)) with (- (x - m * (t - tau)) ^ 2 / sg ^ 2) by (field; lra). field. }
  replace (2 * T * tail x t sg (N + 1)) with (2 * (T - 0) * (1 / 2 * tail x t sg (N + 1) + 1 / 2 * tail x t sg (N + 1))) by field.
  apply (quad_near (tquad c) (2 * N) (fun tau => gaussian_s2_thick_integrand c tau t x)
    (fun tau => 1 * (1 / 2 * cut N (- (t - tau) - ((x - m * (t - tau)) / sg) ^ 2)) + 1 * (1 / 2 * cut N (- (t - tau) - ((x - - m * (t - tau)) / sg) ^ 2)))); auto; [lra| |].
  - apply deg_lin; apply deg_ray; lra.
  - intros z Hz. rewrite E. replace (ray x t sg m z + ray x t sg (- m) z - (1 * (1 / 2 * cut N (- (t - z) - ((x - m * (t - z)) / sg) ^ 2)) + 1 * (1 / 2 * cut N (- (t - z) - ((x - - m * (t - z)) / sg) ^ 2))))
      with ((ray x t sg m z - 1 / 2 * cut N (- (t - z) - ((x - m * (t - z)) / sg) ^ 2)) + (ray x t sg (- m) z - 1 / 2 * cut N (- (t - z) - ((x - - m * (t - z)) / sg) ^ 2))) by ring.
    eapply Rle_trans; [apply Rabs_triang|]. apply Rplus_le_compat; apply ray_poly; lra.
Qed.
(** the source used with the treatment off, seen along a ray: nothing after t0 *)
Lemma source_ray c x t mu v : 0 < ssigma c -> 0 <= t -> 0 <= st0 c -> is_RInt (ray x t (ssigma c) mu) 0 (Rmin t (st0 c)) v ->
  is_RInt (fun tau => exp (- (t - tau)) / 2 * gaussian_source c (x - mu * (t - tau)) tau) 0 t v.
Proof.
  intros Hs Ht H0 H. set (T := Rmin t (st0 c)) in *. assert (HT : 0 <= T <= t) by (split; [now apply Rmin_glb|apply Rmin_l]). replace v with (v + 0) by ring. apply (int_chasles _ 0 T t).
  - apply (int_ext_open (ray x t (ssigma c) mu)); [lra| |exact H]. intros tau Hu. unfold gaussian_source, ray. pose proof (Rmin_r t (st0 c)). fold T in H1. rewrite Rleb_true by lra.
    replace (- (x - mu * (t - tau)) * (x - mu * (t - tau)) / ssigma c ^ 2) with (- (x - mu * (t - tau)) ^ 2 / ssigma c ^ 2) by (field; lra). reflexivity.
  - apply (int_ext_open (fun _ => 0)); [lra| |eapply int_eq; [apply int_const|ring]]. intros tau Hu. unfold gaussian_source. rewrite Rleb_false; [ring|]. unfold T, Rmin in Hu. destruct (Rle_dec t (st0 c)); lra.
Qed.
Theorem C171_gaussian_source_error : forall c x t N, erf_ok (erf c) -> 0 < ssigma c -> 0 <= t -> 0 <= st0 c ->
  (forall p, In p (tquad c) -> -1 < fst p < 1 /\ 0 <= snd p) -> exact_to (tquad c) (2 * N) ->
  exists (psi : R -> R) phi,
    (forall mu, is_RInt (fun tau => exp (- (t - tau)) / 2 * gaussian_source c (x - mu * (t - tau)) tau) 0 t (psi mu)) /\ is_RInt psi (-1) 1 phi /\
    Rabs (gaussian_source_uncollided_solution c x t - phi) <= 2 * Rmin t (st0 c) * ((t + ((Rabs x + t) / ssigma c) ^ 2) ^ (N + 1) / INR (fact (N + 1))).
Proof.
  intros c x t N HE Hs Ht H0 Sd Ex. destruct (gauss_flight c x t N HE Hs Ht H0 Sd Ex) as (phi & I & B). exists (fun mu => RInt (ray x t (ssigma c) mu) 0 (Rmin t (st0 c))), phi. split; [|split; auto].
  intro mu. apply source_ray; auto. apply ray_int.
Qed.
Print Assumptions C171_gaussian_source_error.
(** two directions: the closed form up to width 5, the rule in time beyond *)
Theorem C171_two_directions_error : forall c x t N, erf_ok (erf c) -> 0 < ssigma c -> 0 <= t -> 0 <= st0 c ->
  (forall p, In p (tquad c) -> -1 < fst p < 1 /\ 0 <= snd p) -> exact_to (tquad c) (2 * N) ->
  exists phi, is_RInt (fun tau => exp (- (t - tau)) / 2 * (gaussian_source c (x - (t - tau) / sqrt 3) tau + gaussian_source c (x + (t - tau) / sqrt 3) tau)) 0 t phi /\
    (ssigma c <= 5 -> gaussian_s2 c x t = phi) /\
    Rabs (gaussian_s2 c x t - phi) <= 2 * Rmin t (st0 c) * ((t + ((Rabs x + t) / ssigma c) ^ 2) ^ (N + 1) / INR (fact (N + 1))).
Proof.
  intros c x t N HE Hs Ht H0 Sd Ex. exists (uncollided_s2_gaussian (erf c) x t (ssigma c) (st0 c)). pose proof sqrt3_pos as P. split; [|split].
  - set (m := / sqrt 3). pose proof (C79_s2_gaussian_closed_form c x t HE Hs) as I.
    assert (A := source_ray c x t m _ Hs Ht H0 (ray_int x t (ssigma c) m (Rmin t (st0 c)))). assert (B := source_ray c x t (- m) _ Hs Ht H0 (ray_int x t (ssigma c) (- m) (Rmin t (st0 c)))).
    assert (V : RInt (ray x t (ssigma c) m) 0 (Rmin t (st0 c)) + RInt (ray x t (ssigma c) (- m)) 0 (Rmin t (st0 c)) = uncollided_s2_gaussian (erf c) x t (ssigma c) (st0 c)).
    { eapply int_uniq2; [|exact I]. eapply int_ext; [|apply int_plus; apply ray_int]. intro tau. unfold ray, m.
      replace (- ((x + (t - tau) / sqrt 3) / ssigma c) ^ 2) with (- (x - - / sqrt 3 * (t - tau)) ^ 2 / ssigma c ^ 2) by (field; lra).
      replace (- ((x - (t - tau) / sqrt 3) / ssigma c) ^ 2) with (- (x - / sqrt 3 * (t - tau)) ^ 2 / ssigma c ^ 2) by (field; lra). field. }
    rewrite <- V. eapply int_ext; [|apply int_plus; [exact A|exact B]]. intro tau. unfold m. replace (x - (t - tau) / sqrt 3) with (x - / sqrt 3 * (t - tau)) by (field; lra). replace (x + (t - tau) / sqrt 3) with (x - - / sqrt 3 * (t - tau)) by (field; lra). ring.
  - intro H. unfold gaussian_s2. now rewrite Rleb_true by auto.
  - destruct (Rle_lt_dec (ssigma c) 5) as [H|H]; [|now apply gauss_two].
    unfold gaussian_s2. rewrite Rleb_true by auto. rewrite Rminus_eq_0, Rabs_R0. apply Rmult_le_pos; [assert (0 <= Rmin t (st0 c)) by (now apply Rmin_glb); lra|].
    apply Rmult_le_pos; [|left; apply Rinv_0_lt_compat, INR_fact_lt_0]. apply pow_le. pose proof (pow2_ge_0 ((Rabs x + t) / ssigma c)). lra.
Qed.
Print Assumptions C171_two_directions_error.
(** replacing the rule in time *)
Definition with_tquad (c : scfg) (q : list (R * R)) : scfg :=
  SCfg (sgeom c) (stype c) (uncollided c) (smoving c) (sM c) (sx0 c) (st0 c) (ssigma c) (ssigma_s c) (strength_s c) (sN_ang c) (squad c) q (expi c) (erf c) (sedov c).
(** with Gauss rules of n points the error tends to 0 as n grows *)
Theorem C171_converges : forall c x t, erf_ok (erf c) -> 0 < ssigma c -> 0 <= t -> 0 <= st0 c -> exists (psi : R -> R) phi,
  (forall mu, is_RInt (fun tau => exp (- (t - tau)) / 2 * gaussian_source c (x - mu * (t - tau)) tau) 0 t (psi mu)) /\ is_RInt psi (-1) 1 phi /\
  forall eps, 0 < eps -> exists n0, forall n q, (n0 <= n)%nat -> (1 <= n)%nat -> (forall p, In p q -> -1 < fst p < 1 /\ 0 <= snd p) -> exact_to q (2 * n - 1) ->
    Rabs (gaussian_source_uncollided_solution (with_tquad c q) x t - phi) <= eps.
Proof.
  intros c x t HE Hs Ht H0. destruct (C150_gauss_rule_exists 1 (le_n 1)) as (q1 & _ & _ & Hq1 & _ & Eq1).
  destruct (C171_gaussian_source_error (with_tquad c q1) x t 0 HE Hs Ht H0) as (psi & phi & A & B & _).
  { intros [z w] Hp. cbn in Hp. specialize (Hq1 _ _ Hp). cbn. lra. } { intros k Hk. apply (Eq1 k). lia. }
  exists psi, phi. split; [exact A|]. split; [exact B|]. intros eps He. set (b := t + ((Rabs x + t) / ssigma c) ^ 2). set (T := Rmin t (st0 c)).
  assert (HT : 0 <= T) by (now apply Rmin_glb). destruct (cv_speed_pow_fact b (eps / (2 * T + 1))) as (n0 & Hn); [apply Rdiv_lt_0_compat; lra|].
  exists n0. intros n q Hn0 Hn1 Sd Ex. destruct (C171_gaussian_source_error (with_tquad c q) x t (n - 1) HE Hs Ht H0 Sd) as (psi' & phi' & A' & B' & D).
  { intros k Hk. apply Ex. cbn in Hk. lia. }
  assert (phi' = phi) as ->. { eapply int_uniq2; [exact B'|]. eapply int_ext; [|exact B]. intro mu. eapply int_uniq2; [apply A|apply A']. }
  eapply Rle_trans; [exact D|]. cbn [with_tquad st0 ssigma]. fold b T. replace (n - 1 + 1)%nat with n by lia. specialize (Hn n Hn0). unfold R_dist in Hn. rewrite Rminus_0_r in Hn.
  pose proof (Rle_abs (b ^ n / INR (fact n))). assert (K : b ^ n / INR (fact n) <= eps / (2 * T + 1)) by lra.
  apply Rle_trans with (2 * T * (eps / (2 * T + 1))); [apply Rmult_le_compat_l; lra|]. apply Rmult_le_reg_r with (2 * T + 1); [lra|]. replace (2 * T * (eps / (2 * T + 1)) * (2 * T + 1)) with (2 * T * eps) by (field; lra). lra.
Qed.
Print Assumptions C171_converges.
(** midpoint rule (one Gauss point) at the centre just after the start *)
Example C171_example : exists (psi : R -> R) phi,
  (forall mu, is_RInt (fun tau => exp (- (1 / 10 - tau)) / 2 * gaussian_source (scfg0 [] true false 1) (0 - mu * (1 / 10 - tau)) tau) 0 (1 / 10) (psi mu)) /\ is_RInt psi (-1) 1 phi /\
  Rabs (gaussian_source_uncollided_solution (scfg0 [] true false 1) 0 (1 / 10) - phi) <= 22 / 1000.
Proof.
  assert (Ex : exact_to ((0, 2) :: nil) (2 * 0)).
  { intros k Hk. replace k with 0%nat by lia. unfold leg_exact. apply (int_ext (fun _ => 1)); [intro; reflexivity|]. eapply int_eq; [apply int_const|]. unfold qsum, rsum. cbn. ring. }
  destruct (C171_gaussian_source_error (scfg0 [] true false 1) 0 (1 / 10) 0 erf_contract_holds) as (psi & phi & U & V & D); cbn [scfg0 ssigma st0 tquad]; try lra; auto.
  { intros p [<-|[]]. cbn. lra. }
  exists psi, phi. split; [exact U|]. split; [exact V|]. eapply Rle_trans; [exact D|]. cbn [scfg0 ssigma st0]. rewrite Rabs_R0, Rmin_left by lra. cbn. lra.
Qed.

(* ---------------------------------------------------------------- C172 *)
(** the same problem with the treatment off *)
Definition off (c : scfg) : scfg :=
  SCfg (sgeom c) (stype c) false (smoving c) (sM c) (sx0 c) (st0 c) (ssigma c) (ssigma_s c) (strength_s c) (sN_ang c) (squad c) (tquad c) (expi c) (erf c) (sedov c).
(** integrands that differ at one point *)
Lemma int_but (f g : R -> R) a b p l : a <= b -> (forall z, a < z < b -> z <> p -> f z = g z) -> is_RInt f a b l -> is_RInt g a b l.
Proof.
  intros Hab E H. destruct (Rle_lt_dec p a) as [A|A]; [apply (int_ext_open f); auto; intros; apply E; auto; lra|]. destruct (Rle_lt_dec b p) as [B|B]; [apply (int_ext_open f); auto; intros; apply E; auto; lra|].
  assert (F1 : ex_RInt f a p) by (apply (ex_RInt_Chasles_1 f a p b); [lra|exists l; exact H]). assert (F2 : ex_RInt f p b) by (apply (ex_RInt_Chasles_2 f a p b); [lra|exists l; exact H]). destruct F1 as [u Hu], F2 as [v Hv].
  assert (l = u + v) as -> by (eapply int_uniq2; [exact H|now apply (int_chasles f a p b)]). apply (int_chasles g a p b); [apply (int_ext_open f)|apply (int_ext_open f)]; auto; try lra; intros; apply E; lra.
Qed.
(** the pulse of the code: half open window *)
Lemma window_flight x0 x t k : 0 < x0 -> 0 < t ->
  is_RInt (fun mu => exp (- t) * ((greater (x - mu * t) (- x0) - greater (x - mu * t) x0) * k)) (-1) 1 (2 * k * pulse_exact x0 x t).
Proof.
  intros H0 Ht. apply (int_but (fun mu => 2 * k * (exp (- t) / 2 * ind (Rleb (Rabs (x - mu * t)) x0))) _ _ _ ((x + x0) / t)); [lra| |apply int_scal, pulse_integral; lra].
  intros mu _ Hm. rewrite greater_window by lra. assert (N : x - mu * t <> - x0). { intro E. apply Hm. apply (Rmult_eq_reg_r t); [|lra]. unfold Rdiv. rewrite Rmult_assoc, Rinv_l by lra. lra. }
  assert (ind (Rleb (Rabs (x - mu * t)) x0) = ind (Rltb (- x0) (x - mu * t) && Rleb (x - mu * t) x0)) as ->; [|field].
  f_equal. apply bool_eq. rewrite Bool.andb_true_iff. unfold Rabs. destruct (Rleb_spec (if Rcase_abs (x - mu * t) then - (x - mu * t) else x - mu * t) x0) as [A|A]; destruct (Rltb_spec (- x0) (x - mu * t)) as [B|B]; destruct (Rleb_spec (x - mu * t) x0) as [C|C]; destruct (Rcase_abs (x - mu * t)); intuition (try congruence; try lra).
Qed.
Definition slab_on (c : scfg) : Prop := sgeom c = Slab /\ uncollided c = true.
(** square pulse: the flight of the initial condition times the strength, up to the guard in the denominator; the initial condition already contains the strength *)
Theorem C172_square_pulse : forall c x t, slab_on c -> sty_is c 0 1 = false -> sty_is c 1 1 = true -> 0 < sx0 c -> 0 <= strength_s c -> 0 < t ->
  exists (psi0 : R -> R -> R) v, (forall y mu, IC_function (off c) (sx0 c) 0 y mu = Ok (psi0 y mu)) /\
    is_RInt (fun mu => exp (- t) * psi0 (x - mu * t) mu) (-1) 1 v /\
    strength_s c * v * (t / (t + / 10 ^ 12)) <= uncollided_solution c x t <= strength_s c * v.
Proof.
  intros c x t (G & U) S0 S1 H0 Hs Ht. exists (fun y _ => plane_and_square_IC (off c) (sx0 c) y). exists (2 * (strength_s c / 2) * pulse_exact (sx0 c) x t). split; [|split].
  - intros y mu. unfold IC_function. change (sgeom (off c)) with (sgeom c). rewrite G. change (sty_is (off c) 0 1) with (sty_is c 0 1). change (sty_is (off c) 1 1) with (sty_is c 1 1). rewrite S0, S1. reflexivity.
  - eapply int_ext; [|apply window_flight; auto]. intro mu. unfold plane_and_square_IC. change (strength_s (off c)) with (strength_s c). cbv beta. field.
  - unfold uncollided_solution. rewrite U, G, S0, S1. rewrite square_IC_unit. destruct (pulse_accuracy (sx0 c) x t H0 Ht) as [A B].
    assert (P : 0 <= strength_s c * strength_s c) by now apply Rmult_le_pos. split.
    + replace (strength_s c * (2 * (strength_s c / 2) * pulse_exact (sx0 c) x t) * (t / (t + / 10 ^ 12))) with (strength_s c * strength_s c * (pulse_exact (sx0 c) x t * (t / (t + / 10 ^ 12)))) by (set (k := t / (t + / 10 ^ 12)); field).
      replace (pulse_unit (sx0 c) x t * strength_s c * strength_s c) with (strength_s c * strength_s c * pulse_unit (sx0 c) x t) by ring. now apply Rmult_le_compat_l.
    + replace (strength_s c * (2 * (strength_s c / 2) * pulse_exact (sx0 c) x t)) with (strength_s c * strength_s c * pulse_exact (sx0 c) x t) by field. replace (pulse_unit (sx0 c) x t * strength_s c * strength_s c) with (strength_s c * strength_s c * pulse_unit (sx0 c) x t) by ring. now apply Rmult_le_compat_l.
Qed.
Print Assumptions C172_square_pulse.
(** plane pulse: the code starts it from a thin square of half width x0; once the whole square is in view the two agree up to the guard, and nothing is seen outside the front *)
Theorem C172_plane_pulse : forall c x t, slab_on c -> sty_is c 0 1 = true -> 0 < sx0 c -> 0 < t ->
  exists (psi0 : R -> R -> R) v, (forall y mu, IC_function (off c) (sx0 c) 0 y mu = Ok (psi0 y mu)) /\
    is_RInt (fun mu => exp (- t) * psi0 (x - mu * t) mu) (-1) 1 v /\
    (Rabs x + sx0 c <= t -> uncollided_solution c x t = v * (2 * t / (2 * t + / 10 ^ 12))) /\
    (t + sx0 c < Rabs x -> uncollided_solution c x t = 0 /\ v = 0).
Proof.
  intros c x t (G & U) S0 H0 Ht. exists (fun y _ => plane_and_square_IC (off c) (sx0 c) y / sx0 c / 2). exists (2 * (strength_s c / 4 / sx0 c) * pulse_exact (sx0 c) x t). pose proof eps_pos as Ep. split; [|split; [|split]].
  - intros y mu. unfold IC_function. change (sgeom (off c)) with (sgeom c). rewrite G. change (sty_is (off c) 0 1) with (sty_is c 0 1). rewrite S0, Reqb_false by lra. reflexivity.
  - eapply int_ext; [|apply window_flight; auto]. intro mu. unfold plane_and_square_IC. change (strength_s (off c)) with (strength_s c). cbv beta. field. lra.
  - intro Hx. unfold uncollided_solution. rewrite U, G, S0. destruct (plane_cases c x t) as [[A ->]|[A _]]; [|lra]. unfold pulse_exact, visible. apply Rabs_le_between in A.
    assert (B : - (t - sx0 c) <= x <= t - sx0 c) by (apply Rabs_le_between; lra). rewrite (Rmin_right (x + t)), (Rmax_right (x - t)), Rmax_right by lra. field. lra.
  - intro Hx. unfold uncollided_solution. rewrite U, G, S0. destruct (plane_cases c x t) as [[A _]|[_ ->]]; [lra|]. split; [ring|]. unfold pulse_exact, visible.
    match goal with |- @eq _ ?p ?q => change (@eq R p q) end. rewrite Rmax_left; [ring|]. revert Hx. unfold Rabs. destruct (Rcase_abs x); intro;
    pose proof (Rmin_l (x + t) (sx0 c)); pose proof (Rmin_r (x + t) (sx0 c)); pose proof (Rmax_l (x - t) (- sx0 c)); pose proof (Rmax_r (x - t) (- sx0 c)); lra.
Qed.
Print Assumptions C172_plane_pulse.
(** Gaussian pulse: the same, exactly, with the guard as a factor *)
Theorem C172_gaussian_pulse : forall c x t, slab_on c -> sty_is c 0 1 = false -> sty_is c 1 1 = false -> sty_is c 2 1 = false -> sty_is c 3 1 = true -> last (stype c) 0%Z <> 1%Z ->
  erf_ok (erf c) -> 0 < ssigma c -> 0 < t ->
  exists (psi0 : R -> R -> R) v, (forall y mu, IC_function (off c) (sx0 c) 0 y mu = Ok (psi0 y mu)) /\
    is_RInt (fun mu => exp (- t) * psi0 (x - mu * t) mu) (-1) 1 v /\ uncollided_solution c x t = strength_s c * v * (4 * t / (4 * t + / 10 ^ 12)).
Proof.
  intros c x t (G & U) S0 S1 S2 S3 L HE Hs Ht. destruct (C80_gaussian_pulse_exact c x t HE Hs Ht) as (v & I & E). exists (fun y _ => gaussian_IC (off c) y), (strength_s c * v). split; [|split].
  - intros y mu. unfold IC_function. change (sgeom (off c)) with (sgeom c). rewrite G. change (sty_is (off c)) with (sty_is c). change (stype (off c)) with (stype c). rewrite S0, S1, S2, S3. destruct (Z.eqb_spec (last (stype c) 0%Z) 1); [congruence|reflexivity].
  - eapply int_ext; [|apply int_scal, I]. intro mu. unfold gaussian_IC. change (strength_s (off c)) with (strength_s c). change (ssigma (off c)) with (ssigma c). cbv beta.
    replace (- (x - mu * t) * (x - mu * t) / ssigma c ^ 2) with (- (x - mu * t) ^ 2 / ssigma c ^ 2) by (field; lra). field.
  - unfold uncollided_solution. rewrite U, G, S0, S1, S2, S3, E. ring.
Qed.
Print Assumptions C172_gaussian_pulse.
(** square source, many directions *)
Theorem C172_square_source : forall c x t, slab_on c -> sty_is c 0 1 = false -> sty_is c 1 1 = false -> sty_is c 2 1 = true -> sN_ang c <> 2%nat ->
  (forall y, y < 0 -> is_derive (expi c) y (exp y / y)) -> 0 < sx0 c -> 0 < t -> 0 <= st0 c ->
  exists (rate : R -> R) phi, (forall tau, tau < t -> is_RInt (fun mu => exp (- (t - tau)) / 2 * square_source c (x - mu * (t - tau)) tau) (-1) 1 (rate tau)) /\
    is_RInt rate 0 t phi /\ uncollided_solution c x t = strength_s c * phi.
Proof.
  intros c x t (G & U) S0 S1 S2 HN HE Hx Ht H0. pose proof (C40_square_source_exact (expi c) x t (sx0 c) (st0 c) HE Hx Ht H0) as I. set (T := Rmin t (st0 c)) in *.
  assert (HT : 0 <= T <= t) by (split; [apply Rmin_glb; lra|apply Rmin_l]).
  exists (fun tau => if Rltb tau (st0 c) then exp (- (t - tau)) / (2 * (t - tau)) * seen x (sx0 c) (t - tau) else 0), (uncollided_square_s2 (expi c) x t (sx0 c) (st0 c)). split; [|split].
  - intros tau Htau. unfold square_source. destruct (Rltb_spec tau (st0 c)) as [A|A].
    + eapply int_ext; [|apply C40_integrand_is_direction_average; lra]. intro mu. cbv beta. now rewrite Bool.andb_true_r.
    + apply (int_ext (fun _ => 0)); [intro; rewrite Bool.andb_false_r; ring|]. eapply int_eq; [apply int_const|ring].
  - replace (uncollided_square_s2 (expi c) x t (sx0 c) (st0 c)) with (uncollided_square_s2 (expi c) x t (sx0 c) (st0 c) + 0) by ring. apply (int_chasles _ 0 T t).
    + eapply int_ext_open; [lra| |exact I]. intros tau Hu. cbv beta. rewrite Rltb_true; [reflexivity|]. pose proof (Rmin_r t (st0 c)). fold T in H. lra.
    + apply (int_ext_open (fun _ => 0)); [lra| |eapply int_eq; [apply int_const|ring]]. intros tau Hu. rewrite Rltb_false; [reflexivity|]. unfold T, Rmin in Hu. destruct (Rle_dec t (st0 c)); lra.
  - unfold uncollided_solution. rewrite U, G, S0, S1, S2. destruct (Nat.eqb_spec (sN_ang c) 2); [congruence|]. unfold square_source_uncollided_solution. ring.
Qed.
Print Assumptions C172_square_source.
(** square source, two directions, where the closed form is right (C39) *)
Theorem C172_square_source_two_directions : forall c x t, slab_on c -> sty_is c 0 1 = false -> sty_is c 1 1 = false -> sty_is c 2 1 = true -> sN_ang c = 2%nat ->
  0 <= sx0 c -> 0 <= t -> 0 <= st0 c -> t <= st0 c \/ sx0 c - (t - st0 c) / sqrt 3 <= Rabs x \/ t <= sqrt 3 * (Rabs x + sx0 c) ->
  exists phi, is_RInt (fun tau => exp (- (t - tau)) / 2 * (square_source c (x - (t - tau) / sqrt 3) tau + square_source c (x + (t - tau) / sqrt 3) tau)) 0 t phi /\
    uncollided_solution c x t = strength_s c * phi.
Proof.
  intros c x t (G & U) S0 S1 S2 HN Hx Ht H0 HC. destruct (C39_s2_closed_form_exact x t (sx0 c) (st0 c) Hx Ht H0 HC) as (v & E & I). exists v. set (T := Rmin t (st0 c)) in *.
  assert (HT : 0 <= T <= t) by (split; [apply Rmin_glb; lra|apply Rmin_l]). split.
  - replace v with (v + 0) by ring. apply (int_chasles _ 0 T t).
    + eapply int_ext_open; [lra| |exact I]. intros tau Hu. unfold two_beams, square_source. pose proof (Rmin_r t (st0 c)). fold T in H. rewrite Rltb_true by lra. rewrite !Bool.andb_true_r.
      rewrite <- (Rabs_Ropp (- x - (t - tau) / sqrt 3)). replace (- (- x - (t - tau) / sqrt 3)) with (x + (t - tau) / sqrt 3) by ring. field.
    + apply (int_ext_open (fun _ => 0)); [lra| |eapply int_eq; [apply int_const|ring]]. intros tau Hu. unfold square_source. rewrite Rltb_false, !Bool.andb_false_r; [ring|]. unfold T, Rmin in Hu. destruct (Rle_dec t (st0 c)); lra.
  - unfold uncollided_solution. rewrite U, G, S0, S1, S2, HN. cbn [Nat.eqb]. unfold su_olson_s2_uncollided_solution. rewrite E. ring.
Qed.
Print Assumptions C172_square_source_two_directions.
(** Gaussian source: the error of the rule in time *)
Theorem C172_gaussian_source : forall c x t N, slab_on c -> sty_is c 0 1 = false -> sty_is c 1 1 = false -> sty_is c 2 1 = false -> sty_is c 3 1 = false -> sty_is c 5 1 = true ->
  erf_ok (erf c) -> 0 < ssigma c -> 0 <= t -> 0 <= st0 c -> (forall p, In p (tquad c) -> -1 < fst p < 1 /\ 0 <= snd p) -> exact_to (tquad c) (2 * N) ->
  exists (psi : R -> R) phi phi2,
    (forall mu, is_RInt (fun tau => exp (- (t - tau)) / 2 * gaussian_source c (x - mu * (t - tau)) tau) 0 t (psi mu)) /\ is_RInt psi (-1) 1 phi /\ phi2 = psi (1 / sqrt 3) + psi (- 1 / sqrt 3) /\
    Rabs (uncollided_solution c x t - strength_s c * (if (sN_ang c =? 2)%nat then phi2 else phi)) <=
      Rabs (strength_s c) * (2 * Rmin t (st0 c) * ((t + ((Rabs x + t) / ssigma c) ^ 2) ^ (N + 1) / INR (fact (N + 1)))).
Proof.
  intros c x t N (G & U) S0 S1 S2 S3 S5 HE Hs Ht H0 Sd Ex. destruct (C171_gaussian_source_error c x t N HE Hs Ht H0 Sd Ex) as (psi & phi & A & B & D).
  destruct (C171_two_directions_error c x t N HE Hs Ht H0 Sd Ex) as (v & I & _ & D2). pose proof sqrt3_pos as P. exists psi, phi, v. split; [exact A|]. split; [exact B|]. split.
  - eapply int_uniq2; [exact I|]. eapply int_ext; [|apply int_plus; [apply (A (1 / sqrt 3))|apply (A (- 1 / sqrt 3))]]. intro tau. cbv beta.
    replace (x - 1 / sqrt 3 * (t - tau)) with (x - (t - tau) / sqrt 3) by (field; lra). replace (x - - 1 / sqrt 3 * (t - tau)) with (x + (t - tau) / sqrt 3) by (field; lra). ring.
  - unfold uncollided_solution. rewrite U, G, S0, S1, S2, S3, S5. destruct (sN_ang c =? 2)%nat;
    match goal with |- Rabs (?a * ?s - ?s * ?b) <= _ => replace (a * s - s * b) with (s * (a - b)) by ring end; rewrite Rabs_mult; apply Rmult_le_compat_l; auto; apply Rabs_pos.
Qed.
Print Assumptions C172_gaussian_source.
(** sphere, shell: the flight of the initial condition over the time shifted by 1e-12 *)
Theorem C172_shell : forall c r t, sgeom c = Sphere -> uncollided c = true -> sty_is c 0 1 = false -> sty_is c 1 1 = true -> 0 < sx0 c -> 0 < r -> 0 <= t ->
  let s := t + / 10 ^ 12 in
  exists psi0 : R -> R -> R, (forall y mu, IC_function (off c) (sx0 c) 0 y mu = Ok (psi0 y mu)) /\
    is_RInt (fun mu => exp (- t) * psi0 (sqrt (r ^ 2 + s ^ 2 - 2 * r * s * mu)) mu) (-1) 1 (uncollided_solution c r t).
Proof.
  intros c r t G U S0 S1 Hx Hr Ht s. pose proof eps_pos as Ep. exists (fun y _ => shell_IC (off c) (sx0 c) y). split.
  - intros y mu. unfold IC_function. change (sgeom (off c)) with (sgeom c). rewrite G. change (sty_is (off c)) with (sty_is c). rewrite S0, S1, Reqb_false by lra. reflexivity.
  - unfold uncollided_solution. rewrite U, G, S0, S1. pose proof (C81_shell_flux_exact c r t Hx Hr Ht) as I. cbv zeta in I. fold s in I. rewrite (Rmult_comm (shell_IC_uncollided_solution c r t)).
    eapply int_ext_open; [lra| |apply int_scal, I]. intros mu Hm. cbv beta. unfold shell_IC. change (strength_s (off c)) with (strength_s c).
    assert (Hs : 0 < s) by (unfold s; lra). set (w := r ^ 2 + s ^ 2 - 2 * r * s * mu). assert (W : 0 < w) by (unfold w; assert (0 < r * s * (1 - mu)) by (apply Rmult_lt_0_compat; [now apply Rmult_lt_0_compat|lra]); pose proof (pow2_ge_0 (r - s)); lra).
    assert (Q : sqrt w * sqrt w = w) by (apply sqrt_sqrt; lra). pose proof (sqrt_lt_R0 w W) as Q0. pose proof PI_RGT_0.
    rewrite greater_window by lra. rewrite (Rltb_true 0 (sqrt w)) by auto. cbn [andb]. unfold ind. destruct (Rleb_spec w (sx0 c ^ 2)) as [A|A]; destruct (Rleb_spec (sqrt w) (sx0 c)) as [B|B]; try (exfalso; nra); field; split; lra.
Qed.
Print Assumptions C172_shell.
(** sphere, point pulse: of the particles e^(-t) that have not collided the formula keeps the part 2e-10/t *)
Theorem C172_point_pulse_total : forall c t L, sgeom c = Sphere -> uncollided c = true -> sty_is c 0 1 = true -> / 10 ^ 10 < t -> t + / 10 ^ 10 <= L ->
  is_RInt (fun r => 4 * PI * r ^ 2 * uncollided_solution c r t) 0 L (strength_s c * exp (- t) * (2 * / 10 ^ 10 / t)).
Proof.
  intros c t L G U S0 Ht HL. unfold uncollided_solution. rewrite U, G, S0. assert (D0 : 0 < / 10 ^ 10) by (apply Rinv_0_lt_compat, pow_lt; lra). set (d := / 10 ^ 10) in *. pose proof PI_RGT_0.
  replace (strength_s c * exp (- t) * (2 * d / t)) with (0 + (strength_s c * exp (- t) * (2 * d / t) + 0)) by ring.
  apply (int_chasles _ 0 (t - d) L); [|apply (int_chasles _ (t - d) (t + d) L)].
  - apply (int_ext_open (fun _ => 0)); [lra| |eapply int_eq; [apply int_const|ring]]. intros r Hr. unfold point_source. fold d. rewrite Rleb_false; [ring|]. rewrite Rabs_left1; lra.
  - apply (int_ext_open (fun r => (strength_s c * exp (- t) / t ^ 2) * r)); [lra| |].
    + intros r Hr. unfold point_source. fold d. rewrite Rleb_true by (apply Rabs_le; lra). field. lra.
    + eapply int_eq; [apply int_scal, (int_ftc (fun r => r ^ 2 / 2) (fun r => r))|].
      * intro z. eapply dd_eq; [apply (dd_ext (fun z => / 2 * z ^ 2)); [intro; field|]; apply dd_scal, dd_power|]. cbn. field.
      * intro z. apply continuous_id.
      * cbv beta. field. lra.
  - apply (int_ext_open (fun _ => 0)); [lra| |eapply int_eq; [apply int_const|ring]]. intros r Hr. unfold point_source. fold d. rewrite Rleb_false; [ring|]. rewrite Rabs_pos_eq; lra.
Qed.
Print Assumptions C172_point_pulse_total.
(** so the uncollided flux of a point pulse is not the flight of a pulse *)
Theorem C172_point_pulse_refuted : exists c t I, sgeom c = Sphere /\ uncollided c = true /\ sty_is c 0 1 = true /\ strength_s c = 1 /\
  is_RInt (fun r => 4 * PI * r ^ 2 * uncollided_solution c r t) 0 2 I /\ I < exp (- t) / 10 ^ 9.
Proof.
  set (c := SCfg Sphere [1; 0; 0; 0; 0; 0]%Z true false 1 (1 / 2) 1 1 1 1 8 ((0, 2) :: nil) ((0, 2) :: nil) Ei_int erf_int (fun _ _ => 0)). exists c, 1. eexists. repeat split; [|].
  - apply (C172_point_pulse_total c 1 2); try reflexivity; lra.
  - cbn [c strength_s]. pose proof (exp_pos (- (1))). rewrite Rmult_1_l. unfold Rdiv. apply Rmult_lt_compat_l; auto. lra.
Qed.
Print Assumptions C172_point_pulse_refuted.
(** a one-sided Gaussian pulse (last entry of source_type set) is given the flight of the pulse in all directions *)
Theorem C172_one_sided_pulse_refuted : exists c x t (psi0 : R -> R -> R) v, slab_on c /\ sty_is c 3 1 = true /\ strength_s c = 1 /\ erf_ok (erf c) /\ 0 < ssigma c /\ 0 < t /\
  (forall y mu, IC_function (off c) (sx0 c) 0 y mu = Ok (psi0 y mu)) /\ is_RInt (fun mu => exp (- t) * psi0 (x - mu * t) mu) (-1) 1 v /\
  uncollided_solution c x t <> v * (4 * t / (4 * t + / 10 ^ 12)).
Proof.
  set (c := scfg0 [0; 0; 0; 1; 0; 0; 1]%Z true false 1). pose proof eps_pos as Ep.
  set (g := fun x mu : R => exp (- (1)) * exp (- (x - mu) ^ 2)).
  assert (Cg : forall x z, continuous (g x) z) by (intros x z; apply (ex_derive_continuous (g x)); unfold g; auto_derive; auto).
  set (w := fun x => RInt (g x) 0 1).
  assert (Iw : forall x, is_RInt (g x) 0 1 (w x)) by (intro x; apply (int_val (g x)); apply Cg).
  assert (IV : forall x, is_RInt (fun mu => exp (- (1)) * gaussian_IC_noniso (off c) (x - mu * 1) mu) (-1) 1 (w x)).
  { intro x. replace (w x) with (0 + w x) by ring. apply (int_chasles _ (-1) 0 1).
    - apply (int_ext_open (fun _ => 0)); [lra| |eapply int_eq; [apply int_const|ring]]. intros mu Hm. unfold gaussian_IC_noniso, greater. rewrite Rltb_false by lra. unfold Rdiv; ring.
    - apply (int_ext_open (g x)); [lra| |apply Iw]. intros mu Hm. unfold gaussian_IC_noniso, greater, g. rewrite Rltb_true by lra. cbn [off c scfg0 strength_s ssigma].
      replace (- (x - mu * 1) * (x - mu * 1) / 1 ^ 2) with (- (x - mu) ^ 2) by field. field. }
  assert (Lo : exp (- (1)) * (1 - exp (- (1))) <= w 1).
  { assert (J : is_RInt (fun mu => exp (- (1)) * exp (mu - 1)) 0 1 (exp (- (1)) * (1 - exp (- (1))))).
    { eapply int_eq; [apply int_scal, (int_ftc (fun mu => exp (mu - 1)) (fun mu => exp (mu - 1)))|].
      - intro z. eapply dd_eq; [apply (dd_comp exp (fun mu => mu - 1)); [apply is_derive_exp|apply dd_minus; [apply dd_id|apply (dd_const 1)]]|]. cbv beta. ring.
      - intro z. apply (ex_derive_continuous (fun mu => exp (mu - 1))). auto_derive. auto.
      - cbv beta. replace (1 - 1) with 0 by ring. replace (0 - 1) with (- (1)) by ring. rewrite exp_0. ring. }
    eapply is_RInt_le; [apply Rle_0_1|exact J|apply Iw|]. intros z Hz. unfold g. apply Rmult_le_compat_l; [left; apply exp_pos|].
    destruct (Req_dec (z - 1) (- (1 - z) ^ 2)) as [->|N]; [lra|]. left. apply exp_increasing. nra. }
  assert (Hi : w (-1) <= exp (- (1)) * exp (- (1))).
  { assert (J : is_RInt (fun _ : R => exp (- (1)) * exp (- (1))) 0 1 (exp (- (1)) * exp (- (1)))) by (eapply int_eq; [apply int_const|ring]).
    eapply is_RInt_le; [apply Rle_0_1|apply Iw|exact J|]. intros z Hz. unfold g. apply Rmult_le_compat_l; [left; apply exp_pos|]. left. apply exp_increasing. nra. }
  assert (Ne : w 1 <> w (-1)).
  { assert (2 * exp (- (1)) < 1); [|pose proof (exp_pos (- (1))); nra]. pose proof (exp_ineq1 1 ltac:(lra)) as X. pose proof (exp_pos 1). assert (exp (- (1)) * exp 1 = 1) by (rewrite <- exp_plus, <- exp_0; f_equal; ring). pose proof (exp_pos (- (1))). nra. }
  assert (Ev : uncollided_solution c (-1) 1 = uncollided_solution c 1 1).
  { unfold uncollided_solution, gaussian_IC_uncollided_solution. cbn. replace (1 - -1) with (1 + 1) by ring. replace (1 + -1) with (1 - 1) by ring. unfold Rdiv. ring. }
  assert (K : forall x, uncollided_solution c x 1 <> w x * (4 * 1 / (4 * 1 + / 10 ^ 12)) -> exists x t (psi0 : R -> R -> R) v, slab_on c /\ sty_is c 3 1 = true /\ strength_s c = 1 /\ erf_ok (erf c) /\ 0 < ssigma c /\ 0 < t /\
    (forall y mu, IC_function (off c) (sx0 c) 0 y mu = Ok (psi0 y mu)) /\ is_RInt (fun mu => exp (- t) * psi0 (x - mu * t) mu) (-1) 1 v /\ uncollided_solution c x t <> v * (4 * t / (4 * t + / 10 ^ 12))).
  { intros x Hx. exists x, 1, (gaussian_IC_noniso (off c)), (w x). split; [split; reflexivity|]. split; [reflexivity|]. split; [reflexivity|]. split; [apply erf_contract_holds|]. split; [cbn; lra|]. split; [lra|]. split; [reflexivity|]. split; [apply IV|exact Hx]. }
  exists c. destruct (Req_dec (uncollided_solution c 1 1) (w 1 * (4 * 1 / (4 * 1 + / 10 ^ 12)))) as [E|E]; [|now apply (K 1)]. apply (K (-1)). rewrite Ev, E. intro F. apply Ne. apply (Rmult_eq_reg_r (4 * 1 / (4 * 1 + / 10 ^ 12))); [exact F|].
  apply Rgt_not_eq, Rdiv_lt_0_compat; lra.
Qed.
Print Assumptions C172_one_sided_pulse_refuted.
(** the centre of a square pulse of strength 1, and of strength 3: the flight of the initial condition, and three times that *)
Example C172_example : uncollided_solution (scfg0 [0; 1; 0; 0; 0; 0]%Z true false 1) 0 (1 / 4) = exp (- (1 / 4)) /\
  uncollided_solution (scfg0 [0; 1; 0; 0; 0; 0]%Z true false 3) 0 (1 / 4) = 3 * (3 * exp (- (1 / 4))).
Proof.
  assert (P : pulse_unit (1 / 2) 0 (1 / 4) = exp (- (1 / 4))).
  { destruct (pulse_cases (1 / 2) 0 (1 / 4)) as [(B & E)|[(B & C & E)|[(B & C & D & E)|(B & C & E)]]]; rewrite ?Rabs_R0 in *; lra. }
  assert (K : forall a, uncollided_solution (scfg0 [0; 1; 0; 0; 0; 0]%Z true false a) 0 (1 / 4) = a * (a * exp (- (1 / 4)))).
  { intro a. change (square_IC_uncollided_solution (scfg0 [0; 1; 0; 0; 0; 0]%Z true false a) 0 (1 / 4) * a = a * (a * exp (- (1 / 4)))). rewrite square_IC_unit. cbn [scfg0 sx0 strength_s]. rewrite P. ring. }
  split; rewrite K; ring.
Qed.
