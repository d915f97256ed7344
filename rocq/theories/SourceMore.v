(** Signs, supports, scaling, initial conditions: lemmas for the source theorems. *)
From Coquelicot Require Import Coquelicot.
From Verif Require Import Py PyLemmas Calc Legendre Cheb DGModel DGSpec DGProofs FuncModel FuncProofs SourceModel SourceProofs.
Local Open Scope R_scope.

Lemma eps_pos : 0 < / 10 ^ 12.
Proof. apply Rinv_0_lt_compat, pow_lt. lra. Qed.
Lemma bool_eq (a b : bool) : (a = true <-> b = true) -> a = b.
Proof. destruct a, b; intuition congruence. Qed.

(* ------------------------------------------------------------------ square pulse *)
(** flux without collisions at (x,t) of a unit pulse on [-x0,x0]: the average over directions *)
Definition pulse_exact (x0 x t : R) : R := exp (- t) / (2 * t) * visible x x0 t.
Lemma pulse_integral x0 x t : 0 <= x0 -> 0 < t -> is_RInt (fun mu => exp (- t) / 2 * ind (Rleb (Rabs (x - mu * t)) x0)) (-1) 1 (pulse_exact x0 x t).
Proof.
  intros H0 Ht. eapply int_eq; [apply int_scal; apply directions_visible; auto|]. unfold pulse_exact. field. lra.
Qed.
Lemma visible_bounds x x0 t : 0 <= x0 -> 0 <= t -> 0 <= visible x x0 t <= 2 * t.
Proof. intros. unfold visible, Rmax, Rmin. repeat destruct (Rle_dec _ _); lra. Qed.
Definition pulse_unit (x0 xx t : R) : R :=
    if Rleb t x0 && Rgeb xx (- x0 + t) && Rleb xx (x0 - t) then exp (- t)
    else if Rgtb t x0 && Rleb (- t + x0) xx && Rgeb (t - x0) xx then exp (- t) * x0 / (t + / 10 ^ 12)
    else if Rltb xx (t + x0) && Rgtb xx (- t - x0) then
      if Rgeb (x0 - xx) t && Rleb (x0 + xx) t then exp (- t) * (t + xx + x0) / (2 * t + / 10 ^ 12)
      else if Rleb (x0 - xx) t && Rgeb (x0 + xx) t then exp (- t) * (t - xx + x0) / (2 * t + / 10 ^ 12)
      else 0
    else 0.
Lemma square_IC_unit c x t : square_IC_uncollided_solution c x t = pulse_unit (sx0 c) x t * strength_s c.
Proof. reflexivity. Qed.
(** which of the five branches is taken *)
Lemma pulse_cases x0 x t : 0 < x0 -> 0 <= t ->
  (t + Rabs x <= x0 /\ pulse_unit x0 x t = exp (- t)) \/
  (x0 < t /\ Rabs x <= t - x0 /\ pulse_unit x0 x t = exp (- t) * x0 / (t + / 10 ^ 12)) \/
  (x0 - t < Rabs x /\ t - x0 < Rabs x /\ Rabs x < t + x0 /\ pulse_unit x0 x t = exp (- t) * (t - Rabs x + x0) / (2 * t + / 10 ^ 12)) \/
  (t + x0 <= Rabs x /\ x0 < t + Rabs x /\ pulse_unit x0 x t = 0).
Proof.
  intros H0 Ht. unfold pulse_unit, Rgeb, Rgtb.
  destruct (Rleb_spec t x0) as [a|a]; destruct (Rleb_spec (- x0 + t) x) as [b|b]; destruct (Rleb_spec x (x0 - t)) as [d|d]; cbn [andb];
  try (left; split; [unfold Rabs; destruct (Rcase_abs x); lra|reflexivity]); right;
  destruct (Rltb_spec x0 t) as [e|e]; try lra; destruct (Rleb_spec (- t + x0) x) as [f|f]; destruct (Rleb_spec x (t - x0)) as [g|g]; cbn [andb]; try lra;
  try (left; split; [lra|]; split; [unfold Rabs; destruct (Rcase_abs x); lra|reflexivity]); right;
  destruct (Rltb_spec x (t + x0)) as [h|h]; destruct (Rltb_spec (- t - x0) x) as [i|i]; cbn [andb];
  try (right; split; [unfold Rabs; destruct (Rcase_abs x); lra|]; split; [unfold Rabs; destruct (Rcase_abs x); lra|reflexivity]); left;
  destruct (Rleb_spec t (x0 - x)) as [j|j]; destruct (Rleb_spec (x0 + x) t) as [k|k]; destruct (Rleb_spec (x0 - x) t) as [l|l]; destruct (Rleb_spec t (x0 + x)) as [m|m]; cbn [andb]; try lra;
  unfold Rabs; destruct (Rcase_abs x); try lra; repeat split; try lra; try (f_equal; f_equal; lra); f_equal; f_equal; f_equal; lra.
Qed.
Lemma pulse_even x0 x t : 0 < x0 -> 0 <= t -> pulse_unit x0 (- x) t = pulse_unit x0 x t.
Proof.
  intros H0 Ht.
  destruct (pulse_cases x0 x t H0 Ht) as [(A & E)|[(A & B & E)|[(A & B & C & E)|(A & B & E)]]];
  destruct (pulse_cases x0 (- x) t H0 Ht) as [(A' & E')|[(A' & B' & E')|[(A' & B' & C' & E')|(A' & B' & E')]]];
  rewrite ?Rabs_Ropp in *; rewrite E, E'; try reflexivity; exfalso; pose proof (Rabs_pos x); lra.
Qed.
Lemma pulse_bounds x0 x t : 0 < x0 -> 0 <= t -> 0 <= pulse_unit x0 x t <= exp (- t).
Proof.
  intros H0 Ht. pose proof eps_pos as Ep. pose proof (exp_pos (- t)) as Ee.
  destruct (pulse_cases x0 x t H0 Ht) as [(A & E)|[(A & B & E)|[(A & B & C & E)|(A & B & E)]]]; rewrite E; [lra| | |lra].
  - assert (0 <= x0 / (t + / 10 ^ 12) <= 1).
    { split; [apply Rle_mult_inv_pos; lra|]. apply Rmult_le_reg_r with (t + / 10 ^ 12); [lra|]. unfold Rdiv. rewrite Rmult_assoc, Rinv_l; lra. }
    unfold Rdiv in *. rewrite Rmult_assoc. split; [apply Rmult_le_pos; lra|]. rewrite <- (Rmult_1_r (exp (- t))) at 2. apply Rmult_le_compat_l; lra.
  - assert (0 <= (t - Rabs x + x0) / (2 * t + / 10 ^ 12) <= 1).
    { split; [apply Rle_mult_inv_pos; lra|]. apply Rmult_le_reg_r with (2 * t + / 10 ^ 12); [lra|]. unfold Rdiv. rewrite Rmult_assoc, Rinv_l; lra. }
    unfold Rdiv in *. rewrite Rmult_assoc. split; [apply Rmult_le_pos; lra|]. rewrite <- (Rmult_1_r (exp (- t))) at 2. apply Rmult_le_compat_l; lra.
Qed.
(** the code's value is the exact one up to the guard 1e-12 in the denominators *)
Lemma pulse_accuracy x0 x t : 0 < x0 -> 0 < t ->
  pulse_exact x0 x t * (t / (t + / 10 ^ 12)) <= pulse_unit x0 x t <= pulse_exact x0 x t.
Proof.
  intros H0 Ht. pose proof eps_pos as Ep. pose proof (exp_pos (- t)) as Ee. set (e := / 10 ^ 12) in *.
  pose proof (Rabs_pos x) as Ha.
  assert (Q : 0 < t / (t + e) <= 1).
  { split; [apply Rdiv_lt_0_compat; lra|]. apply Rmult_le_reg_r with (t + e); [lra|]. unfold Rdiv. rewrite Rmult_assoc, Rinv_l; lra. }
  unfold pulse_exact. rewrite <- (visible_abs x).
  destruct (pulse_cases x0 x t H0 ltac:(lra)) as [(A & E)|[(A & B & E)|[(A & B & C & E)|(A & B & E)]]]; rewrite E; fold e.
  - rewrite visible_1 by lra. replace (exp (- t) / (2 * t) * (2 * t)) with (exp (- t)) by (field; lra).
    split; [rewrite <- (Rmult_1_r (exp (- t))) at 2; apply Rmult_le_compat_l; lra|lra].
  - rewrite visible_3 by lra. replace (exp (- t) / (2 * t) * (2 * x0)) with (exp (- t) * x0 / t) by (field; lra).
    replace (exp (- t) * x0 / (t + e)) with (exp (- t) * x0 / t * (t / (t + e))) by (field; lra).
    split; [lra|]. rewrite <- (Rmult_1_r (exp (- t) * x0 / t)) at 2. apply Rmult_le_compat_l; [|lra].
    apply Rle_mult_inv_pos; [apply Rmult_le_pos; lra|lra].
  - rewrite visible_2 by lra. replace (t - Rabs x + x0) with (x0 - Rabs x + t) by ring. set (v := x0 - Rabs x + t). assert (0 < v) by (unfold v; lra).
    replace (exp (- t) * v / (2 * t + e)) with (exp (- t) / (2 * t) * v * (2 * t / (2 * t + e))) by (field; lra).
    assert (0 <= exp (- t) / (2 * t) * v) by (apply Rmult_le_pos; [apply Rle_mult_inv_pos|]; lra).
    assert (t / (t + e) <= 2 * t / (2 * t + e) <= 1).
    { split.
      - apply Rmult_le_reg_r with ((t + e) * (2 * t + e)); [nra|]. replace (t / (t + e) * ((t + e) * (2 * t + e))) with (t * (2 * t + e)) by (field; lra).
        replace (2 * t / (2 * t + e) * ((t + e) * (2 * t + e))) with (2 * t * (t + e)) by (field; lra). nra.
      - apply Rmult_le_reg_r with (2 * t + e); [lra|]. unfold Rdiv. rewrite Rmult_assoc, Rinv_l; lra. }
    split; [apply Rmult_le_compat_l; lra|]. rewrite <- (Rmult_1_r (exp (- t) / (2 * t) * v)) at 2. apply Rmult_le_compat_l; lra.
  - rewrite visible_0 by lra. lra.
Qed.

(* ------------------------------------------------------------------ plane pulse, square sources *)
Lemma plane_cases c x t : (Rabs x <= t /\ plane_IC_uncollided_solution c x t = exp (- t) / (2 * t + / 10 ^ 12)) \/
  (t < Rabs x /\ plane_IC_uncollided_solution c x t = 0).
Proof.
  unfold plane_IC_uncollided_solution. destruct (Rleb_spec (- t) x) as [a|a]; destruct (Rleb_spec x t) as [b|b]; cbn [andb];
  [left|right|right|right]; split; auto; unfold Rabs; destruct (Rcase_abs x); lra.
Qed.
Lemma plane_even c x t : plane_IC_uncollided_solution c (- x) t = plane_IC_uncollided_solution c x t.
Proof. destruct (plane_cases c x t) as [[A E]|[A E]]; destruct (plane_cases c (- x) t) as [[B F]|[B F]]; rewrite Rabs_Ropp in B; rewrite E, F; lra. Qed.
Lemma plane_nonneg c x t : 0 <= t -> 0 <= plane_IC_uncollided_solution c x t.
Proof.
  intro Ht. pose proof eps_pos. destruct (plane_cases c x t) as [[A E]|[A E]]; rewrite E; [|lra]. apply Rle_mult_inv_pos; [left; apply exp_pos|lra].
Qed.
Lemma square_s2_even Ei x t x0 t0 : uncollided_square_s2 Ei (- x) t x0 t0 = uncollided_square_s2 Ei x t x0 t0.
Proof. unfold uncollided_square_s2, f2. now rewrite Rabs_Ropp. Qed.
Lemma square_s2_causal Ei x t x0 t0 : t + x0 <= Rabs x -> uncollided_square_s2 Ei x t x0 t0 = 0.
Proof.
  intro H. unfold uncollided_square_s2. destruct (Rgtb t 0); auto. cbv zeta. rewrite Rleb_true; auto.
  eapply Rle_trans; [apply Rmin_r|lra].
Qed.
Lemma square_s2_nonneg Ei x t x0 t0 : expi_ok Ei -> 0 < x0 -> 0 <= t -> 0 <= t0 -> 0 <= uncollided_square_s2 Ei x t x0 t0.
Proof.
  intros HE H0 Ht H1. destruct (Rle_lt_or_eq_dec _ _ Ht) as [P|<-].
  2:{ unfold uncollided_square_s2, Rgtb. rewrite Rltb_false by lra. lra. }
  eapply int_nonneg; [| |apply (sq_exact Ei x t x0 t0); auto].
  - apply Rmin_glb; lra.
  - intros z [A B]. pose proof (Rmin_l t t0). unfold sq_rate. apply Rmult_le_pos; [|apply visible_bounds; lra].
    apply Rle_mult_inv_pos; [left; apply exp_pos|lra].
Qed.
Lemma s2_nonneg x t x0 t0 : 0 <= x0 -> 0 <= t -> 0 <= t0 -> 0 <= s2_exact x t x0 t0.
Proof.
  intros H0 Ht H1. eapply int_nonneg; [| |apply s2_integral; auto].
  - apply Rmin_glb; lra.
  - intros z _. unfold s2_rate, beam, ind. apply Rmult_le_pos; [pose proof (exp_pos (- (t - z))); lra|].
    destruct (Rleb _ _), (Rleb _ _); lra.
Qed.
Lemma su_olson_even x t x0 t0 : uncollided_su_olson_s2 (- x) t x0 t0 = uncollided_su_olson_s2 x t x0 t0.
Proof. unfold uncollided_su_olson_s2. now rewrite Rabs_Ropp. Qed.
