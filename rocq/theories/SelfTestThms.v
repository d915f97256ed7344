(** C130: the checks the spherical matrices make of themselves. *)
From Coq Require Import QArith Qreals Machin.
From Verif Require Import Py PyLemmas Legendre Cheb DGModel DGSpec DGProofs DGInt DGBalance DGFinal GmatModel MatModel
  SpherePoly SphereProofs SphereBal SphereWeak ReaderModel ReaderThms SelfTestModel.
Open Scope R_scope.

Lemma J_value T n i j a b : a < b -> (i < n)%nat -> (j < n)%nat -> J_exact T n a b ->
  make_J_sphere T a b i j = 1 / 2 * (rn i * rn j) * ((a + b) / 2 * Q2R (al 0 i j) + (b - a) / 2 * Q2R (al 1 i j)) / PI.
Proof. intros H Hi Hj E. eapply int_uniq2; [apply E; auto|now apply J_is]. Qed.
Lemma L_value T n i j a b : a < b -> (i < n)%nat -> (j < n)%nat -> L_exact T n a b ->
  make_L_sphere T a b i j = rn i * rn j / (b - a) * Bq ((a + b) / 2) ((b - a) / 2) i j / PI.
Proof. intros H Hi Hj E. eapply int_uniq2; [apply E; auto|now apply L_is]. Qed.

(** the rational numbers in a closed form *)
Ltac rationals :=
  repeat match goal with
    | |- context [Q2R (al ?p ?i ?j)] => let v := eval vm_compute in (Qred (al p i j)) in rewrite (q_is (al p i j) v) by (vm_compute; reflexivity)
    | |- context [Q2R (be ?p ?i ?j)] => let v := eval vm_compute in (Qred (be p i j)) in rewrite (q_is (be p i j) v) by (vm_compute; reflexivity)
    end; unfold Q2R; cbn [Qnum Qden].
Ltac closed_form := unfold Mform, Gform, M'form, Aq, Bq, Cq, rn; cbn [Nat.eqb]; cbv zeta; rationals.

Lemma tol_pos : 0 < tol. Proof. unfold tol. apply Rdiv_lt_0_compat; [lra|]. apply pow_lt. lra. Qed.
Lemma close_eq x y : x = y -> close x y = true.
Proof. intros ->. unfold close. rewrite Rminus_eq_0, Rabs_R0. apply Rleb_true. pose proof tol_pos. lra. Qed.
Lemma not_above_eq x y : x = y -> not_above x y = true.
Proof. intros ->. unfold not_above. rewrite Rminus_eq_0. apply Rleb_true. pose proof tol_pos. lra. Qed.
Lemma when_intro (c : bool) b : (c = true -> b = true) -> when c b = true.
Proof. destruct c; cbn; auto. Qed.
Ltac fields := intros; field; repeat split; first [apply PI_neq0 | apply sqrt2_nz | lra].
Lemma root_half x : x / sqrt 2 = sqrt 2 * x / 2.
Proof. pose proof sqrt2_nz. rewrite <- sqrt2_sq at 3. field. auto. Qed.

Section Exact.
Context (T : tables) (M : nat) (a b : R) (Hab : a < b).
Context (EM : mass_exact T (M + 1) a b) (EJ : J_exact T (M + 1) a b) (EL : L_exact T (M + 1) a b).
Lemma mass_passes : check_mass M (make_mass_sphere T a b) a b = true.
Proof.
  pose proof sqrt2_sq as S2. pose proof sqrt2_nz as SN. pose proof PI_neq0 as PN.
  unfold check_mass. cbv zeta. rewrite !andb_true_iff. split; [split|].
  - apply not_above_eq. rewrite (mass_value T (M + 1)) by (auto; lia). closed_form. fields.
  - apply when_intro. intros H. apply Nat.ltb_lt in H. rewrite !andb_true_iff. split; [split|]; apply not_above_eq;
      rewrite (mass_value T (M + 1)) by (auto; lia); closed_form.
    + rewrite root_half. fields.
    + rewrite root_half. fields.
    + rewrite S2. fields.
  - apply when_intro. intros H. apply Nat.ltb_lt in H. apply close_eq. rewrite (mass_value T (M + 1)) by (auto; lia). closed_form. rewrite S2. fields.
Qed.
Lemma J_passes : check_J M (make_J_sphere T a b) a b = true.
Proof.
  pose proof sqrt2_sq as S2.
  unfold check_J. rewrite !andb_true_iff. split; [split|].
  - apply close_eq. rewrite (J_value T (M + 1)) by (auto; lia). closed_form. fields.
  - apply when_intro. intros H. apply Nat.ltb_lt in H. rewrite !andb_true_iff. split; [split|]; apply close_eq;
      rewrite (J_value T (M + 1)) by (auto; lia); closed_form.
    + rewrite root_half. fields.
    + rewrite root_half. fields.
    + rewrite S2. fields.
  - apply when_intro. intros H. apply Nat.ltb_lt in H. apply close_eq. rewrite (J_value T (M + 1)) by (auto; lia). closed_form. rewrite S2. fields.
Qed.
Lemma L_passes : check_L M (make_L_sphere T a b) a b = true.
Proof.
  pose proof sqrt2_sq as S2.
  unfold check_L. cbv zeta. rewrite !andb_true_iff. split; [split; [split|]|].
  - apply Reqb_refl.
  - apply when_intro. intros H. apply Nat.ltb_lt in H. rewrite !andb_true_iff. split; [split|].
    + apply Reqb_refl.
    + apply close_eq; rewrite (L_value T (M + 1)) by (auto; lia); closed_form. fields.
    + apply close_eq; rewrite (L_value T (M + 1)) by (auto; lia); closed_form. rewrite S2. fields.
  - apply when_intro. intros H. apply Nat.ltb_lt in H. apply close_eq. rewrite (L_value T (M + 1)) by (auto; lia). closed_form. rewrite S2. fields.
  - apply when_intro. intros H. apply Nat.ltb_lt in H. apply close_eq. rewrite (L_value T (M + 1)) by (auto; lia). closed_form. rewrite S2. fields.
Qed.
End Exact.

Lemma G_passes M a b ap bp G : a < b -> (M <= 10)%nat -> make_G_sphere (M + 1) a b ap bp = Ok G ->
  (forall i j, (i <= M)%nat -> (j <= M)%nat -> G i j = Gform i j a b ap bp / PI) -> check_G M G a b ap bp = true.
Proof.
  intros H HM E V. unfold check_G. rewrite andb_true_iff. split.
  - apply close_eq. rewrite V by lia. closed_form. fields.
  - destruct (Nat.ltb_spec 0 M) as [P|P].
    + pose proof sqrt2_sq as S2. rewrite !andb_true_iff. split; [split|]; apply close_eq; rewrite V by lia; closed_form.
      * replace (6 * sqrt 2 * PI) with (6 * PI * sqrt 2) by ring. transitivity ((a + b) * (ap - bp) / (6 * PI) / sqrt 2); [rewrite root_half; fields|fields].
      * match goal with |- _ = ?x / _ => transitivity (x / (6 * (a - b) * PI) / sqrt 2); [rewrite root_half; fields|fields] end.
      * rewrite S2. fields.
    + replace (1 <? M)%nat with false; auto. symmetry. apply Nat.ltb_ge. lia.
Qed.

(* ------------------------------------------------------------------ pi and the square root of two *)
Lemma pi_between : 3.14159265 < PI < 3.14159266.
Proof.
  pose proof (PI_2_3_7_ineq 4) as H.
  unfold PI_2_3_7_tg, tg_alt, Ratan_seq in H. cbn [Nat.mul Nat.add sum_f_R0 pow INR] in H. simpl INR in H. lra.
Qed.
Lemma root_between : 1.41421356 < sqrt 2 < 1.41421357.
Proof.
  split.
  - apply Rsqr_incrst_0; [|lra|apply sqrt_pos]. rewrite Rsqr_sqrt by lra. unfold Rsqr. lra.
  - apply Rsqr_incrst_0; [|apply sqrt_pos|lra]. rewrite Rsqr_sqrt by lra. unfold Rsqr. lra.
Qed.
(** 1/pi and (square root of two)/pi *)
Lemma ip_between : 0.31830988 < / PI < 0.31830989.
Proof.
  pose proof pi_between as [P1 P2]. assert (PI * / PI = 1) by (apply Rinv_r; lra).
  assert (0 < / PI) by (apply Rinv_0_lt_compat; lra). split; nra.
Qed.
Lemma ri_between : 0.450158 < sqrt 2 * / PI < 0.450159.
Proof. pose proof ip_between. pose proof root_between. split; nra. Qed.
(** values of the form p/pi + q (square root of two)/pi *)
Definition near (x y : R) : Prop := Rabs (x - y) < 1 / 10 ^ 5.
Lemma agrees_iff B A : agrees B A = true <-> forall i j, (i < 4)%nat -> (j < 4)%nat -> near (B i j) (A i j).
Proof.
  unfold agrees. rewrite forallb_forall. split.
  - intros H i j Hi Hj. specialize (H i ltac:(apply in_seq; lia)). rewrite forallb_forall in H. specialize (H j ltac:(apply in_seq; lia)).
    destruct (Rltb_spec (Rabs (B i j - A i j)) (1 / 10 ^ 5)) as [L|]; [exact L|discriminate].
  - intros H i Hi. apply in_seq in Hi. apply forallb_forall. intros j Hj. apply in_seq in Hj. apply Rltb_true. apply H; lia.
Qed.
Ltac four i := destruct i as [|[|[|[|i]]]]; [| | | |lia].
Ltac numbers := cbn [nth]; closed_form; rewrite ?sqrt2_sq; pose proof ip_between as I1; pose proof ri_between as I2; unfold near; apply Rabs_def1;
  unfold Rdiv; lra.
Lemma Mass_near i j : (i < 4)%nat -> (j < 4)%nat -> near (Mass_bench i j) (Mform i j (2 / 10) (9 / 10) / PI).
Proof. intros Hi Hj. four i; four j; clear Hi Hj; unfold Mass_bench, bench; numbers. Qed.
Lemma J_near i j : (i < 4)%nat -> (j < 4)%nat -> near (J_bench i j)
  (1 / 2 * (rn i * rn j) * ((2 / 10 + 9 / 10) / 2 * Q2R (al 0 i j) + (9 / 10 - 2 / 10) / 2 * Q2R (al 1 i j)) / PI).
Proof. intros Hi Hj. four i; four j; clear Hi Hj; unfold J_bench, bench; numbers. Qed.
Lemma L_near i j : (i < 4)%nat -> (j < 4)%nat -> near (L_bench i j)
  (rn i * rn j / (9 / 10 - 2 / 10) * Bq ((2 / 10 + 9 / 10) / 2) ((9 / 10 - 2 / 10) / 2) i j / PI).
Proof. intros Hi Hj. four i; four j; clear Hi Hj; unfold L_bench, bench; numbers. Qed.
Lemma G_near i j : (i < 4)%nat -> (j < 4)%nat -> near (G_bench i j) (Gform i j (2 / 10) (9 / 10) (9 / 10) (12 / 10) / PI).
Proof. intros Hi Hj. four i; four j; clear Hi Hj; unfold G_bench, bench; numbers. Qed.
Lemma MPRIME_near i j : (i < 4)%nat -> (j < 4)%nat -> near (MPRIME_bench i j) (M'form i j (2 / 10) (9 / 10) (9 / 10) (12 / 10) / PI).
Proof. intros Hi Hj. four i; four j; clear Hi Hj; unfold MPRIME_bench, bench; numbers. Qed.

Lemma G_built M a b ap bp : a < b -> (M <= 10)%nat -> exists G, make_G_sphere (M + 1) a b ap bp = Ok G /\
  forall i j, (i <= M)%nat -> (j <= M)%nat -> G i j = Gform i j a b ap bp / PI.
Proof.
  intros H HM. eexists. split.
  - apply over_pi_ok. intros i j Hi Hj. eexists. apply G_table; [lia|lia|lra].
  - intros i j Hi Hj. cbv beta. rewrite G_table by (lia || lra). reflexivity.
Qed.
Lemma P_built M a b ap bp : (M <= 10)%nat -> exists G, make_MPRIME (M + 1) a b ap bp = Ok G /\
  forall i j, (i <= M)%nat -> (j <= M)%nat -> G i j = M'form i j a b ap bp / PI.
Proof.
  intros HM. eexists. split.
  - apply over_pi_ok. intros i j Hi Hj. eexists. apply M_table; lia.
  - intros i j Hi Hj. cbv beta. rewrite M_table by lia. reflexivity.
Qed.
(* ------------------------------------------------------------------ C130: right tables pass *)
Theorem C130_right_tables_pass_everywhere : forall T M a b ap bp, a < b -> (M <= 10)%nat ->
  mass_exact T (M + 1) a b -> J_exact T (M + 1) a b -> L_exact T (M + 1) a b ->
  exists m, make_all_tested Sphere T M a b ap bp = Ok m.
Proof.
  intros T M a b ap bp H HM EM EJ EL. unfold make_all_tested. rewrite L_passes by auto. cbn [check bind].
  destruct (G_built M a b ap bp H HM) as (G & EG & V). rewrite EG. cbn [bind]. rewrite (G_passes M a b ap bp G) by auto. cbn [check bind].
  rewrite mass_passes, J_passes by auto. cbn [check bind]. destruct (P_built M a b ap bp HM) as (P & EP & _). rewrite EP. cbn [bind].
  eexists. reflexivity.
Qed.
Print Assumptions C130_right_tables_pass_everywhere.
Lemma value_agrees (n : nat) B A F : (4 <= n)%nat -> (forall i j, (i < 4)%nat -> (j < 4)%nat -> near (B i j) (F i j)) ->
  (forall i j, (i < n)%nat -> (j < n)%nat -> A i j = F i j) -> agrees B A = true.
Proof. intros Hn H E. apply agrees_iff. intros i j Hi Hj. rewrite E by lia. now apply H. Qed.
Theorem C130_right_tables_pass_the_test : forall T M, (M <= 10)%nat ->
  mass_exact T (M + 1) (2 / 10) (9 / 10) -> J_exact T (M + 1) (2 / 10) (9 / 10) -> L_exact T (M + 1) (2 / 10) (9 / 10) ->
  matrix_test Sphere T M = Ok tt.
Proof.
  intros T M HM EM EJ EL. unfold matrix_test, make_all_tested. assert (H : 2 / 10 < 9 / 10) by lra.
  rewrite L_passes by auto. cbn [check bind].
  destruct (G_built M _ _ (9 / 10) (12 / 10) H HM) as (G & EG & V). rewrite EG. cbn [bind]. rewrite (G_passes M _ _ _ _ G) by auto. cbn [check bind].
  rewrite mass_passes, J_passes by auto. cbn [check bind]. destruct (P_built M (2 / 10) (9 / 10) (9 / 10) (12 / 10) HM) as (P & EP & VP). rewrite EP. cbn [bind].
  destruct (Nat.eqb_spec M 3) as [->|]; [|reflexivity]. cbn [m_L m_J m_Mass m_G m_MPRIME].
  rewrite (value_agrees 4 L_bench _ _ ltac:(lia) L_near) by (intros; apply (L_value T 4); auto). cbn [check bind].
  rewrite (value_agrees 4 J_bench _ _ ltac:(lia) J_near) by (intros; apply (J_value T 4); auto). cbn [check bind].
  rewrite (value_agrees 4 Mass_bench _ _ ltac:(lia) Mass_near) by (intros; apply (mass_value T 4); auto). cbn [check bind].
  rewrite (value_agrees 4 G_bench _ _ ltac:(lia) G_near) by (intros; apply V; lia). cbn [check bind].
  rewrite (value_agrees 4 MPRIME_bench _ _ ltac:(lia) MPRIME_near) by (intros; apply VP; lia). reflexivity.
Qed.
Print Assumptions C130_right_tables_pass_the_test.
Example C130_right_example : exists T, forall M, (M <= 10)%nat -> matrix_test Sphere T M = Ok tt.
Proof.
  exists ideal. intros M HM. apply C130_right_tables_pass_the_test; auto; [apply ideal_mass|apply ideal_J|apply ideal_L]; lra.
Qed.

(* ------------------------------------------------------------------ C130: what passing means *)
Lemma near_near x y z : near x y -> near x z -> Rabs (y - z) < 2 / 10 ^ 5.
Proof.
  unfold near. intros H1 H2. replace (y - z) with ((x - z) - (x - y)) by ring.
  eapply Rle_lt_trans; [apply Rabs_triang|]. rewrite Rabs_Ropp. lra.
Qed.
(** at order 3 the twelve rows that come from files are right to 2e-5 in the cell of the test *)
Theorem C130_passing_at_order_three : forall T, matrix_test Sphere T 3 = Ok tt ->
  forall i j v, (i < 4)%nat -> (j < 4)%nat ->
  (is_RInt (fun x => x ^ 2 * basis Sphere i x (2 / 10) (9 / 10) * basis Sphere j x (2 / 10) (9 / 10)) (2 / 10) (9 / 10) v ->
     Rabs (make_mass_sphere T (2 / 10) (9 / 10) i j - v) < 2 / 10 ^ 5) /\
  (is_RInt (fun x => x * basis Sphere i x (2 / 10) (9 / 10) * basis Sphere j x (2 / 10) (9 / 10)) (2 / 10) (9 / 10) v ->
     Rabs (make_J_sphere T (2 / 10) (9 / 10) i j - v) < 2 / 10 ^ 5) /\
  (is_RInt (fun x => x ^ 2 * Derive (fun y => basis Sphere i y (2 / 10) (9 / 10)) x * basis Sphere j x (2 / 10) (9 / 10)) (2 / 10) (9 / 10) v ->
     Rabs (make_L_sphere T (2 / 10) (9 / 10) i j - v) < 2 / 10 ^ 5).
Proof.
  intros T HT i j v Hi Hj. assert (H : 2 / 10 < 9 / 10) by lra.
  unfold matrix_test, make_all_tested in HT. unfold check in HT.
  destruct (check_L _ _ _ _); cbn [bind] in HT; [|discriminate]. destruct (make_G_sphere _ _ _ _ _) as [G|]; cbn [bind] in HT; [|discriminate].
  destruct (check_G _ _ _ _ _ _); cbn [bind] in HT; [|discriminate]. destruct (check_mass _ _ _ _); cbn [bind] in HT; [|discriminate].
  destruct (check_J _ _ _ _); cbn [bind] in HT; [|discriminate]. destruct (make_MPRIME _ _ _ _ _) as [P|]; cbn [bind] in HT; [|discriminate].
  cbn [Nat.eqb m_L m_J m_Mass m_G m_MPRIME] in HT.
  destruct (agrees L_bench _) eqn:AL; cbn [bind] in HT; [|discriminate]. destruct (agrees J_bench _) eqn:AJ; cbn [bind] in HT; [|discriminate].
  destruct (agrees Mass_bench _) eqn:AM; cbn [bind] in HT; [|discriminate]. clear HT.
  rewrite agrees_iff in AL, AJ, AM. split; [|split]; intros I.
  - rewrite (int_uniq2 _ _ _ _ _ I (mass_is i j _ _ H)). eapply near_near; [apply AM; auto|now apply Mass_near].
  - rewrite (int_uniq2 _ _ _ _ _ I (J_is i j _ _ H)). eapply near_near; [apply AJ; auto|now apply J_near].
  - rewrite (int_uniq2 _ _ _ _ _ I (L_is i j _ _ H)). eapply near_near; [apply AL; auto|now apply L_near].
Qed.
Print Assumptions C130_passing_at_order_three.

(* ------------------------------------------------------------------ C130: what passes although it is wrong *)
(** mass tables filled with zeros, everything else right *)
Definition massless : tables := {|
  Mass_coeff_even := fun _ _ _ => 0; Mass_coeff_odd := fun _ _ _ => 0; Mass_denom := fun _ _ => 1%Z;
  J_coeff := J_coeff ideal; J_denom := J_denom ideal;
  L_coeff_even := L_coeff_even ideal; L_coeff_odd := L_coeff_odd ideal; L_denom := L_denom ideal |}.
Lemma massless_zero a b i j : make_mass_sphere massless a b i j = 0.
Proof. unfold make_mass_sphere, massless. cbn [Mass_coeff_even Mass_coeff_odd Mass_denom]. destruct (_ || _); unfold Rdiv; ring. Qed.
Lemma massless_passes M a b : (M <= 1)%nat -> 0 <= a -> a < b -> check_mass M (make_mass_sphere massless a b) a b = true.
Proof.
  intros HM Ha Hab. pose proof PI_RGT_0 as P. pose proof (sqrt_lt_R0 2 ltac:(lra)) as S2. pose proof tol_pos as TP.
  assert (NA : forall y, 0 <= y -> not_above 0 y = true) by (intros y Hy; unfold not_above; apply Rleb_true; lra).
  unfold check_mass. cbv zeta. rewrite !massless_zero. rewrite !andb_true_iff. split; [split|].
  - apply NA. repeat (apply Rdiv_le_0_compat; [|lra]). nra.
  - apply when_intro. intros _. rewrite !andb_true_iff. split; [split|]; apply NA; repeat (apply Rdiv_le_0_compat; [|lra]); nra.
  - replace (1 <? M)%nat with false; [reflexivity|]. symmetry. apply Nat.ltb_ge. lia.
Qed.
Theorem C130_mass_checks_one_sided_refuted : exists T, (forall a b i j, make_mass_sphere T a b i j = 0) /\
  forall M, (M <= 1)%nat -> matrix_test Sphere T M = Ok tt /\
  forall a b ap bp, 0 <= a -> a < b -> exists m, make_all_tested Sphere T M a b ap bp = Ok m.
Proof.
  exists massless. split; [apply massless_zero|]. intros M HM.
  assert (K : forall a b ap bp, 0 <= a -> a < b -> exists m, make_all_tested Sphere massless M a b ap bp = Ok m).
  { intros a b ap bp Ha Hab. unfold make_all_tested.
    assert (EL : L_exact massless (M + 1) a b) by (exact (ideal_L (M + 1) a b Hab)).
    assert (EJ : J_exact massless (M + 1) a b) by (exact (ideal_J (M + 1) a b Hab)).
    rewrite L_passes by auto. cbn [check bind].
    assert (HM' : (M <= 10)%nat) by lia.
    destruct (G_built M a b ap bp Hab HM') as (G & EG & V). rewrite EG. cbn [bind]. rewrite (G_passes M a b ap bp G) by auto. cbn [check bind].
    rewrite massless_passes, J_passes by auto. cbn [check bind]. destruct (P_built M a b ap bp HM') as (P & EP & _). rewrite EP. cbn [bind].
    eexists. reflexivity. }
  split; [|exact K]. unfold matrix_test. destruct (K (2 / 10) (9 / 10) (9 / 10) (12 / 10)) as (m & ->); [lra|lra|]. cbn [bind].
  replace (M =? 3)%nat with false; [reflexivity|]. symmetry. apply Nat.eqb_neq. lia.
Qed.
Print Assumptions C130_mass_checks_one_sided_refuted.

(** a mass table that is right in the cell of the test only *)
Definition bent : tables := {|
  Mass_coeff_even := fun i j q => Mass_coeff_even ideal i j q +
    (if ((i =? 0) && (j =? 0))%nat then match q with 0%nat => 18 | 1%nat => -4 | _ => 0 end else 0);
  Mass_coeff_odd := Mass_coeff_odd ideal; Mass_denom := Mass_denom ideal;
  J_coeff := J_coeff ideal; J_denom := J_denom ideal;
  L_coeff_even := L_coeff_even ideal; L_coeff_odd := L_coeff_odd ideal; L_denom := L_denom ideal |}.
Lemma bent_mass a b i j : make_mass_sphere bent a b i j =
  make_mass_sphere ideal a b i j + (if ((i =? 0) && (j =? 0))%nat then (18 * a ^ 2 - 4 * (a * b)) / PI else 0).
Proof.
  unfold make_mass_sphere, bent. cbn [Mass_coeff_even Mass_coeff_odd Mass_denom ideal]. rewrite par2.
  destruct (Nat.eqb_spec i 0) as [->|Ni].
  - destruct (Nat.eqb_spec j 0) as [->|Nj]; cbn [andb orb Nat.even Nat.add].
    + cbn [sqrt_two_mass_func Nat.eqb andb orb]. change (sqrt_two_mass_func 0 0) with 1. unfold Rdiv. field. apply PI_neq0.
    + destruct (Nat.even j); cbn [orb]; unfold Rdiv; ring.
  - cbn [andb]. destruct (Nat.even (i + j)); cbn [orb]; unfold Rdiv; ring.
Qed.
Theorem C130_tests_one_cell_refuted : exists T, (forall M, (M <= 10)%nat -> matrix_test Sphere T M = Ok tt) /\ ~ mass_exact T 1 1 2.
Proof.
  exists bent. split.
  - intros M HM. assert (H : 2 / 10 < 9 / 10) by lra. apply C130_right_tables_pass_the_test; auto.
    + intros i j Hi Hj. rewrite bent_mass. replace (18 * (2 / 10) ^ 2 - 4 * (2 / 10 * (9 / 10))) with 0 by field.
      replace (if ((i =? 0) && (j =? 0))%nat then 0 / PI else 0) with 0 by (destruct (_ && _); unfold Rdiv; ring).
      rewrite Rplus_0_r. now apply (ideal_mass (M + 1)).
    + exact (ideal_J (M + 1) _ _ H).
    + exact (ideal_L (M + 1) _ _ H).
  - intros E. assert (H : 1 < 2) by lra. pose proof (mass_value _ 1 0 0 1 2 H ltac:(lia) ltac:(lia) E) as V1.
    pose proof (mass_value _ 1 0 0 1 2 H ltac:(lia) ltac:(lia) (ideal_mass 1 1 2 H)) as V2.
    rewrite bent_mass, V2 in V1. cbn [Nat.eqb andb] in V1.
    assert (Z : (18 * 1 ^ 2 - 4 * (1 * 2)) / PI = 0) by lra. revert Z. pose proof PI_RGT_0. apply Rgt_not_eq. apply Rdiv_lt_0_compat; lra.
Qed.
Print Assumptions C130_tests_one_cell_refuted.

(** of the motion matrix only the first four entries are compared by the checks inside make_G_sphere *)
Theorem C130_motion_check_sees_four_entries : forall M A B a b ap bp, (1 <= M)%nat ->
  (forall i j, (i <= 1)%nat -> (j <= 1)%nat -> A i j = B i j) -> check_G M A a b ap bp = check_G 1 B a b ap bp.
Proof.
  intros M A B a b ap bp HM E. unfold check_G. replace (0 <? M)%nat with true by (symmetry; apply Nat.ltb_lt; lia). cbn [Nat.ltb Nat.leb].
  rewrite !E by lia. reflexivity.
Qed.
Print Assumptions C130_motion_check_sees_four_entries.
Example C130_motion_example : check_G 2 (fun i j => if (i =? 2)%nat then 7 else Gform i j 0 1 0 1 / PI) 0 1 0 1 = true.
Proof.
  assert (H : 0 < 1) by lra. assert (H1 : (1 <= 10)%nat) by lia. destruct (G_built 1 0 1 0 1 H H1) as (G & EG & V).
  rewrite (C130_motion_check_sees_four_entries 2 _ G); [now apply (G_passes 1 0 1 0 1 G)|lia|].
  intros i j Hi Hj. replace (i =? 2)%nat with false by (symmetry; apply Nat.eqb_neq; lia). symmetry. apply V; lia.
Qed.

(* ------------------------------------------------------------------ C130: the slab *)
Theorem C130_slab_test : forall T M, matrix_test Slab T M = if (M =? 3)%nat then Err AssertionError else Ok tt.
Proof.
  intros T M. unfold matrix_test, make_all_tested. cbn [bind m_L]. destruct (M =? 3)%nat; [|reflexivity].
  destruct (agrees L_bench (L_slab (2 / 10) (9 / 10))) eqn:A; [|reflexivity]. exfalso. rewrite agrees_iff in A.
  specialize (A 1%nat 0%nat ltac:(lia) ltac:(lia)). unfold near, L_bench, bench in A. cbn [nth] in A.
  unfold L_slab, L_const in A. cbn [Nat.ltb Nat.leb Nat.add Nat.modulo Nat.divmod Nat.eqb negb andb fst snd Nat.sub] in A.
  replace (2 * INR 0 + 1) with 1 in A by (simpl; ring). rewrite sqrt_1 in A.
  assert (1 <= sqrt (2 * INR 1 + 1)) by (rewrite <- sqrt_1 at 1; apply sqrt_le_1_alt; simpl; lra).
  apply Rabs_def2 in A. destruct A as [_ A]. lra.
Qed.
Print Assumptions C130_slab_test.
Example C130_slab_example : matrix_test Slab ideal 3 = Err AssertionError /\ matrix_test Slab massless 2 = Ok tt.
Proof. split; apply C130_slab_test. Qed.
