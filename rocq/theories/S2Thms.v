(** Theorems about the sources with two directions that no run calls, their test, and the names of the problems: C163-C167. *)
From Coq Require Import String.
From Coquelicot Require Import Coquelicot.
From Verif Require Import Py PyLemmas Calc Legendre Cheb DGModel DGProofs FuncModel SourceModel SourceProofs SourceMore SourceGauss SourceThms RmsModel BenchModel TestModel S2Model.
Local Open Scope R_scope.
Local Open Scope list_scope.

(* ---------------------------------------------------------------- C163 *)
Lemma heaviside_1 z s : 0 < s -> heaviside (z / s) 1 = ind (Rleb 0 z).
Proof.
  intro Hs. unfold heaviside. assert (Hi : 0 < / s) by now apply Rinv_0_lt_compat.
  destruct (Rltb_spec (z / s) 0) as [A|A].
  - rewrite Rleb_false; [reflexivity|]. apply Rmult_lt_reg_r with (/ s); [auto|]. unfold Rdiv in A. lra.
  - rewrite Rleb_true; [unfold Reqb; destruct (Req_EM_T _ _); reflexivity|]. apply Rmult_le_reg_r with (/ s); [auto|]. unfold Rdiv in A. lra.
Qed.
Lemma int_window_open (F f : R -> R) lo hi T : 0 <= T -> lo <= hi -> (forall z, is_derive F z (f z)) -> (forall z, continuous f z) ->
  is_RInt (fun tau => f tau * (ind (Rleb tau hi) - ind (Rleb tau lo))) 0 T (F (clip T hi) - F (clip T lo)).
Proof.
  intros HT Hlh HD HC. pose proof (clip_range T lo HT). pose proof (clip_range T hi HT). pose proof (clip_mono T _ _ Hlh).
  replace (F (clip T hi) - F (clip T lo)) with (0 + (F (clip T hi) - F (clip T lo)) + 0) by ring.
  apply (int_chasles _ 0 (clip T hi) T); [apply (int_chasles _ 0 (clip T lo) (clip T hi))|].
  - apply (int_ext_open (fun _ => 0)); [lra| |].
    + intros x Hx. destruct (clip_case T lo HT) as [[? E1]|[[? E1]|[? E1]]]; destruct (clip_case T hi HT) as [[? E2]|[[? E2]|[? E2]]]; rewrite ?E1, ?E2 in Hx; unfold ind; (rewrite !Rleb_true; [simpl; ring|lra|lra]).
    + eapply int_eq; [apply int_const|ring].
  - apply (int_ext_open f); [lra| |].
    + intros x Hx. destruct (clip_case T lo HT) as [[? E1]|[[? E1]|[? E1]]]; destruct (clip_case T hi HT) as [[? E2]|[[? E2]|[? E2]]]; rewrite ?E1, ?E2 in Hx; unfold ind; (rewrite (Rleb_true x hi), (Rleb_false x lo); [simpl; ring|lra|lra]).
    + apply int_ftc_on; auto.
  - apply (int_ext_open (fun _ => 0)); [lra| |].
    + intros x Hx. destruct (clip_case T lo HT) as [[? E1]|[[? E1]|[? E1]]]; destruct (clip_case T hi HT) as [[? E2]|[[? E2]|[? E2]]]; rewrite ?E1, ?E2 in Hx; unfold ind; (rewrite !Rleb_false; [simpl; ring|lra|lra]).
    + eapply int_eq; [apply int_const|ring].
Qed.
Lemma s2_arg u v : Rleb 0 (3 * u + sqrt 3 * v) = Rleb 0 (sqrt 3 * u + v).
Proof.
  pose proof sqrt3_pos. replace (3 * u + sqrt 3 * v) with (sqrt 3 * (sqrt 3 * u + v)) by (rewrite Rmult_plus_distr_l, <- Rmult_assoc, sqrt3_sq; ring).
  destruct (Rleb_spec 0 (sqrt 3 * u + v)) as [A|A]; [apply Rleb_true, Rmult_le_pos; lra|apply Rleb_false].
  replace 0 with (sqrt 3 * 0) by ring. apply Rmult_lt_compat_l; lra.
Qed.
Lemma integrand_windows tau x t x0 t0 : tau < t -> su_olson_s2_integrand tau x t x0 t0 =
  1 / 2 * exp (- (t - tau)) * (ind (Rleb tau (t - sqrt 3 * (x - x0))) - ind (Rleb tau (t - sqrt 3 * (x + x0))))
  + 1 / 2 * exp (- (t - tau)) * (ind (Rleb tau (t - sqrt 3 * (- x - x0))) - ind (Rleb tau (t - sqrt 3 * (- x + x0)))).
Proof.
  intro H. unfold su_olson_s2_integrand. rewrite !heaviside_1 by lra.
  assert (G : forall u w, 3 * u + sqrt 3 * (t - tau) = w -> ind (Rleb 0 w) = ind (Rleb tau (t - sqrt 3 * (- u)))).
  { intros u w E. rewrite <- E, s2_arg. f_equal. destruct (Rleb_spec tau (t - sqrt 3 * - u)) as [A|A]; [apply Rleb_true|apply Rleb_false]; lra. }
  rewrite (G (- x - x0)), (G (x - x0)), (G (- x + x0)), (G (x + x0)) by ring.
  replace (- (t - tau)) with (- t + tau) by ring.
  replace (- (- x - x0)) with (x + x0) by ring. replace (- (x - x0)) with (- x + x0) by ring. replace (- (- x + x0)) with (x - x0) by ring. replace (- (x + x0)) with (- x - x0) by ring.
  field.
Qed.
Lemma integrand_integral x t x0 t0 : 0 <= x0 -> 0 <= t -> 0 <= t0 -> is_RInt (fun tau => su_olson_s2_integrand tau x t x0 t0) 0 (Rmin t t0) (s2_exact x t x0 t0).
Proof.
  intros Hx Ht Ht0. pose proof sqrt3_pos. assert (HT : 0 <= Rmin t t0) by (now apply Rmin_glb).
  assert (C : forall z, continuous (fun tau => 1 / 2 * exp (- (t - tau))) z).
  { intro z. apply (ex_derive_continuous (fun tau => 1 / 2 * exp (- (t - tau)))). auto_derive. auto. }
  eapply int_ext_open; [auto| |unfold s2_exact; cbv zeta; apply int_plus; apply (int_window_open (s2_F t) (fun tau => 1 / 2 * exp (- (t - tau)))); auto; try (intro; apply s2_F_derive); nra].
  intros tau Htau. symmetry. apply integrand_windows. pose proof (Rmin_l t t0). lra.
Qed.
(** the integrand of the test has the integral of the two beams *)
Theorem C163_reference_integral : forall x t x0 t0 v, 0 <= x0 -> 0 <= t -> 0 <= t0 ->
  is_RInt (fun tau => su_olson_s2_integrand tau x t x0 t0) 0 (Rmin t t0) v <-> is_RInt (two_beams x t x0) 0 (Rmin t t0) v.
Proof.
  intros x t x0 t0 v H0 Ht H1. pose proof (integrand_integral x t x0 t0 H0 Ht H1) as A. pose proof (s2_integral x t x0 t0 H0 Ht H1) as B. split; intro K.
  - rewrite (int_uniq2 _ _ _ _ _ K A). exact B.
  - rewrite (int_uniq2 _ _ _ _ _ K B). exact A.
Qed.
Print Assumptions C163_reference_integral.
Definition quad_ok (quad : (R -> R) -> R -> R -> R) : Prop := forall f a b v, is_RInt f a b v -> quad f a b = v.
Example quad_contract_holds : quad_ok (fun f a b => RInt f a b).
Proof. intros f a b v H. now apply is_RInt_unique. Qed.
Lemma samples x n : In x (linspace 50 60 n) -> (2 <= n)%nat -> 50 <= x <= 60.
Proof.
  unfold linspace. intros H Hn. apply in_map_iff in H. destruct H as (i & <- & Hi). apply in_seq in Hi.
  assert (P : 0 < INR (n - 1)) by (apply lt_0_INR; lia). assert (L : INR i <= INR (n - 1)) by (apply le_INR; lia). pose proof (pos_INR i).
  assert (E : INR i * ((60 - 50) / INR (n - 1)) = 10 * (INR i / INR (n - 1))) by (field; lra). rewrite E.
  assert (0 <= INR i / INR (n - 1) <= 1); [|lra]. split; [apply Rmult_le_pos; [lra|apply Rlt_le, Rinv_0_lt_compat; lra]|].
  apply Rmult_le_reg_r with (INR (n - 1)); auto. unfold Rdiv. rewrite Rmult_assoc, Rinv_l; lra.
Qed.
Lemma sample_value x t t0 : 0 <= t -> 0 <= t0 -> 50 <= x -> uncollided_su_olson_s2 x t (1 / 2) t0 = Some (s2_exact x t (1 / 2) t0).
Proof.
  intros Ht H0 Hx. rewrite s2_closed by lra. f_equal. unfold s2_excess. destruct (Rltb_spec t0 t) as [A|A]; [|cbn [andb]; ring].
  rewrite Rltb_false; [cbn [andb]; ring|]. rewrite Rabs_pos_eq by lra. pose proof sqrt3_pos.
  assert (0 <= (t - t0) / sqrt 3) by (apply Rmult_le_pos; [lra|apply Rlt_le, Rinv_0_lt_compat; auto]). lra.
Qed.
Lemma map_result_ok {A B} (f : A -> result B) (g : A -> B) l : (forall x, In x l -> f x = Ok (g x)) -> map_result f l = Ok (map g l).
Proof. induction l as [|x l IH]; intro H; [reflexivity|]. cbn. rewrite (H x) by (now left). cbn. rewrite IH by (intros; apply H; now right). reflexivity. Qed.
Lemma vsub_map {A} (f g : A -> R) l : vsub (map f l) (map g l) = Ok (map (fun x => f x - g x) l).
Proof.
  unfold vsub, vop. rewrite !map_length, Nat.eqb_refl. f_equal. induction l as [|x l IH]; [reflexivity|]. cbn. now rewrite IH.
Qed.
(** the test of the closed form prints zero whatever the times: its sample points are far from where the closed form is wrong *)
Theorem C163_test_prints_zero : forall quad t t0, quad_ok quad -> 0 <= t -> 0 <= t0 -> test_s2_sol quad t t0 = Ok 0.
Proof.
  intros quad t t0 HQ Ht H0. unfold test_s2_sol. cbv zeta.
  rewrite (map_result_ok _ (fun x => s2_exact x t (1 / 2) t0)).
  2:{ intros x Hx. apply samples in Hx; [|lia]. rewrite sample_value by lra. reflexivity. }
  cbn [bind]. rewrite vsub_map. cbn [bind]. f_equal.
  assert (E : mean (map (fun x => quad (fun tau => su_olson_s2_integrand tau x t (1 / 2) t0) 0 (Rmin t t0) - s2_exact x t (1 / 2) t0) (linspace 50 60 500)) = 0).
  { unfold mean. replace (rsum _) with 0; [unfold Rdiv; ring|]. symmetry. induction (linspace 50 60 500) as [|x l IH]; [reflexivity|].
    cbn [map rsum fold_right]. unfold rsum in IH. rewrite IH. rewrite (HQ _ _ _ (s2_exact x t (1 / 2) t0)) by (apply integrand_integral; lra). ring. }
  rewrite E. replace (0 ^ 2) with 0 by ring. apply sqrt_0.
Qed.
Print Assumptions C163_test_prints_zero.
(** before t = 49.5 sqrt 3, in particular at the default t = 10, nothing has reached the sample points: zeros are compared with zeros *)
Theorem C163_test_compares_zeros : forall x t t0, In x (linspace 50 60 500) -> 0 <= t <= sqrt 3 * (99 / 2) -> 0 <= t0 ->
  uncollided_su_olson_s2 x t (1 / 2) t0 = Some 0 /\ is_RInt (two_beams x t (1 / 2)) 0 (Rmin t t0) 0.
Proof.
  intros x t t0 Hx Ht H0. apply samples in Hx; [|lia]. assert (E : s2_exact x t (1 / 2) t0 = 0).
  { pose proof sqrt3_pos. assert (HT : 0 <= Rmin t t0) by (apply Rmin_glb; lra). unfold s2_exact. cbv zeta.
    assert (L : Rmin t t0 <= t) by apply Rmin_l.
    rewrite (clip_lo _ (t - sqrt 3 * (x - 1 / 2))) by (auto; nra). rewrite (clip_lo _ (t - sqrt 3 * (x + 1 / 2))) by (auto; nra).
    rewrite (clip_hi _ (t - sqrt 3 * (- x - 1 / 2))) by (auto; nra). rewrite (clip_hi _ (t - sqrt 3 * (- x + 1 / 2))) by (auto; nra). ring. }
  split; [rewrite sample_value by lra; now rewrite E|]. eapply int_eq; [apply (s2_integral x t (1 / 2) t0); lra|exact E].
Qed.
Print Assumptions C163_test_compares_zeros.
Example C163_example : test_s2_sol (fun f a b => RInt f a b) 10 10 = Ok 0 /\ (exists x, In x (linspace 50 60 500)) /\ 10 <= sqrt 3 * (99 / 2).
Proof.
  split; [apply C163_test_prints_zero; try lra; apply quad_contract_holds|]. split; [|pose proof sqrt3_bounds; lra].
  exists (nth 0 (linspace 50 60 500) 0). apply nth_In. unfold linspace. rewrite map_length, seq_length. lia.
Qed.
(** what is printed is the size of the mean difference: never more than the root mean square *)
Theorem C163_printed_at_most_rms : forall a b r d, vsub a b = Ok d -> rms a b = Ok r -> sqrt (mean d ^ 2) = Rabs (mean d) /\ sqrt (mean d ^ 2) <= r.
Proof.
  intros a b r d Hd Hr. split; [rewrite <- Rsqr_pow2; apply sqrt_Rsqr_abs|]. unfold rms in Hr. rewrite Hd in Hr. cbn [bind] in Hr.
  destruct d as [|y d]; [discriminate|]. injection Hr as <-. apply sqrt_le_1_alt. unfold mean.
  assert (P : 0 < INR (length (y :: d))) by (apply lt_0_INR; cbn; lia).
  assert (K : forall l : list R, rsum l ^ 2 <= INR (length l) * rsum (map (fun x => x ^ 2) l)).
  { induction l as [|z l IH]; [cbn; lra|]. cbn [map length].
    change (rsum (z :: l)) with (z + rsum l). change (rsum (z ^ 2 :: map (fun x => x ^ 2) l)) with (z ^ 2 + rsum (map (fun x => x ^ 2) l)). rewrite S_INR.
    pose proof (pos_INR (length l)) as Pl. destruct (Req_dec (INR (length l)) 0) as [Z|Z].
    - assert (length l = 0%nat) by (apply INR_eq; simpl; lra). destruct l; [|discriminate]. cbn. nra.
    - set (n := INR (length l)) in *. set (s := rsum l) in *. set (q := rsum (map (fun x => x ^ 2) l)) in *. assert (N : 0 < n) by lra.
      assert (G : 2 * s * z <= n * z ^ 2 + q); [|replace ((z + s) ^ 2) with (z ^ 2 + 2 * s * z + s ^ 2) by ring; lra].
      apply Rmult_le_reg_l with n; auto. assert (0 <= (n * z - s) ^ 2) by apply pow2_ge_0. nra. }
  specialize (K (y :: d)). set (n := INR (length (y :: d))) in *.
  set (q := rsum (map (fun x => x ^ 2) (y :: d))) in *. assert (I : 0 < / n) by now apply Rinv_0_lt_compat.
  change ((rsum (y :: d) / n) ^ 2 <= q / n). replace ((rsum (y :: d) / n) ^ 2) with (rsum (y :: d) ^ 2 * / n * / n) by (field; lra). replace (q / n) with (n * q * / n * / n) by (field; lra).
  apply Rmult_le_compat_r; [apply Rlt_le; exact I|]. apply Rmult_le_compat_r; [apply Rlt_le; exact I|exact K].
Qed.
Print Assumptions C163_printed_at_most_rms.
Theorem C163_printed_is_rms_refuted : exists a b d r, vsub a b = Ok d /\ rms a b = Ok r /\ sqrt (mean d ^ 2) = 0 /\ r = 1.
Proof.
  exists [1; -1], [0; 0], [1 - 0; -1 - 0], 1. repeat split.
  - unfold rms, vsub, vop. cbn. f_equal. replace (_ / _) with 1 by field. apply sqrt_1.
  - unfold mean. cbn. replace (_ * _) with 0 by field. apply sqrt_0.
Qed.
Print Assumptions C163_printed_is_rms_refuted.

(* ---------------------------------------------------------------- C164 *)
Lemma s2_2_value x t x0 t0 : 0 <= x0 -> 0 <= t0 -> t0 < t ->
  uncollided_su_olson_s2_2 x t x0 t0 = Some (s2_exact x t x0 t0 + 1 / 2 * exp (- t) * (exp (Rmin (Rmax 0 (t - sqrt 3 * (Rabs x + x0))) t0) - 1)).
Proof.
  intros Hx Ht0 L. rewrite <- s2_abs. unfold uncollided_su_olson_s2_2, s2_exact. cbv zeta. pose proof (Rabs_pos x) as Ha. rewrite Rabs_Rabsolu. generalize dependent (Rabs x). intros a Ha.
  pose proof sqrt3_pos as P3. pose proof sqrt3_sq as S3.
  assert (E3 : forall u, u * 3 / sqrt 3 = sqrt 3 * u) by (intro u; replace (u * 3 / sqrt 3) with (u * (3 / sqrt 3)) by (unfold Rdiv; ring); rewrite three_over; ring).
  rewrite !E3. unfold Rgtb. rewrite (Rltb_true t0 t) by lra. rewrite Rmin_right by lra.
  assert (Q : forall u v, u <= v <-> sqrt 3 * u <= sqrt 3 * v) by (intros u v; split; intro K; [apply Rmult_le_compat_l; lra|apply Rmult_le_reg_l with (sqrt 3); auto]).
  assert (Q3 : sqrt 3 * (sqrt 3 * (t - t0) / 3) = t - t0) by (replace (sqrt 3 * (sqrt 3 * (t - t0) / 3)) with ((sqrt 3 * sqrt 3) * (t - t0) / 3) by field; rewrite S3; field).
  replace (t - sqrt 3 * (a - x0)) with (t - (sqrt 3 * a - sqrt 3 * x0)) by ring. replace (t - sqrt 3 * (a + x0)) with (t - (sqrt 3 * a + sqrt 3 * x0)) by ring.
  replace (t - sqrt 3 * (- a - x0)) with (t + sqrt 3 * a + sqrt 3 * x0) by ring. replace (t - sqrt 3 * (- a + x0)) with (t + sqrt 3 * a - sqrt 3 * x0) by ring.
  replace (t - sqrt 3 * (x0 - a)) with (t + sqrt 3 * a - sqrt 3 * x0) by ring.
  assert (Pa : 0 <= sqrt 3 * a) by (apply Rmult_le_pos; lra). assert (Px : 0 <= sqrt 3 * x0) by (apply Rmult_le_pos; lra).
  rewrite (clip_hi t0 (t + sqrt 3 * a + sqrt 3 * x0)) by lra.
  rewrite (clip_alt t0 (t - (sqrt 3 * a + sqrt 3 * x0))), (Rmax_comm (t - (sqrt 3 * a + sqrt 3 * x0)) 0) by lra. set (m := Rmin (Rmax 0 (t - (sqrt 3 * a + sqrt 3 * x0))) t0).
  assert (Em : s2_F t m - s2_F t 0 = 1 / 2 * exp (- t) * (exp m - 1)) by (unfold s2_F; rewrite (exp_plus (- t) 0), (exp_plus (- t) m), exp_0; ring).
  rewrite <- Em. clear Em.
  assert (D0 : 0 < sqrt 3 * (t - t0) / 3) by (apply Rdiv_lt_0_compat; [apply Rmult_lt_0_compat|]; lra).
  destruct (Rleb_spec (x0 - sqrt 3 * (t - t0) / 3) a) as [A|A].
  - pose proof (proj1 (Q _ _) A) as A'. rewrite Rmult_minus_distr_l, Q3 in A'.
    rewrite (clip_hi t0 (t + sqrt 3 * a - sqrt 3 * x0)) by lra.
    destruct (Rleb_spec a (x0 + sqrt 3 * (t - t0) / 3)) as [B|B]; cbn [andb].
    + pose proof (proj1 (Q _ _) B) as B'. rewrite Rmult_plus_distr_l, Q3 in B'. rewrite (clip_hi t0 (t - (sqrt 3 * a - sqrt 3 * x0))) by lra. f_equal. ring.
    + rewrite (Rltb_false a) by lra. rewrite (Rltb_true _ a) by lra.
      assert (B' : sqrt 3 * x0 + (t - t0) < sqrt 3 * a) by (rewrite <- Q3, <- Rmult_plus_distr_l; apply Rmult_lt_compat_l; auto).
      rewrite (clip_max t0) by lra. rewrite (Rmax_comm _ 0). f_equal. ring.
  - cbn [andb]. rewrite (Rltb_true a) by lra.
    assert (A' : sqrt 3 * a < sqrt 3 * x0 - (t - t0)) by (rewrite <- Q3, <- Rmult_minus_distr_l; apply Rmult_lt_compat_l; auto).
    rewrite (clip_hi t0 (t - (sqrt 3 * a - sqrt 3 * x0))) by lra.
    destruct (Rleb_spec (t + sqrt 3 * a - sqrt 3 * x0) 0) as [B|B].
    + rewrite !(clip_lo t0) by lra. f_equal. ring.
    + rewrite (Rltb_true 0), (Rltb_true _ t0) by lra. cbn [andb]. rewrite (clip_mid t0 (t + _ - _)) by lra. f_equal. ring.
Qed.
(** after the source has been switched off the first version is too large by the part of the nearer beam emitted before the window opens *)
Theorem C164_first_version_after_the_source : forall x t x0 t0, 0 <= x0 -> 0 <= t0 -> t0 < t ->
  exists v I, uncollided_su_olson_s2_2 x t x0 t0 = Some v /\ is_RInt (two_beams x t x0) 0 t0 I /\
    v = I + 1 / 2 * exp (- t) * (exp (Rmin (Rmax 0 (t - sqrt 3 * (Rabs x + x0))) t0) - 1).
Proof.
  intros x t x0 t0 H0 H1 L. do 2 eexists. split; [now apply s2_2_value|]. split; [|reflexivity].
  pose proof (s2_integral x t x0 t0 H0 ltac:(lra) H1) as K. rewrite Rmin_right in K by lra. exact K.
Qed.
Print Assumptions C164_first_version_after_the_source.
Theorem C164_exact_after_the_source : forall x t x0 t0, 0 <= x0 -> 0 < t0 -> t0 < t ->
  (exists v, uncollided_su_olson_s2_2 x t x0 t0 = Some v /\ is_RInt (two_beams x t x0) 0 t0 v) <-> t <= sqrt 3 * (Rabs x + x0).
Proof.
  intros x t x0 t0 H0 H1 L. destruct (C164_first_version_after_the_source x t x0 t0 H0 ltac:(lra) L) as (v & I & A & B & E). split.
  - intros (w & W & K). rewrite A in W. injection W as <-. rewrite (int_uniq2 _ _ _ _ _ K B) in E. destruct (Rle_lt_dec t (sqrt 3 * (Rabs x + x0))) as [D|D]; auto. exfalso.
    set (m := Rmin (Rmax 0 (t - sqrt 3 * (Rabs x + x0))) t0) in *. assert (M : 0 < m) by (apply Rmin_glb_lt; [rewrite Rmax_right by lra; lra|auto]).
    assert (1 < exp m) by (rewrite <- exp_0; now apply exp_increasing). pose proof (exp_pos (- t)). nra.
  - intro D. exists v. split; [exact A|]. rewrite Rmax_left in E by lra. rewrite Rmin_left in E by lra. rewrite exp_0 in E. replace v with I by lra. exact B.
Qed.
Print Assumptions C164_exact_after_the_source.
(** while the source is on it returns zero, which is right only where nothing has arrived *)
Theorem C164_zero_during_the_source : forall x t x0 t0, 0 < x0 -> 0 < t <= t0 -> uncollided_su_olson_s2_2 x t x0 t0 = Some 0 /\
  (is_RInt (two_beams x t x0) 0 (Rmin t t0) 0 <-> x0 + t / sqrt 3 <= Rabs x).
Proof.
  intros x t x0 t0 H0 Ht. split; [unfold uncollided_su_olson_s2_2, Rgtb; now rewrite Rltb_false by lra|].
  pose proof sqrt3_pos as P3. pose proof (s2_integral x t x0 t0 ltac:(lra) ltac:(lra) ltac:(lra)) as B. rewrite <- s2_abs in B.
  assert (K : is_RInt (two_beams x t x0) 0 (Rmin t t0) 0 <-> s2_exact (Rabs x) t x0 t0 = 0).
  { split; intro K; [eapply int_uniq2; [exact B|exact K]|]. eapply int_eq; [exact B|exact K]. }
  rewrite K. clear K B. set (a := Rabs x). assert (Ha : 0 <= a) by apply Rabs_pos. unfold s2_exact. cbv zeta. rewrite Rmin_left by lra.
  assert (D : x0 + t / sqrt 3 <= a <-> t <= sqrt 3 * (a - x0)).
  { split; intro K.
    - replace t with (sqrt 3 * (t / sqrt 3)) by (field; lra). apply Rmult_le_compat_l; lra.
    - assert (t / sqrt 3 <= a - x0); [|lra]. apply Rmult_le_reg_l with (sqrt 3); auto. replace (sqrt 3 * (t / sqrt 3)) with t by (field; lra). auto. }
  rewrite D. clear D. assert (I : forall u v, u < v -> s2_F t u < s2_F t v) by (intros u v K; unfold s2_F; assert (exp (- t + u) < exp (- t + v)) by (apply exp_increasing; lra); lra).
  rewrite (clip_hi t (t - sqrt 3 * (- a - x0))) by nra. assert (C2 : clip t (t - sqrt 3 * (- a + x0)) <= t) by (apply clip_range; lra).
  assert (C3 : s2_F t (clip t (t - sqrt 3 * (- a + x0))) <= s2_F t t) by (destruct C2 as [C2|C2]; [apply Rlt_le, I; auto|rewrite C2; lra]).
  split.
  - intro K. destruct (Rle_lt_dec t (sqrt 3 * (a - x0))) as [L|L]; auto. exfalso.
    assert (clip t (t - sqrt 3 * (a + x0)) < clip t (t - sqrt 3 * (a - x0))) as J.
    { assert (U : t - sqrt 3 * (a + x0) < t - sqrt 3 * (a - x0)) by nra. rewrite !clip_alt by lra.
      assert (0 < t - sqrt 3 * (a - x0)) by lra. assert (t - sqrt 3 * (a + x0) < t) by nra. unfold Rmin, Rmax. repeat destruct (Rle_dec _ _); lra. }
    apply I in J. lra.
  - intro L. rewrite !(clip_lo t) by nra. rewrite clip_hi by nra. ring.
Qed.
Print Assumptions C164_zero_during_the_source.
Theorem C164_first_version_exact_refuted : exists x t x0 t0, 0 < x0 /\ 0 < t0 /\ 0 < t /\
  (exists v, uncollided_su_olson_s2_2 x t x0 t0 = Some v /\ uncollided_su_olson_s2 x t x0 t0 <> Some v) /\
  (exists v I, uncollided_su_olson_s2_2 x t x0 t0 = Some v /\ is_RInt (two_beams x t x0) 0 (Rmin t t0) I /\ v <> I).
Proof.
  exists 0, 1, 1, 2. repeat split; try lra; pose proof sqrt3_bounds as B3; pose proof sqrt3_pos as P3.
  - exists 0. destruct (C164_zero_during_the_source 0 1 1 2 ltac:(lra) ltac:(lra)) as [A B]. split; [exact A|]. intro K.
    destruct (C39_s2_closed_form_exact 0 1 1 2 ltac:(lra) ltac:(lra) ltac:(lra) ltac:(lra)) as (v & V & I). rewrite V in K. injection K as ->. apply B in I. rewrite Rabs_R0 in I.
    assert (0 < 1 / sqrt 3) by (apply Rdiv_lt_0_compat; lra). lra.
  - exists 0, (s2_exact 0 1 1 2). destruct (C164_zero_during_the_source 0 1 1 2 ltac:(lra) ltac:(lra)) as [A B]. split; [exact A|]. split; [apply s2_integral; lra|]. intro K.
    pose proof (s2_integral 0 1 1 2 ltac:(lra) ltac:(lra) ltac:(lra)) as I. assert (I' : is_RInt (two_beams 0 1 1) 0 (Rmin 1 2) 0) by (eapply int_eq; [exact I|auto]). apply B in I'. rewrite Rabs_R0 in I'.
    assert (0 < 1 / sqrt 3) by (apply Rdiv_lt_0_compat; lra). lra.
Qed.
Print Assumptions C164_first_version_exact_refuted.
Example C164_example : exists v, uncollided_su_olson_s2_2 10 2 1 1 = Some v /\ is_RInt (two_beams 10 2 1) 0 1 v.
Proof. apply C164_exact_after_the_source; try lra. rewrite Rabs_pos_eq by lra. pose proof sqrt3_bounds. lra. Qed.

(* ---------------------------------------------------------------- C165 *)
(** the exponential of -y cut after the third power *)
Definition cut_exp (y : R) : R := 1 - y + y ^ 2 / 2 - y ^ 3 / 6.
Lemma cut_exp_mono (f df : R -> R) y : 0 <= y -> f 0 = 0 -> (forall z, is_derive f z (df z)) -> (forall z, 0 <= z -> 0 <= df z) -> 0 <= f y.
Proof.
  intros Hy F0 D P. destruct (MVT_gen f 0 y df) as (c & Hc & E).
  - intros x _. apply D.
  - intros x _. apply continuity_pt_filterlim. apply (ex_derive_continuous f). eexists. apply D.
  - rewrite Rmin_left, Rmax_right in Hc by lra. rewrite F0 in E. assert (0 <= df c * (y - 0)) by (apply Rmult_le_pos; [apply P; lra|lra]). lra.
Qed.
Lemma cut_exp_near y : 0 <= y -> 0 <= exp (- y) - cut_exp y <= y ^ 4 / 24.
Proof.
  assert (A1 : forall z, 0 <= z -> 0 <= 1 - exp (- z)).
  { intros z Hz. assert (exp (- z) <= exp 0) by (destruct Hz as [Hz|<-]; [apply Rlt_le, exp_increasing; lra|rewrite Ropp_0; lra]). rewrite exp_0 in *. lra. }
  assert (A2 : forall z, 0 <= z -> 0 <= exp (- z) - 1 + z).
  { intros z Hz. apply (cut_exp_mono (fun z => exp (- z) - 1 + z) (fun z => 1 - exp (- z))); auto; [rewrite Ropp_0, exp_0; ring|]. intro w. auto_derive; auto. ring. }
  assert (A3 : forall z, 0 <= z -> 0 <= 1 - z + z ^ 2 / 2 - exp (- z)).
  { intros z Hz. apply (cut_exp_mono (fun z => 1 - z + z ^ 2 / 2 - exp (- z)) (fun z => exp (- z) - 1 + z)); auto; [rewrite Ropp_0, exp_0; field|]. intro w. auto_derive; auto. field. }
  assert (A4 : forall z, 0 <= z -> 0 <= exp (- z) - cut_exp z).
  { intros z Hz. apply (cut_exp_mono (fun z => exp (- z) - cut_exp z) (fun z => 1 - z + z ^ 2 / 2 - exp (- z))); auto; [unfold cut_exp; rewrite Ropp_0, exp_0; field|]. intro w. unfold cut_exp. auto_derive; auto. field. }
  intro Hy. split; [now apply A4|]. assert (0 <= y ^ 4 / 24 - (exp (- y) - cut_exp y)); [|lra].
  apply (cut_exp_mono (fun z => z ^ 4 / 24 - (exp (- z) - cut_exp z)) (fun z => exp (- z) - cut_exp z)); auto; [unfold cut_exp; rewrite Ropp_0, exp_0; field|]. intro w. unfold cut_exp. auto_derive; auto. field.
Qed.
(** the integrand of C79 with the exponentials of the squares cut *)
Definition cut_rate (x t sigma tau : R) : R :=
  1 / 2 * exp (- (t - tau)) * (cut_exp (((x + (t - tau) / sqrt 3) / sigma) ^ 2) + cut_exp (((x - (t - tau) / sqrt 3) / sigma) ^ 2)).
Lemma cut_pair x s sigma : 0 < sigma -> cut_exp (((x + s / sqrt 3) / sigma) ^ 2) + cut_exp (((x - s / sqrt 3) / sigma) ^ 2) =
  2 - (2 * x ^ 2 + 2 * s ^ 2 / 3) / sigma ^ 2 + (2 * x ^ 4 + 4 * x ^ 2 * s ^ 2 + 2 * s ^ 4 / 9) / (2 * sigma ^ 4)
  - (2 * x ^ 6 + 10 * x ^ 4 * s ^ 2 + 10 / 3 * x ^ 2 * s ^ 4 + 2 / 27 * s ^ 6) / (6 * sigma ^ 6).
Proof.
  intro Hs. pose proof sqrt3_pos as P. pose proof sqrt3_sq as Q. unfold cut_exp.
  assert (Q2 : (s / sqrt 3) ^ 2 = s ^ 2 / 3) by (replace ((s / sqrt 3) ^ 2) with (s ^ 2 / (sqrt 3 * sqrt 3)) by (field; lra); rewrite Q; reflexivity).
  set (w := s / sqrt 3) in *.
  replace (((x + w) / sigma) ^ 2) with ((x ^ 2 + 2 * x * w + w ^ 2) / sigma ^ 2) by (field; lra).
  replace (((x - w) / sigma) ^ 2) with ((x ^ 2 - 2 * x * w + w ^ 2) / sigma ^ 2) by (field; lra).
  rewrite Q2. set (A := (x ^ 2 + s ^ 2 / 3)).
  replace (x ^ 2 + 2 * x * w + s ^ 2 / 3) with (A + 2 * x * w) by (unfold A; ring). replace (x ^ 2 - 2 * x * w + s ^ 2 / 3) with (A - 2 * x * w) by (unfold A; ring).
  transitivity (2 - 2 * A / sigma ^ 2 + (2 * A ^ 2 + 8 * x ^ 2 * w ^ 2) / (2 * sigma ^ 4) - (2 * A ^ 3 + 24 * A * x ^ 2 * w ^ 2) / (6 * sigma ^ 6)); [field; lra|].
  rewrite Q2. unfold A. field. lra.
Qed.
Lemma thick_derive x t sigma tau : 0 < sigma -> is_derive (fun T => uncollided_s2_gaussian_thick x t sigma T) tau (cut_rate x t sigma tau).
Proof.
  intro Hs. unfold cut_rate. rewrite cut_pair by auto. unfold uncollided_s2_gaussian_thick. auto_derive; auto.
  replace (- (t - tau)) with (tau - t) by ring. replace (exp (tau - t)) with (exp tau / exp t) by (unfold Rminus; rewrite exp_plus, exp_Ropp; reflexivity).
  pose proof (exp_pos t). field. lra.
Qed.
Lemma thick_zero x t sigma : uncollided_s2_gaussian_thick x t sigma 0 = 0.
Proof. unfold uncollided_s2_gaussian_thick. rewrite exp_0. unfold Rdiv. match goal with |- ?u * ?v = 0 => replace u with 0 by ring end. ring. Qed.
(** the formula is the integral over the whole duration t0 of the source with the cut exponentials *)
Theorem C165_formula_is_cut_integral : forall x t sigma t0, 0 < sigma -> is_RInt (cut_rate x t sigma) 0 t0 (uncollided_s2_gaussian_thick x t sigma t0).
Proof.
  intros x t sigma t0 Hs. eapply int_eq; [apply (int_ftc (fun T => uncollided_s2_gaussian_thick x t sigma T))|rewrite thick_zero; ring].
  - intro z. now apply thick_derive.
  - intro z. apply (ex_derive_continuous (cut_rate x t sigma)). unfold cut_rate, cut_exp. auto_derive. auto.
Qed.
Print Assumptions C165_formula_is_cut_integral.
Definition gauss_rate (x t sigma tau : R) : R :=
  1 / 2 * exp (- (t - tau)) * (exp (- ((x + (t - tau) / sqrt 3) / sigma) ^ 2) + exp (- ((x - (t - tau) / sqrt 3) / sigma) ^ 2)).
Lemma cut_gap x t sigma tau : 0 < sigma -> 0 <= tau <= t ->
  0 <= gauss_rate x t sigma tau - cut_rate x t sigma tau <= ((Rabs x + t / sqrt 3) / sigma) ^ 8 / 24 * exp (- (t - tau)).
Proof.
  intros Hs Ht. pose proof sqrt3_pos as P. unfold gauss_rate, cut_rate. set (r := (Rabs x + t / sqrt 3) / sigma).
  assert (I3 : 0 < / sqrt 3) by now apply Rinv_0_lt_compat. assert (Is : 0 < / sigma) by now apply Rinv_0_lt_compat.
  assert (T1 : 0 <= (t - tau) / sqrt 3 <= t / sqrt 3) by (unfold Rdiv; split; [apply Rmult_le_pos; lra|apply Rmult_le_compat_r; lra]).
  assert (G : forall u, Rabs u <= Rabs x + t / sqrt 3 -> 0 <= exp (- (u / sigma) ^ 2) - cut_exp ((u / sigma) ^ 2) <= r ^ 8 / 24).
  { intros u Hu. destruct (cut_exp_near ((u / sigma) ^ 2) (pow2_ge_0 _)) as [A B]. split; [exact A|]. eapply Rle_trans; [exact B|].
    assert (L : ((u / sigma) ^ 2) ^ 4 <= r ^ 8); [|lra]. rewrite <- (pow2_abs (u / sigma)), <- pow_mult. change (2 * 4)%nat with 8%nat.
    apply pow_incr. split; [apply Rabs_pos|]. unfold r, Rdiv. rewrite Rabs_mult, (Rabs_pos_eq (/ sigma)) by lra. apply Rmult_le_compat_r; lra. }
  assert (Gp : Rabs (x + (t - tau) / sqrt 3) <= Rabs x + t / sqrt 3) by (eapply Rle_trans; [apply Rabs_triang|]; rewrite (Rabs_pos_eq ((t - tau) / sqrt 3)) by lra; lra).
  assert (Gm : Rabs (x - (t - tau) / sqrt 3) <= Rabs x + t / sqrt 3) by (eapply Rle_trans; [apply Rabs_triang|]; rewrite Rabs_Ropp, (Rabs_pos_eq ((t - tau) / sqrt 3)) by lra; lra).
  apply G in Gp. apply G in Gm. pose proof (exp_pos (- (t - tau))) as E. nra.
Qed.
(** once the source is off it is below the exact value, and off by at most the eighth power of the reach over the width of the source *)
Theorem C165_error : forall c x t, erf_ok (erf c) -> 0 < ssigma c -> 0 <= st0 c <= t ->
  0 <= uncollided_s2_gaussian (erf c) x t (ssigma c) (st0 c) - uncollided_s2_gaussian_thick x t (ssigma c) (st0 c)
    <= (exp (st0 c - t) - exp (- t)) * ((Rabs x + t / sqrt 3) / ssigma c) ^ 8 / 24.
Proof.
  intros c x t HE Hs Ht. pose proof (C79_s2_gaussian_closed_form c x t HE Hs) as A. rewrite Rmin_right in A by lra. fold (gauss_rate x t (ssigma c)) in A.
  pose proof (C165_formula_is_cut_integral x t (ssigma c) (st0 c) Hs) as B. pose proof (int_minus _ _ _ _ _ _ A B) as D. cbv beta in D.
  set (K := ((Rabs x + t / sqrt 3) / ssigma c) ^ 8 / 24).
  assert (U : is_RInt (fun tau => K * exp (- (t - tau))) 0 (st0 c) (K * (exp (- (t - st0 c)) - exp (- (t - 0))))).
  { apply int_scal. apply (int_ftc (fun tau => exp (- (t - tau)))).
    - intro z. auto_derive; auto. unfold Rminus. rewrite ?Rmult_1_l, ?Ropp_involutive, ?Rmult_1_l. reflexivity.
    - intro z. apply (ex_derive_continuous (fun tau => exp (- (t - tau)))). auto_derive. auto. }
  split.
  - eapply (is_RInt_le (fun _ => 0) _ 0 (st0 c)); [lra|eapply int_eq; [apply int_const|ring]|exact D|]. intros z Hz. apply cut_gap; auto; lra.
  - eapply Rle_trans; [eapply (is_RInt_le _ _ 0 (st0 c)); [lra|exact D|exact U|]; intros z Hz; apply cut_gap; auto; lra|].
    right. unfold K. replace (- (t - st0 c)) with (st0 c - t) by ring. replace (- (t - 0)) with (- t) by ring. unfold Rdiv. ring.
Qed.
Print Assumptions C165_error.
(** while the source is on the formula also counts what will be emitted later *)
Theorem C165_formula_during_the_source_refuted : exists c x t, erf_ok (erf c) /\ 0 < ssigma c /\ 0 <= t < st0 c /\
  uncollided_s2_gaussian (erf c) x t (ssigma c) (st0 c) = 0 /\ 1 < uncollided_s2_gaussian_thick x t (ssigma c) (st0 c).
Proof.
  exists (scfg0 [] false false 1), 0, 0. cbn [scfg0 st0 ssigma erf]. split; [apply erf_contract_holds|]. split; [lra|]. split; [lra|]. split; [apply C79_example|].
  unfold uncollided_s2_gaussian_thick. rewrite exp_0. match goal with |- _ < ?u / ?v => replace (u / v) with ((450 - 76 * exp 1) / 162) by field end.
  pose proof exp_le_3. lra.
Qed.
Print Assumptions C165_formula_during_the_source_refuted.
Example C165_example : forall t, 1 <= t -> 0 <= uncollided_s2_gaussian erf_int 0 t 1 1 - uncollided_s2_gaussian_thick 0 t 1 1 <= (exp (1 - t) - exp (- t)) * ((0 + t / sqrt 3) / 1) ^ 8 / 24.
Proof.
  intros t Ht. pose proof (C165_error (scfg0 [] false false 1) 0 t erf_contract_holds) as H. cbn [scfg0 st0 ssigma erf] in H. rewrite Rabs_R0 in H. apply H; lra.
Qed.

(* ---------------------------------------------------------------- C167 *)
Lemma index_of_spec s l : match index_of s l with None => ~ In s l | Some k => nth_error l k = Some s /\ forall m, (m < k)%nat -> nth_error l m <> Some s end.
Proof.
  induction l as [|y l IH]; cbn; [auto|]. destruct (String.eqb_spec s y) as [->|N].
  - split; [reflexivity|]. intros m Hm. lia.
  - destruct (index_of s l) as [k|]; cbn.
    + destruct IH as [A B]. split; [exact A|]. intros [|m] Hm; cbn; [congruence|]. apply B. lia.
    + intros [E|E]; [congruence|auto].
Qed.
(** the array of a name has a one at the place of the name and zeros elsewhere; other names are refused *)
Theorem C167_array_of_a_name : forall s,
  (In s source_type_str -> exists l, source_name_finder s = Ok l /\ length l = length source_type_str /\
     forall k, (k < length source_type_str)%nat -> nth k l 0%Z = if String.eqb (nth k source_type_str ""%string) s then 1%Z else 0%Z) /\
  (~ In s source_type_str -> source_name_finder s = Err AssertionError).
Proof.
  intro s. unfold source_name_finder. assert (X : existsb (String.eqb s) source_type_str = true <-> In s source_type_str).
  { rewrite existsb_exists. split; [intros (y & A & B); apply String.eqb_eq in B; now subst|intro A; exists s; split; [auto|apply String.eqb_refl]]. }
  split; intro H.
  - rewrite (proj2 X H). cbn [negb]. pose proof (index_of_spec s source_type_str) as K. destruct (index_of s source_type_str) as [k|]; [|contradiction].
    eexists. split; [reflexivity|]. split; [now rewrite map_length, seq_length|]. intros m Hm.
    rewrite (nth_indep _ 0%Z ((fun i => if (i =? k)%nat then 1%Z else 0%Z) 0%nat)) by (now rewrite map_length, seq_length). rewrite (map_nth (fun i => if (i =? k)%nat then 1%Z else 0%Z)), seq_nth by auto. cbn [Nat.add].
    assert (ND : NoDup source_type_str) by (repeat (constructor; [cbn; intuition discriminate|]); constructor).
    destruct (Nat.eqb_spec m k) as [->|N].
    + rewrite (nth_error_nth _ _ _ (proj1 K)), String.eqb_refl. reflexivity.
    + destruct (String.eqb_spec (nth m source_type_str ""%string) s) as [E|E]; auto. exfalso. apply N. apply (proj1 (NoDup_nth_error source_type_str) ND m k Hm). rewrite (proj1 K), <- E. apply nth_error_nth'. auto.
  - destruct (existsb (String.eqb s) source_type_str); [exfalso; apply H, X; reflexivity|reflexivity].
Qed.
Print Assumptions C167_array_of_a_name.
(** the names given to the problems: the first of the first five entries that is one decides; without one the name is unbound *)
Theorem C167_identifier : forall st r, (5 <= length st)%nat -> problem_identifier st = r ->
  (forall k, (k < 5)%nat -> nth k st 0%Z = 1%Z -> (forall m, (m < k)%nat -> nth m st 0%Z <> 1%Z) ->
     r = Ok (nth k ["plane_IC"; "square_IC"; "square_source"; "gaussian_IC"; "gaussian_source"]%string ""%string)) /\
  ((forall k, (k < 5)%nat -> nth k st 0%Z <> 1%Z) -> r = Err UnboundLocal).
Proof.
  intros st r L <-. do 5 (destruct st as [|? st]; [cbn in L; lia|]). unfold problem_identifier, getitem. cbn [nth_error bind]. split.
  - intros k Hk H1 H2. do 5 (destruct k as [|k]; [cbn in H1; subst; repeat match goal with |- context [Z.eqb ?u 1] => is_var u; destruct (Z.eqb_spec u 1) as [->|?] end;
      try reflexivity; exfalso; first [now apply (H2 0%nat ltac:(lia))|now apply (H2 1%nat ltac:(lia))|now apply (H2 2%nat ltac:(lia))|now apply (H2 3%nat ltac:(lia))]|]). lia.
  - intro H. repeat match goal with |- context [Z.eqb ?u 1] => is_var u; destruct (Z.eqb_spec u 1) as [->|?] end; try reflexivity; exfalso;
      first [now apply (H 0%nat ltac:(lia))|now apply (H 1%nat ltac:(lia))|now apply (H 2%nat ltac:(lia))|now apply (H 3%nat ltac:(lia))|now apply (H 4%nat ltac:(lia))].
Qed.
Print Assumptions C167_identifier.
(** of the sixteen problems only the first four get the right name: the manufactured solution is called a Gaussian source, the Gaussian
    source and the problems after it have none *)
Theorem C167_names_agree_refuted :
  (bind (source_name_finder "MMS") problem_identifier = Ok "gaussian_source"%string) /\
  (bind (source_name_finder "gaussian_s") problem_identifier = Err UnboundLocal) /\
  forall s, In s source_type_str -> (exists n, bind (source_name_finder s) problem_identifier = Ok n) <-> In s ["plane_IC"; "square_IC"; "square_s"; "gaussian_IC"; "MMS"]%string.
Proof.
  split; [reflexivity|]. split; [reflexivity|]. intros s H. cbn in H. repeat (destruct H as [<-|H]; [split; [intros (n & Hn); first [discriminate Hn|cbn; tauto]|intro K; first [eexists; reflexivity|exfalso; cbn in K; intuition discriminate]]|]). destruct H.
Qed.
Print Assumptions C167_names_agree_refuted.
Example C167_example : source_name_finder "square_s" = Ok [0; 0; 1; 0; 0; 0; 0; 0; 0; 0; 0; 0; 0; 0; 0; 0]%Z /\ problem_identifier [0; 0; 1; 0; 0]%Z = Ok "square_source"%string /\ source_name_finder "square" = Err AssertionError.
Proof. repeat split. Qed.
