(** C145: the diffusion solutions and the order estimate of self_similar_diffusion.py. *)
From Coquelicot Require Import Coquelicot.
From Verif Require Import Py PyLemmas Calc FuncModel FuncThms SteadyThms DiffusionModel.

(** u solves u_t = A u_zz for positive times *)
Definition diffuses (A : R) (u : R -> R -> R) : Prop := exists uz uzz ut : R -> R -> R, forall z tau, 0 < tau ->
  is_derive (fun y => u y tau) z (uz z tau) /\ is_derive (fun y => uz y tau) z (uzz z tau) /\ is_derive (fun w => u z w) tau (ut z tau) /\ ut z tau = A * uzz z tau.
(** exp(-z^2 / q) / sqrt q with q growing at rate 4 A *)
Lemma kernel_diffuses A q0 k : 0 < A -> 0 <= q0 -> diffuses A (fun z tau => k * (exp (- z ^ 2 / (q0 + 4 * A * tau)) / sqrt (q0 + 4 * A * tau))).
Proof.
  intros HA Hq.
  exists (fun z tau => let q := q0 + 4 * A * tau in k * (exp (- z ^ 2 / q) / sqrt q) * (- 2 * z / q)),
    (fun z tau => let q := q0 + 4 * A * tau in k * (exp (- z ^ 2 / q) / sqrt q) * (4 * z ^ 2 / q ^ 2 - 2 / q)),
    (fun z tau => let q := q0 + 4 * A * tau in k * (exp (- z ^ 2 / q) / sqrt q) * (4 * A * z ^ 2 / q ^ 2 - 2 * A / q)).
  intros z tau Ht. cbv zeta. set (q := q0 + 4 * A * tau). assert (P : 0 < q) by (unfold q; assert (0 < A * tau) by (apply Rmult_lt_0_compat; auto); lra).
  pose proof (sqrt_lt_R0 q P) as S.
  assert (E : forall y, is_derive (fun y => exp (- y ^ 2 / q)) y (- 2 * y / q * exp (- y ^ 2 / q))).
  { intros y. eapply dd_eq; [apply (dd_exp (fun y => - y ^ 2 / q)); apply dd_divc, dd_opp, (dd_ext (fun y => y * y)); [intros; ring|apply (dd_mult (fun y => y) (fun y => y)); apply dd_id]|].
    cbv beta. match goal with |- ?a = ?b => change (@eq R a b) end. field. lra. }
  assert (U : forall y, is_derive (fun y => k * (exp (- y ^ 2 / q) / sqrt q)) y (k * (exp (- y ^ 2 / q) / sqrt q) * (- 2 * y / q))).
  { intros y. eapply dd_eq; [apply dd_scal, dd_divc, E|]. cbv beta. match goal with |- ?a = ?b => change (@eq R a b) end. field. lra. }
  split; [apply U|]. split; [|split].
  - eapply dd_eq; [apply (dd_mult (fun y => k * (exp (- y ^ 2 / q) / sqrt q)) (fun y => - 2 * y / q)); [apply U|apply dd_divc, dd_scal, dd_id]|].
    cbv beta. match goal with |- ?a = ?b => change (@eq R a b) end. field. lra.
  - assert (Q : is_derive (fun w => q0 + 4 * A * w) tau (4 * A)) by (eapply dd_eq; [apply dd_plus; [apply dd_const|apply dd_scal, dd_id]|ring]).
    eapply dd_eq.
    + apply dd_scal. apply (dd_div (fun w => exp (- z ^ 2 / (q0 + 4 * A * w))) (fun w => sqrt (q0 + 4 * A * w))); [|apply dd_sqrt; [exact Q|exact P]|fold q; lra].
      apply (dd_exp (fun w => - z ^ 2 / (q0 + 4 * A * w))). apply (dd_div (fun _ => - z ^ 2) (fun w => q0 + 4 * A * w)); [apply dd_const|exact Q|fold q; lra].
    + cbv beta. fold q. assert (SS : sqrt q * sqrt q = q) by (apply sqrt_sqrt; lra). set (e := exp _). clearbody e.
      cbv beta. match goal with |- ?a = ?b => change (@eq R a b) end.
      transitivity (k * (e / sqrt q) * (4 * A * z ^ 2 / q ^ 2) - k * (e / sqrt q) * (2 * A) / (sqrt q * sqrt q)); [field; lra|]. rewrite SS. field. lra.
  - field. lra.
Qed.
(** The self-similar profile, scaled back, solves the diffusion equation. *)
Theorem C145_plane : forall A, 0 < A -> diffuses A (fun z tau => benchmark (z / sqrt (A * tau)) / sqrt (A * tau)).
Proof.
  intros A HA. destruct (kernel_diffuses A 0 (1 / sqrt PI) HA ltac:(lra)) as (uz & uzz & ut & H). exists uz, uzz, ut. intros z tau Ht.
  pose proof (sqrt_lt_R0 PI PI_RGT_0) as SP.
  assert (EQ : forall y w, 0 < w -> 1 / sqrt PI * (exp (- y ^ 2 / (0 + 4 * A * w)) / sqrt (0 + 4 * A * w)) = benchmark (y / sqrt (A * w)) / sqrt (A * w)).
  { intros y w Hw. assert (P : 0 < A * w) by (apply Rmult_lt_0_compat; auto). pose proof (sqrt_lt_R0 _ P) as S. unfold benchmark.
    replace (0 + 4 * A * w) with (2 ^ 2 * (A * w)) by ring. rewrite sqrt_mult, sqrt_pow2 by lra. assert (SS : sqrt (A * w) ^ 2 = A * w) by (apply pow2_sqrt; lra).
    replace (- (y / sqrt (A * w)) ^ 2 / 4) with (- y ^ 2 / (2 ^ 2 * (A * w))).
    - set (e := exp _). field. lra.
    - rewrite <- SS at 1. field. lra. }
  destruct (H z tau Ht) as (H1 & H2 & H3 & H4). split; [|split; [exact H2|split; [|exact H4]]].
  - apply (is_derive_ext (fun y => 1 / sqrt PI * (exp (- y ^ 2 / (0 + 4 * A * tau)) / sqrt (0 + 4 * A * tau)))); [|exact H1]. intros y. now apply EQ.
  - apply (is_derive_ext_loc (fun w => 1 / sqrt PI * (exp (- z ^ 2 / (0 + 4 * A * w)) / sqrt (0 + 4 * A * w)))); [|exact H3].
    exists (mkposreal tau Ht). intros w Hw. apply EQ. unfold ball in Hw; cbn in Hw; unfold AbsRing_ball, abs, minus, plus, opp in Hw; cbn in Hw. apply Rabs_def2 in Hw. lra.
Qed.
Print Assumptions C145_plane.
(** The Gaussian solution has the value omega / sqrt(omega^2 + 4 A tau) exp(..), solves the diffusion equation and starts from exp(-z^2/omega^2);
    at time zero itself the formula divides by zero. *)
Lemma gauss_value z tau omega A : 0 < A -> 0 < omega -> 0 < tau ->
  gaussian_IC_bench_full z tau omega A = Ok (omega * (exp (- z ^ 2 / (omega ^ 2 + 4 * A * tau)) / sqrt (omega ^ 2 + 4 * A * tau))).
Proof.
  intros HA Ho Ht. assert (P : 0 < A * tau) by (apply Rmult_lt_0_compat; auto). assert (O2 : 0 < omega ^ 2) by (apply pow_lt; auto).
  unfold gaussian_IC_bench_full. rewrite Reqb_false by lra. rewrite Rltb_true by auto. f_equal.
  replace (4 / omega ^ 2 + 1 / A / tau) with ((omega ^ 2 + 4 * A * tau) / (omega ^ 2 * (A * tau))) by (field; repeat split; nra).
  rewrite sqrt_div_alt by (apply Rmult_lt_0_compat; auto). rewrite (sqrt_mult (omega ^ 2) (A * tau)), sqrt_pow2 by lra. pose proof (sqrt_lt_R0 _ P). assert (0 < sqrt (omega ^ 2 + 4 * A * tau)) by (apply sqrt_lt_R0; lra).
  field. repeat split; lra.
Qed.
Theorem C145_gaussian : forall A omega, 0 < A -> 0 < omega -> exists u, diffuses A u /\ (forall z tau, 0 < tau -> gaussian_IC_bench_full z tau omega A = Ok (u z tau)) /\
  (forall z, is_lim (u z) 0 (exp (- z ^ 2 / omega ^ 2))) /\ forall z, gaussian_IC_bench_full z 0 omega A = Err NaN.
Proof.
  intros A omega HA Ho. exists (fun z tau => omega * (exp (- z ^ 2 / (omega ^ 2 + 4 * A * tau)) / sqrt (omega ^ 2 + 4 * A * tau))).
  assert (O2 : 0 < omega ^ 2) by (apply pow_lt; auto). split; [apply kernel_diffuses; auto; lra|]. split; [intros; now apply gauss_value|]. split.
  - intros z. assert (V : omega * (exp (- z ^ 2 / (omega ^ 2 + 4 * A * 0)) / sqrt (omega ^ 2 + 4 * A * 0)) = exp (- z ^ 2 / omega ^ 2)).
    { rewrite Rmult_0_r, Rplus_0_r, sqrt_pow2 by lra. field. lra. }
    rewrite <- V. apply (is_lim_continuity (fun w => omega * (exp (- z ^ 2 / (omega ^ 2 + 4 * A * w)) / sqrt (omega ^ 2 + 4 * A * w))) 0).
    apply derivable_continuous_pt.
    assert (Q : is_derive (fun w => omega ^ 2 + 4 * A * w) 0 (4 * A)) by (eapply dd_eq; [apply dd_plus; [apply dd_const|apply dd_scal, dd_id]|ring]).
    assert (P : 0 < omega ^ 2 + 4 * A * 0) by lra. pose proof (sqrt_lt_R0 _ P).
    eexists. apply is_derive_Reals. apply dd_scal. apply (dd_div (fun w => exp (- z ^ 2 / (omega ^ 2 + 4 * A * w))) (fun w => sqrt (omega ^ 2 + 4 * A * w))); [|apply dd_sqrt; [exact Q|exact P]|lra].
    apply (dd_exp (fun w => - z ^ 2 / (omega ^ 2 + 4 * A * w))). apply (dd_div (fun _ => - z ^ 2) (fun w => omega ^ 2 + 4 * A * w)); [apply dd_const|exact Q|lra].
  - intros z. unfold gaussian_IC_bench_full. rewrite Reqb_false by lra. rewrite Rltb_false by lra. reflexivity.
Qed.
Print Assumptions C145_gaussian.
(** The dipole profile, scaled by z0 / (A tau), solves it too: it is a multiple of the space derivative of the plane solution. *)
Theorem C145_dipole : forall A z0, 0 < A -> diffuses A (fun z tau => z0 / (A * tau) * dipole_benchmark (z / sqrt (A * tau))).
Proof.
  intros A z0 HA. pose proof (sqrt_lt_R0 PI PI_RGT_0) as SP.
  set (K := fun z tau => exp (- z ^ 2 / (4 * A * tau)) / sqrt (A * tau) * (z0 / (2 * A * tau) / sqrt PI)).
  exists (fun z tau => K z tau * (1 - z ^ 2 / (2 * A * tau))), (fun z tau => K z tau * (z ^ 3 / (4 * A ^ 2 * tau ^ 2) - 3 * z / (2 * A * tau))),
    (fun z tau => K z tau * (z ^ 3 / (4 * A * tau ^ 2) - 3 * z / (2 * tau))).
  intros z tau Ht. assert (P : 0 < A * tau) by (apply Rmult_lt_0_compat; auto). pose proof (sqrt_lt_R0 _ P) as S.
  assert (EQ : forall y w, 0 < w -> K y w * y = z0 / (A * w) * dipole_benchmark (y / sqrt (A * w))).
  { intros y w Hw. assert (P' : 0 < A * w) by (apply Rmult_lt_0_compat; auto). pose proof (sqrt_lt_R0 _ P'). unfold K, dipole_benchmark.
    replace (- (y / sqrt (A * w)) ^ 2 / 4) with (- y ^ 2 / (4 * A * w)).
    - set (e := exp _). field. repeat split; nra.
    - assert (SS : sqrt (A * w) ^ 2 = A * w) by (apply pow2_sqrt; lra). transitivity (- y ^ 2 / (4 * sqrt (A * w) ^ 2)); [rewrite SS; field; nra|field; lra]. }
  assert (Kz : forall y, is_derive (fun y => K y tau) y (K y tau * (- y / (2 * A * tau)))).
  { intros y. unfold K. eapply dd_eq; [apply dd_scal_r, dd_divc; apply (dd_exp (fun y => - y ^ 2 / (4 * A * tau))); apply dd_divc, dd_opp, (dd_ext (fun y => y * y)); [intros; ring|apply (dd_mult (fun y => y) (fun y => y)); apply dd_id]|].
    cbv beta. match goal with |- ?a = ?b => change (@eq R a b) end. field. repeat split; nra. }
  assert (Y2 : forall y, is_derive (fun y => 1 - y ^ 2 / (2 * A * tau)) y (- y / (A * tau))).
  { intros y. eapply dd_eq; [apply dd_minus; [apply dd_const|apply dd_divc, (dd_ext (fun y => y * y)); [intros; ring|apply (dd_mult (fun y => y) (fun y => y)); apply dd_id]]|].
    cbv beta. match goal with |- ?a = ?b => change (@eq R a b) end. field. nra. }
  split; [|split; [|split]].
  - apply (is_derive_ext (fun y => K y tau * y)); [intros; now apply EQ|]. eapply dd_eq; [apply (dd_mult (fun y => K y tau) (fun y => y)); [apply Kz|apply dd_id]|].
    cbv beta. match goal with |- ?a = ?b => change (@eq R a b) end. field. nra.
  - eapply dd_eq; [apply (dd_mult (fun y => K y tau) (fun y => 1 - y ^ 2 / (2 * A * tau))); [apply Kz|apply Y2]|].
    cbv beta. match goal with |- ?a = ?b => change (@eq R a b) end. field. nra.
  - apply (is_derive_ext_loc (fun w => K z w * z)).
    { exists (mkposreal tau Ht). intros w Hw. apply EQ. unfold ball in Hw; cbn in Hw; unfold AbsRing_ball, abs, minus, plus, opp in Hw; cbn in Hw. apply Rabs_def2 in Hw. lra. }
    assert (Q4 : is_derive (fun w => 4 * A * w) tau (4 * A)) by (eapply dd_eq; [apply dd_scal, dd_id|ring]).
    assert (Q1 : is_derive (fun w => A * w) tau A) by (eapply dd_eq; [apply dd_scal, dd_id|ring]).
    assert (Q2 : is_derive (fun w => 2 * A * w) tau (2 * A)) by (eapply dd_eq; [apply dd_scal, dd_id|ring]).
    unfold K. eapply dd_eq.
    + apply dd_scal_r. apply (dd_mult (fun w => exp (- z ^ 2 / (4 * A * w)) / sqrt (A * w)) (fun w => z0 / (2 * A * w) / sqrt PI)).
      * apply (dd_div (fun w => exp (- z ^ 2 / (4 * A * w))) (fun w => sqrt (A * w))); [|apply dd_sqrt; [exact Q1|exact P]|lra].
        apply (dd_exp (fun w => - z ^ 2 / (4 * A * w))). apply (dd_div (fun _ => - z ^ 2) (fun w => 4 * A * w)); [apply dd_const|exact Q4|lra].
      * apply dd_divc. apply (dd_div (fun _ => z0) (fun w => 2 * A * w)); [apply dd_const|exact Q2|lra].
    + cbv beta. assert (SS : sqrt (A * tau) * sqrt (A * tau) = A * tau) by (apply sqrt_sqrt; lra). set (e := exp _). clearbody e. set (r := sqrt (A * tau)) in *. clearbody r.
      cbv beta. match goal with |- ?a = ?b => change (@eq R a b) end.
      transitivity (e / r * (z0 / (2 * A * tau) / sqrt PI) * z * (z ^ 2 / (4 * A * tau ^ 2) - 1 / tau - A / (2 * (r * r)))); [field; repeat split; nra|]. rewrite SS. field. repeat split; nra.
  - unfold K. set (e := exp _). field. repeat split; nra.
Qed.
Print Assumptions C145_dipole.
(** benchmarkfull has the same value at all points; since it changes in time it does not solve the diffusion equation. *)
Theorem C145_full_refuted : forall xi A, 0 < A -> (forall z z' tau, benchmarkfull xi z tau A = benchmarkfull xi z' tau A) /\
  exists z tau, 0 < tau /\ benchmarkfull xi z tau A <> Ok (benchmark (z / sqrt (A * tau)) / sqrt (A * tau)).
Proof.
  intros xi A HA. split; [reflexivity|]. pose proof (sqrt_lt_R0 PI PI_RGT_0) as SP.
  exists ((Rabs xi + 1) * sqrt (A * 1)), 1. split; [lra|]. rewrite Rmult_1_r. pose proof (sqrt_lt_R0 A HA) as S. unfold benchmarkfull, benchmark. rewrite Rmult_1_r, Rltb_true by auto.
  replace ((Rabs xi + 1) * sqrt A / sqrt A) with (Rabs xi + 1) by (field; lra). intros E. injection E as E.
  assert (X : exp (- xi ^ 2 / 4) = exp (- (Rabs xi + 1) ^ 2 / 4)).
  { apply Rmult_eq_reg_l with (1 / sqrt A * (5 / 10) * (1 / sqrt PI)); [|apply Rgt_not_eq; repeat apply Rmult_lt_0_compat; try lra; apply Rinv_0_lt_compat; lra].
    etransitivity; [exact E|]. change ((Rabs xi + 1) * ((Rabs xi + 1) * 1)) with ((Rabs xi + 1) ^ 2). field. lra. }
  apply exp_inv in X. pose proof (Rabs_pos xi). assert (Rabs xi ^ 2 = xi ^ 2) by (cbn; rewrite !Rmult_1_r; apply Rsqr_abs || (rewrite <- Rabs_mult; apply Rabs_pos_eq; nra)). nra.
Qed.
Print Assumptions C145_full_refuted.
(** The part which depends on direction decays at the rate 1/epsilon^2 and has no net content for mirror-symmetric
    directions none of which is zero. *)
Theorem C145_nonisotropic : forall z omega epsilon mu tau dirs, epsilon <> 0 ->
  is_derive (fun w => noniso_part_bench z w omega epsilon mu) tau (- noniso_part_bench z tau omega epsilon mu / epsilon ^ 2) /\
  (mirrored dirs -> (forall m w, In (m, w) dirs -> m <> 0) -> rsum (map (fun p => snd p * noniso_part_bench z tau omega epsilon (fst p)) dirs) = 0).
Proof.
  intros z omega epsilon mu tau dirs He. split.
  - unfold noniso_part_bench. eapply dd_eq; [apply dd_scal_r; apply (dd_exp (fun w => - w / epsilon ^ 2)); apply dd_divc, dd_opp, dd_id|].
    cbv beta. match goal with |- ?a = ?b => change (@eq R a b) end. field. auto.
  - intros Hm Hn. set (g := fun p : R * R => snd p * noniso_part_bench z tau omega epsilon (fst p)).
    assert (E : rsum (map g (map (fun p => (- fst p, snd p)) dirs)) = - rsum (map g dirs)).
    { rewrite map_map. clear Hm. induction dirs as [|[m w] l IH]; [cbn; ring|]. cbn [map rsum fold_right]. unfold rsum in *. rewrite IH by (intros; eapply Hn; right; eauto).
      assert (m <> 0) by (apply (Hn m w); now left). unfold g. cbn [fst snd]. unfold noniso_part_bench. destruct (Rlt_dec 0 m); [rewrite (Rltb_true 0 m), (Rltb_false 0 (- m)) by lra|rewrite (Rltb_false 0 m), (Rltb_true 0 (- m)) by lra]; field; auto. }
    rewrite (rsum_perm _ _ (Permutation.Permutation_map g Hm)) in E. fold g. lra.
Qed.
Print Assumptions C145_nonisotropic.
(** The estimated order of errors C x^-p is p. *)
Theorem C145_order : forall x C p start, (start + 1 < length x)%nat -> 0 < C -> (forall i, (i < length x)%nat -> 0 < nth i x 0) ->
  (forall i, (start <= i < length x - 1)%nat -> nth i x 0 <> before x i) ->
  loglog_converge x (map (fun y => C * Rpower y (- p)) x) start = Ok p.
Proof.
  intros x C p start Hs HC Hp Hd. unfold loglog_converge. destruct (Nat.leb_spec (length x) start); [lia|].
  set (n := length x) in *.
  assert (V : forall i, (i < n)%nat -> nth i (map (fun y => C * Rpower y (- p)) x) 0 = C * Rpower (nth i x 0) (- p)).
  { intros i Hi. rewrite (nth_indep _ 0 ((fun y => C * Rpower y (- p)) 0)) by (rewrite map_length; exact Hi). apply (map_nth (fun y => C * Rpower y (- p))). }
  assert (B : forall i, (i < n)%nat -> before (map (fun y => C * Rpower y (- p)) x) i = C * Rpower (before x i) (- p) /\ 0 < before x i).
  { intros i Hi. unfold before. rewrite map_length. fold n. destruct i; rewrite V by lia; split; auto; apply Hp; lia. }
  assert (S1 : forall i, (start <= i < n - 1)%nat -> loglog_slope x (map (fun y => C * Rpower y (- p)) x) i = Ok p).
  { intros i Hi. unfold loglog_slope. rewrite V by lia. destruct (B i ltac:(lia)) as [-> P2]. pose proof (Hp i ltac:(lia)) as P1.
    assert (E1 : 0 < C * Rpower (nth i x 0) (- p)) by (apply Rmult_lt_0_compat; [auto|apply exp_pos]). assert (E2 : 0 < C * Rpower (before x i) (- p)) by (apply Rmult_lt_0_compat; [auto|apply exp_pos]).
    rewrite !Reqb_false by lra. rewrite !Rltb_true by (apply Rdiv_lt_0_compat; auto).
    assert (L : ln (before x i / nth i x 0) = ln (before x i) - ln (nth i x 0)) by (apply ln_div; auto).
    assert (NZ : ln (before x i) - ln (nth i x 0) <> 0). { intros Q. apply (Hd i Hi). apply ln_inv; auto. lra. }
    rewrite L, Reqb_false by exact NZ. f_equal. rewrite ln_div, !ln_mult by (auto; apply exp_pos). unfold Rpower. rewrite !ln_exp. field. exact NZ. }
  assert (M : forall k s, (start <= s)%nat -> (s + k <= n - 1)%nat -> map_result (loglog_slope x (map (fun y => C * Rpower y (- p)) x)) (seq s k) = Ok (repeat p k)).
  { induction k as [|k IH]; intros s H1 H2; cbn [seq map_result repeat]; auto. rewrite S1 by lia. cbn [bind]. now rewrite IH by lia. }
  rewrite M by lia. cbn [bind]. rewrite repeat_length. destruct (Nat.eqb_spec (n - 1 - start) 0); [lia|].
  f_equal. assert (Sum : forall k, rsum (repeat p k) = INR k * p). { induction k as [|k IH]; [cbn; ring|]. cbn [repeat]. change (rsum (p :: repeat p k)) with (p + rsum (repeat p k)). rewrite IH, S_INR. ring. }
  rewrite Sum. field. apply not_0_INR. lia.
Qed.
Print Assumptions C145_order.
(** The last pair of runs, the finest, is not looked at: unless the average starts with the first run the last error does not matter. *)
Theorem C145_last_ignored : forall x e a b start, (0 < start)%nat -> length x = S (length e) -> loglog_converge x (e ++ [a]) start = loglog_converge x (e ++ [b]) start.
Proof.
  intros x e a b start Hs Hl. unfold loglog_converge. destruct (length x <=? start)%nat; auto.
  assert (M : forall l, (forall i, In i l -> (0 < i < length e)%nat) -> map_result (loglog_slope x (e ++ [a])) l = map_result (loglog_slope x (e ++ [b])) l).
  { induction l as [|i l IH]; intros H; cbn [map_result]; auto. rewrite IH by (intros; apply H; now right).
    assert (loglog_slope x (e ++ [a]) i = loglog_slope x (e ++ [b]) i) as ->; auto. destruct (H i ltac:(now left)). destruct i as [|i]; [lia|]. unfold loglog_slope, before. rewrite !app_nth1 by lia. reflexivity. }
  rewrite M; auto. intros i Hi. apply in_seq in Hi. lia.
Qed.
Print Assumptions C145_last_ignored.
Example C145_example : loglog_converge [2; 4; 8] (map (fun y => 3 * Rpower y (- 2)) [2; 4; 8]) 0 = Ok 2 /\ gaussian_IC_bench_full 1 0 4 10 = Err NaN.
Proof.
  split; [|unfold gaussian_IC_bench_full; rewrite Reqb_false, Rltb_false by lra; reflexivity].
  apply C145_order; cbn [length]; try lia; try lra.
  - intros i Hi. do 3 (destruct i as [|i]; [cbn; lra|]). lia.
  - intros i Hi. do 2 (destruct i as [|i]; [cbn; lra|]). lia.
Qed.
