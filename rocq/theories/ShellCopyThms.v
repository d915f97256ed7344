(** The free flight of a uniform ball keeps its particles; the copies of its formula outside of the package. *)
From Coquelicot Require Import Coquelicot.
From Verif Require Import Py PyLemmas Calc FuncModel OutProofs BenchModel SourceModel SourceProofs SourceMore SourceThms ShellCopyModel.

Definition crit (a s r : R) : R := Rmin 1 (Rmax (-1) (1 / 2 * (s / r + r / s - a ^ 2 / (r * s)))).
Lemma crit_one a s r : 0 < r -> 0 < s -> a ^ 2 <= (r - s) ^ 2 -> crit a s r = 1.
Proof.
  intros Hr Hs H. unfold crit. apply Rmin_left. eapply Rle_trans; [|apply Rmax_r].
  assert (P : 0 < 2 * (r * s)) by nra. apply Rmult_le_reg_r with (2 * (r * s)); [auto|].
  replace (1 / 2 * (s / r + r / s - a ^ 2 / (r * s)) * (2 * (r * s))) with (s ^ 2 + r ^ 2 - a ^ 2) by (field; lra). nra.
Qed.
Lemma crit_minus a s r : 0 < r -> 0 < s -> (r + s) ^ 2 <= a ^ 2 -> crit a s r = -1.
Proof.
  intros Hr Hs H. unfold crit. rewrite Rmax_left; [apply Rmin_right; lra|].
  assert (P : 0 < 2 * (r * s)) by nra. apply Rmult_le_reg_r with (2 * (r * s)); [auto|].
  replace (1 / 2 * (s / r + r / s - a ^ 2 / (r * s)) * (2 * (r * s))) with (s ^ 2 + r ^ 2 - a ^ 2) by (field; lra). nra.
Qed.
Lemma crit_between a s r : 0 < r -> 0 < s -> (r - s) ^ 2 <= a ^ 2 <= (r + s) ^ 2 -> r ^ 2 * (1 - crit a s r) = r ^ 2 - r * (s ^ 2 + r ^ 2 - a ^ 2) / (2 * s).
Proof.
  intros Hr Hs [H1 H2]. assert (P : 0 < 2 * (r * s)) by nra.
  assert (E : 1 / 2 * (s / r + r / s - a ^ 2 / (r * s)) * (2 * (r * s)) = s ^ 2 + r ^ 2 - a ^ 2) by (field; lra).
  assert (C : crit a s r = 1 / 2 * (s / r + r / s - a ^ 2 / (r * s))).
  { unfold crit. rewrite Rmax_right; [apply Rmin_right|]; apply Rmult_le_reg_r with (2 * (r * s)); auto; rewrite E; nra. }
  rewrite C. field. lra.
Qed.
Definition shG (a s r : R) : R := r ^ 3 / 3 - (s ^ 2 - a ^ 2) * r ^ 2 / (4 * s) - r ^ 4 / (8 * s).
Lemma shG_der a s z : 0 < s -> is_derive (shG a s) z (z ^ 2 - z * (s ^ 2 + z ^ 2 - a ^ 2) / (2 * s)).
Proof. intros Hs. unfold shG. auto_derive; [repeat split; lra|]. field. lra. Qed.
Lemma shG_cont a s z : 0 < s -> continuous (fun z => z ^ 2 - z * (s ^ 2 + z ^ 2 - a ^ 2) / (2 * s)) z.
Proof. intros Hs. apply (ex_derive_continuous (fun z => z ^ 2 - z * (s ^ 2 + z ^ 2 - a ^ 2) / (2 * s))). auto_derive. repeat split; lra. Qed.
Lemma middle a s : 0 < a -> 0 < s -> is_RInt (fun r => r ^ 2 * (1 - crit a s r)) (Rabs (a - s)) (a + s) (shG a s (a + s) - shG a s (Rabs (a - s))).
Proof.
  intros Ha Hs. assert (O : Rabs (a - s) <= a + s) by (unfold Rabs; destruct (Rcase_abs (a - s)); lra).
  apply (int_ext_open (fun z => z ^ 2 - z * (s ^ 2 + z ^ 2 - a ^ 2) / (2 * s))); [auto| |].
  - intros r [A B]. pose proof (Rabs_pos (a - s)). rewrite crit_between; auto; [lra|].
    unfold Rabs in A. destruct (Rcase_abs (a - s)); split; nra.
  - apply int_ftc; intros z; [now apply shG_der|now apply shG_cont].
Qed.
Lemma shell_volume a s L : 0 < a -> 0 < s -> a + s <= L -> is_RInt (fun r => r ^ 2 * (1 - crit a s r)) 0 L (2 / 3 * a ^ 3).
Proof.
  intros Ha Hs HL.
  assert (O : is_RInt (fun r => r ^ 2 * (1 - crit a s r)) (a + s) L 0).
  { apply (int_ext_open (fun _ => 0)); [auto| |eapply int_eq; [apply int_const|ring]]. intros r [A B]. rewrite crit_one; [ring|lra|lra|nra]. }
  pose proof (middle a s Ha Hs) as M. destruct (Rle_dec s a) as [C|C].
  - rewrite Rabs_pos_eq in M by lra.
    assert (I : is_RInt (fun r => r ^ 2 * (1 - crit a s r)) 0 (a - s) (2 * (a - s) ^ 3 / 3)).
    { apply (int_ext_open (fun z => 2 * z ^ 2)); [lra| |].
      - intros r [A B]. rewrite crit_minus; [ring|lra|lra|nra].
      - eapply int_eq; [apply (int_ftc (fun z => 2 * z ^ 3 / 3))|cbv beta; field].
        + intros z. auto_derive; [trivial|field].
        + intros z. apply (ex_derive_continuous (fun z => 2 * z ^ 2)). auto_derive. trivial. }
    eapply int_eq; [apply (int_chasles _ _ _ _ _ _ (int_chasles _ _ _ _ _ _ I M) O)|]. unfold shG. field. lra.
  - rewrite Rabs_left in M by lra.
    assert (I : is_RInt (fun r => r ^ 2 * (1 - crit a s r)) 0 (- (a - s)) 0).
    { apply (int_ext_open (fun _ => 0)); [lra| |eapply int_eq; [apply int_const|ring]]. intros r [A B]. rewrite crit_one; [ring|lra|lra|nra]. }
    eapply int_eq; [apply (int_chasles _ _ _ _ _ _ (int_chasles _ _ _ _ _ _ I M) O)|]. unfold shG. field. lra.
Qed.

(** Integrated over the volume, the flux of the ball is the part of the one particle which has not collided, at all times. *)
Theorem C187_total : forall c t L, 0 < sx0 c -> 0 <= t -> sx0 c + (t + / 10 ^ 12) <= L ->
  is_RInt (fun r => 4 * PI * r ^ 2 * shell_IC_uncollided_solution c r t) 0 L (exp (- t)).
Proof.
  intros c t L Hx Ht HL. pose proof eps_pos as Ep. pose proof PI_RGT_0 as Hp.
  pose proof (int_scal _ (exp (- t) * (2 * PI) / (4 * PI / 3 * sx0 c ^ 3)) _ _ _ (shell_volume (sx0 c) (t + / 10 ^ 12) L Hx ltac:(lra) HL)) as I.
  eapply int_eq; [eapply int_ext; [|exact I]|].
  - intros r. cbv beta. unfold shell_IC_uncollided_solution. cbv zeta. rewrite Rmult_1_r. fold (crit (sx0 c) (t + / 10 ^ 12) r).
    set (m := crit _ _ _). clearbody m. field. lra.
  - field. lra.
Qed.
Print Assumptions C187_total.
(** Nothing is farther out than the fastest particle. *)
Theorem C187_front : forall c t r, 0 < sx0 c -> 0 <= t -> sx0 c + (t + / 10 ^ 12) <= r -> shell_IC_uncollided_solution c r t = 0.
Proof.
  intros c t r Hx Ht Hr. pose proof eps_pos as Ep. unfold shell_IC_uncollided_solution. cbv zeta. fold (crit (sx0 c) (t + / 10 ^ 12) r).
  rewrite crit_one; [ring|lra|lra|nra].
Qed.
Print Assumptions C187_front.
(** The copy in shell_convergence_plots.py is the formula of the package for a ball of radius 1/2; the one in
    uncollided_shell_test.py is 3/pi times that formula without absorption, so it holds 3/pi particles. *)
Theorem C187_copies : forall c r t, sx0 c = 1 / 2 ->
  plots_shell r t = shell_IC_uncollided_solution c r t /\
  test_shell r t = 3 / PI * exp t * shell_IC_uncollided_solution c r t.
Proof.
  intros c r t Hx. pose proof PI_RGT_0 as Hp. unfold plots_shell, test_shell, shell_IC_uncollided_solution. cbv zeta. rewrite Hx.
  set (m := Rmin 1 _). clearbody m. split; [reflexivity|].
  rewrite Rmult_0_r, exp_0. replace (- t * 1) with (- t) by ring. rewrite exp_Ropp. pose proof (exp_pos t). field. lra.
Qed.
Print Assumptions C187_copies.
Theorem C187_test_total : forall t L, 0 <= t -> 1 / 2 + (t + / 10 ^ 12) <= L -> is_RInt (fun r => 4 * PI * r ^ 2 * test_shell r t) 0 L (3 / PI).
Proof.
  intros t L Ht HL. pose proof eps_pos as Ep. pose proof PI_RGT_0 as Hp.
  pose proof (int_scal _ (36 / PI) _ _ _ (shell_volume (1 / 2) (t + / 10 ^ 12) L ltac:(lra) ltac:(lra) HL)) as I.
  eapply int_eq; [eapply int_ext; [|exact I]|].
  - intros r. cbv beta. unfold test_shell. cbv zeta. rewrite Rmult_0_r, exp_0. fold (crit (1 / 2) (t + / 10 ^ 12) r).
    set (m := crit _ _ _). clearbody m. field. lra.
  - field. lra.
Qed.
Print Assumptions C187_test_total.
Theorem C187_test_total_refuted : exists t L, 0 < t /\ 1 / 2 + (t + / 10 ^ 12) <= L /\ ~ is_RInt (fun r => 4 * PI * r ^ 2 * test_shell r t) 0 L 1.
Proof.
  pose proof PI_RGT_0 as Hp. assert (Q : 3 < PI).
  { pose proof (PI_ineq 4) as [A _]. unfold tg_alt, PI_tg in A. cbn in A. lra. }
  assert (E : / 10 ^ 12 < 1). { rewrite <- Rinv_1. apply Rinv_lt_contravar; [rewrite Rmult_1_l; apply pow_lt; lra|]. apply Rlt_pow_R1; [lra|lia]. }
  exists 1, 3. split; [lra|]. split; [lra|]. intros H.
  pose proof (int_uniq2 _ _ _ _ _ H (C187_test_total 1 3 ltac:(lra) ltac:(lra))) as U.
  assert (3 = PI) by (replace 3 with (3 / PI * PI) by (field; lra); rewrite <- U; ring). lra.
Qed.
Print Assumptions C187_test_total_refuted.
(** The study of shell_convergence_plots.py: the errors at time 1 are those of runs with 3, 5, 10 and 15 cells; those at
    time 5 are four times the one of ten cells, so they show no convergence. *)
Theorem C187_study : forall load bench rows, shell_study load bench = Ok rows ->
  let err t N e := exists phi xs col unc tot, load t 3%nat N = Ok (phi, xs) /\ bench t xs = Ok (col, unc) /\ vadd col unc = Ok tot /\ rms phi tot = Ok e in
  exists e3 e5 e10 e15 e, rows = [[e3; e5; e10; e15]; [e; e; e; e]] /\
    err 1 3%nat e3 /\ err 1 5%nat e5 /\ err 1 10%nat e10 /\ err 1 15%nat e15 /\ err 5 10%nat e.
Proof.
  intros load bench rows H err.
  assert (S : forall t N e, (s <- load t 3%nat N ;; let '(phi, xs) := s in b <- bench t xs ;; let '(col, unc) := b in tot <- vadd col unc ;; rms phi tot) = Ok e -> err t N e).
  { intros t N e E. destruct (load t 3%nat N) as [[phi xs]|] eqn:E1; [|discriminate]. cbn [bind] in E. destruct (bench t xs) as [[col unc]|] eqn:E2; [|discriminate].
    cbn [bind] in E. destruct (vadd col unc) as [tot|] eqn:E3; [|discriminate]. cbn [bind] in E. exists phi, xs, col, unc, tot. auto. }
  unfold shell_study, study in H. cbn [map_result] in H. unfold study_row in H. cbn [map_result] in H.
  set (F := fun t N => s <- load t 3%nat N ;; let '(phi, xs) := s in b <- bench t xs ;; let '(col, unc) := b in tot <- vadd col unc ;; rms phi tot) in *.
  fold (F 1 3%nat) (F 1 5%nat) (F 1 10%nat) (F 1 15%nat) (F 5 10%nat) in H.
  destruct (F 1 3%nat) as [e3|] eqn:E3; [|discriminate]. destruct (F 1 5%nat) as [e5|] eqn:E5; [|discriminate].
  destruct (F 1 10%nat) as [e10|] eqn:E10; [|discriminate]. destruct (F 1 15%nat) as [e15|] eqn:E15; [|discriminate].
  cbn [bind] in H. destruct (F 5 10%nat) as [e|] eqn:E; [|discriminate]. cbn [bind] in H. injection H as <-.
  exists e3, e5, e10, e15, e. split; [reflexivity|]. repeat split; apply S; assumption.
Qed.
Print Assumptions C187_study.
(** runs whose error is 1 / (number of cells) *)
Example C187_example : shell_study (fun _ _ N => Ok ([/ INR N], [0])) (fun _ _ => Ok ([0], [0])) =
  Ok [[/ INR 3; / INR 5; / INR 10; / INR 15]; [/ INR 10; / INR 10; / INR 10; / INR 10]] /\
  is_RInt (fun r => 4 * PI * r ^ 2 * plots_shell r 1) 0 2 (exp (- 1)).
Proof.
  assert (Q : forall n : nat, (1 <= n)%nat -> rms [/ INR n] [0 + 0] = Ok (/ INR n)).
  { intros n Hn. unfold rms, vsub, vop. cbn [length Nat.eqb map2 bind map rsum fold_right]. f_equal. change (INR 1) with 1.
    replace (((/ INR n - (0 + 0)) ^ 2 + 0) / 1) with ((/ INR n) ^ 2) by (set (y := / INR n); clearbody y; field). apply sqrt_pow2. apply Rlt_le, Rinv_0_lt_compat, lt_0_INR. lia. }
  split.
  - unfold shell_study, study, study_row. cbn [map_result bind vadd vop length Nat.eqb map2]. unfold vadd, vop. cbn [length Nat.eqb map2 bind]. rewrite !Q by lia. reflexivity.
  - assert (E : / 10 ^ 12 < / 2). { apply Rinv_lt_contravar; [apply Rmult_lt_0_compat; [lra|apply pow_lt; lra]|]. replace 2 with (2 ^ 1) by ring. apply Rlt_le_trans with (10 ^ 1); [lra|apply Rle_pow; [lra|lia]]. }
    eapply int_ext; [|apply (C187_total (scfg0 [] true false 1) 1 2)]; cbn [scfg0 sx0]; try lra.
    intros r. cbv beta. rewrite (proj1 (C187_copies (scfg0 [] true false 1) r 1 ltac:(cbn; lra))). reflexivity.
Qed.
