(** Existence of solutions of ordinary differential equations with a right-hand side that is Lipschitz in the state,
    continuous along continuous state functions; any set of components. *)
From Coquelicot Require Import Coquelicot.
From Verif Require Import Py PyLemmas Calc.

(** the nearest point of [a, b] *)
Definition clamp (a b t : R) : R := Rmax a (Rmin b t).
Lemma clamp_in a b t : a <= b -> a <= clamp a b t <= b.
Proof. intros. unfold clamp, Rmax, Rmin. repeat destruct (Rle_dec _ _); lra. Qed.
Lemma clamp_id a b t : a <= t <= b -> clamp a b t = t.
Proof. intros. unfold clamp, Rmax, Rmin. repeat destruct (Rle_dec _ _); lra. Qed.
Lemma clamp_lip a b s t : Rabs (clamp a b s - clamp a b t) <= Rabs (s - t).
Proof. unfold clamp, Rmax, Rmin. repeat destruct (Rle_dec _ _); unfold Rabs; repeat destruct (Rcase_abs _); lra. Qed.
Lemma clamp_cont a b t : continuous (clamp a b) t.
Proof.
  intros P [e He]. exists e. intros y Hy. apply He. unfold ball in *. cbn in *. unfold AbsRing_ball, abs, minus, plus, opp in *. cbn in *.
  pose proof (clamp_lip a b y t). unfold Rminus in *. lra.
Qed.

Lemma near_cont (f : R -> R) t : (forall e, 0 < e -> exists g : R -> R, continuous g t /\ forall s, Rabs (f s - g s) <= e) -> continuous f t.
Proof.
  intros H P [e He]. destruct (H (e / 3)) as (g & Hg & B). { destruct e; cbn; lra. }
  destruct (Hg (ball (g t) (mkposreal (e / 3) ltac:(destruct e; cbn; lra)))) as [d Hd]. { exists (mkposreal (e / 3) ltac:(destruct e; cbn; lra)). auto. }
  exists d. intros y Hy. apply He. specialize (Hd y Hy).
  unfold ball in *. cbn in *. unfold AbsRing_ball, abs, minus, plus, opp in *. cbn in *.
  pose proof (B y). pose proof (B t). unfold Rabs in *. repeat destruct (Rcase_abs _); lra.
Qed.

Lemma int_bound (f g : R -> R) (a b : R) : a <= b -> (forall z, continuous f z) -> (forall z, continuous g z) ->
  (forall z, a <= z <= b -> Rabs (f z) <= g z) -> Rabs (RInt f a b) <= RInt g a b.
Proof.
  intros H Hf Hg B. apply (norm_RInt_le f g a b); auto; apply int_val; auto.
Qed.

Lemma exp_le x y : x <= y -> exp x <= exp y.
Proof. intros [H| ->]; [left; now apply exp_increasing|right; auto]. Qed.
Lemma add_sub3 (a x p q : R) : a - (x + p) - (q - p) = a - (x + q).
Proof. ring. Qed.
Lemma add_sub (a b : R) : a + b - a = b.
Proof. ring. Qed.
Lemma add_sub2 (a b c : R) : a + b - (a + c) = b - c.
Proof. ring. Qed.

Section Picard.
Variables (I : Type) (F : R -> (I -> R) -> I -> R) (x0 : I -> R) (t0 t1 K B : R).
Hypothesis Hle : t0 <= t1.
Hypothesis HC : forall x : I -> R -> R, (forall i t, continuous (x i) t) -> forall i t, continuous (fun s => F (clamp t0 t1 s) (fun j => x j s) i) t.
Hypothesis HK : 0 <= K.
Hypothesis HL : forall t x y r, t0 <= t <= t1 -> (forall i, Rabs (x i - y i) <= r) -> forall i, Rabs (F t x i - F t y i) <= K * r.
Hypothesis HB : forall t i, t0 <= t <= t1 -> Rabs (F t x0 i) <= B.

Let cl := clamp t0 t1.

Fixpoint pic (n : nat) (i : I) (t : R) : R :=
  match n with
  | 0%nat => x0 i
  | S m => x0 i + RInt (fun s => F (cl s) (fun j => pic m j s) i) t0 (cl t)
  end.

Lemma prim_der (f : R -> R) : (forall z, continuous f z) -> forall t, is_derive (fun t => RInt f t0 t) t (f t).
Proof.
  intros Hf t. apply is_derive_RInt with (a := t0); auto.
  exists (mkposreal 1 Rlt_0_1). intros y _. apply int_val; auto.
Qed.

Lemma pic_cont n : forall i t, continuous (pic n i) t.
Proof.
  induction n as [|n IH]; intros i t; cbn [pic]; [apply cconst|].
  apply cplus; [apply cconst|].
  apply (ccomp (fun t => RInt (fun s => F (cl s) (fun j => pic n j s) i) t0 t) cl); [apply clamp_cont|].
  eapply cont_of_derive. intros z. apply prim_der. intros w. now apply HC.
Qed.
Lemma picF_cont n i t : continuous (fun s => F (cl s) (fun j => pic n j s) i) t.
Proof. apply HC. intros; apply pic_cont. Qed.

Let L := t1 - t0.
Let C := B * L * exp (2 * K * L).
Let ex s := exp (2 * K * (cl s - t0)).

Lemma B_pos (i : I) : 0 <= B.
Proof. eapply Rle_trans; [apply Rabs_pos|apply (HB t0 i)]; lra. Qed.

Lemma exp_int c t : t0 <= t -> t <= t1 -> RInt (fun s => c * (K * exp (2 * K * (s - t0)))) t0 t = c * ((exp (2 * K * (t - t0)) - 1) / 2).
Proof.
  intros. apply int_uniq. apply int_scal.
  eapply int_eq; [apply (int_ftc (fun s => / 2 * exp (2 * K * (s - t0))))|].
  - intros z. eapply dd_eq; [apply dd_scal; apply dd_exp; apply (dd_scal (fun s => s - t0)); apply dd_minus; [apply dd_id|apply dd_const]|]. cbv beta. field.
  - intros z. apply cmult; [apply cconst|]. apply cexp. apply cmult; [apply cconst|]. apply cminus; [apply cid|apply cconst].
  - replace (t0 - t0) with 0 by ring. rewrite Rmult_0_r, exp_0. field.
Qed.

Lemma pic_step n : forall i t, Rabs (pic (S n) i t - pic n i t) <= B * L * (/ 2) ^ n * ex t.
Proof.
  unfold ex. induction n as [|n IH]; intros i t.
  - pose proof (B_pos i) as BP. pose proof (clamp_in t0 t1 t Hle) as Hc. fold (cl t) in Hc.
    change (pic 1 i t) with (x0 i + RInt (fun s => F (cl s) (fun j => pic 0 j s) i) t0 (cl t)). change (pic 0 i t) with (x0 i). cbn [pow].
    rewrite add_sub.
    eapply Rle_trans; [apply (int_bound _ (fun _ => B)); [lra|intros; apply (picF_cont 0)|intros; apply cconst|]|].
    + intros z Hz. apply HB. apply clamp_in; auto.
    + rewrite (int_uniq _ _ _ _ (int_const B t0 (cl t))).
      assert (1 <= exp (2 * K * (cl t - t0))). { rewrite <- exp_0. apply exp_le. apply Rmult_le_pos; lra. }
      assert ((cl t - t0) * B <= B * L). { rewrite Rmult_comm. apply Rmult_le_compat_l; unfold L; lra. }
      assert (0 <= B * L) by (apply Rmult_le_pos; unfold L; lra).
      rewrite Rmult_1_r. eapply Rle_trans; [eassumption|]. rewrite <- (Rmult_1_r (B * L)) at 1. apply Rmult_le_compat_l; lra.
  - pose proof (B_pos i) as BP. pose proof (clamp_in t0 t1 t Hle) as Hc. fold (cl t) in Hc.
    change (pic (S (S n)) i t) with (x0 i + RInt (fun s => F (cl s) (fun j => pic (S n) j s) i) t0 (cl t)).
    change (pic (S n) i t) with (x0 i + RInt (fun s => F (cl s) (fun j => pic n j s) i) t0 (cl t)).
    replace (x0 i + _ - _) with (RInt (fun s => F (cl s) (fun j => pic (S n) j s) i - F (cl s) (fun j => pic n j s) i) t0 (cl t)).
    2: { rewrite add_sub2. apply int_uniq. apply int_minus; apply int_val; apply picF_cont. }
    eapply Rle_trans; [apply (int_bound _ (fun s => B * L * (/ 2) ^ n * (K * exp (2 * K * (s - t0))))); [lra| | |]|].
    + intros z. apply cminus; apply picF_cont.
    + intros z. apply cmult; [apply cconst|]. apply cmult; [apply cconst|]. apply cexp. apply cmult; [apply cconst|]. apply cminus; [apply cid|apply cconst].
    + intros z Hz. eapply Rle_trans; [apply HL with (r := B * L * (/ 2) ^ n * exp (2 * K * (z - t0)))|].
      * apply clamp_in; auto.
      * intros j. pose proof (IH j z) as Q. unfold cl in Q. rewrite (clamp_id t0 t1 z) in Q by lra. exact Q.
      * right. ring.
    + rewrite exp_int by lra. cbn [pow].
      assert (0 <= B * L * (/ 2) ^ n). { apply Rmult_le_pos; [apply Rmult_le_pos; unfold L; lra|apply pow_le; lra]. }
      replace (B * L * (/ 2 * (/ 2) ^ n) * exp (2 * K * (cl t - t0))) with (B * L * (/ 2) ^ n * (exp (2 * K * (cl t - t0)) / 2)) by field.
      apply Rmult_le_compat_l; lra.
Qed.

Lemma pic_step' n i t : Rabs (pic (S n) i t - pic n i t) <= C * (/ 2) ^ n.
Proof.
  pose proof (B_pos i) as BP. eapply Rle_trans; [apply pic_step|]. unfold C, ex.
  pose proof (clamp_in t0 t1 t Hle) as Hc. fold (cl t) in Hc.
  assert (0 <= B * L * (/ 2) ^ n). { apply Rmult_le_pos; [apply Rmult_le_pos; unfold L; lra|apply pow_le; lra]. }
  replace (B * L * exp (2 * K * L) * (/ 2) ^ n) with (B * L * (/ 2) ^ n * exp (2 * K * L)) by ring.
  apply Rmult_le_compat_l; auto. apply exp_le. apply Rmult_le_compat_l; unfold L; lra.
Qed.
Lemma C_pos (i : I) : 0 <= C.
Proof.
  pose proof (B_pos i). unfold C. apply Rmult_le_pos; [apply Rmult_le_pos; unfold L; lra|]. left. apply exp_pos.
Qed.
Lemma pic_far n p i t : Rabs (pic (n + p) i t - pic n i t) <= 2 * C * (/ 2) ^ n.
Proof.
  assert (Q : Rabs (pic (n + p) i t - pic n i t) <= 2 * C * (/ 2) ^ n - 2 * C * (/ 2) ^ (n + p)).
  { induction p as [|p IH].
    - rewrite Nat.add_0_r. replace (pic n i t - pic n i t) with 0 by ring. rewrite Rabs_R0. lra.
    - rewrite Nat.add_succ_r. pose proof (pic_step' (n + p) i t) as S1.
      replace (pic (S (n + p)) i t - pic n i t) with ((pic (S (n + p)) i t - pic (n + p) i t) + (pic (n + p) i t - pic n i t)) by ring.
      eapply Rle_trans; [apply Rabs_triang|]. replace ((/ 2) ^ S (n + p)) with ((/ 2) ^ (n + p) / 2) by (cbn [pow]; field). lra. }
  pose proof (C_pos i). assert (0 <= (/ 2) ^ (n + p)) by (apply pow_le; lra). pose proof (Rmult_le_pos _ _ H H0). lra.
Qed.

Lemma half_small c e : 0 <= c -> 0 < e -> exists n : nat, c * (/ 2) ^ n < e.
Proof.
  intros Hc He. destruct (pow_lt_1_zero (/ 2) ltac:(rewrite Rabs_pos_eq; lra) (e / (c + 1)) ltac:(apply Rdiv_lt_0_compat; lra)) as [N HN].
  exists N. specialize (HN N (le_n _)). rewrite Rabs_pos_eq in HN by (apply pow_le; lra).
  assert (0 <= (/ 2) ^ N) by (apply pow_le; lra).
  apply Rle_lt_trans with ((c + 1) * (/ 2) ^ N); [apply Rmult_le_compat_r; lra|].
  replace e with ((c + 1) * (e / (c + 1))) by (field; lra). apply Rmult_lt_compat_l; lra.
Qed.

Definition lim (i : I) (t : R) : R := real (Lim_seq (fun n => pic n i t)).
Lemma lim_is i t : is_lim_seq (fun n => pic n i t) (lim i t).
Proof.
  apply Lim_seq_correct'. apply ex_lim_seq_cauchy_corr. intros e.
  destruct (half_small (4 * C) e) as [N HN]; [pose proof (C_pos i); lra|destruct e; auto|].
  exists N. intros n m Hn Hm.
  replace n with (N + (n - N))%nat by lia. replace m with (N + (m - N))%nat by lia.
  pose proof (pic_far N (n - N) i t). pose proof (pic_far N (m - N) i t).
  unfold Rabs in *. repeat destruct (Rcase_abs _); lra.
Qed.
Lemma lim_near n i t : Rabs (lim i t - pic n i t) <= 2 * C * (/ 2) ^ n.
Proof.
  assert (Q : Rbar_le (Finite (Rabs (lim i t - pic n i t))) (Finite (2 * C * (/ 2) ^ n))); [|exact Q].
  apply is_lim_seq_le with (u := fun p => Rabs (pic (p + n) i t - pic n i t)) (v := fun _ => 2 * C * (/ 2) ^ n).
  - intros p. rewrite Nat.add_comm. apply pic_far.
  - apply (is_lim_seq_abs (fun p => pic (p + n) i t - pic n i t) (Finite (lim i t - pic n i t))).
    apply (is_lim_seq_minus' (fun p => pic (p + n) i t) (fun _ => pic n i t)); [|apply is_lim_seq_const].
    apply (is_lim_seq_incr_n (fun p => pic p i t)). apply lim_is.
  - apply is_lim_seq_const.
Qed.
Lemma lim_cont i t : continuous (lim i) t.
Proof.
  apply near_cont. intros e He. destruct (half_small (2 * C) e) as [N HN]; [pose proof (C_pos i); lra|auto|].
  exists (pic N i). split; [apply pic_cont|]. intros s. pose proof (lim_near N i s). lra.
Qed.
Lemma limF_cont i t : continuous (fun s => F (cl s) (fun j => lim j s) i) t.
Proof. apply HC. intros; apply lim_cont. Qed.

Lemma lim_eq i t : lim i t = x0 i + RInt (fun s => F (cl s) (fun j => lim j s) i) t0 (cl t).
Proof.
  apply Rminus_diag_uniq. set (d := lim i t - _). destruct (Req_dec d 0) as [|N]; auto. exfalso.
  assert (0 < Rabs d) by (now apply Rabs_pos_lt).
  pose proof (clamp_in t0 t1 t Hle) as Hc. fold (cl t) in Hc. pose proof (C_pos i) as CP.
  assert (Lp : 0 <= L) by (unfold L; lra).
  assert (0 <= K * L * (2 * C)) by (apply Rmult_le_pos; [apply Rmult_le_pos; lra|lra]).
  destruct (half_small (2 * C + K * L * (2 * C)) (Rabs d)) as [n Hn]; [lra|auto|].
  assert (Q : Rabs d <= (2 * C + K * L * (2 * C)) * (/ 2) ^ n); [|lra].
  replace d with ((lim i t - pic (S n) i t) - RInt (fun s => F (cl s) (fun j => lim j s) i - F (cl s) (fun j => pic n j s) i) t0 (cl t)).
  2: { rewrite (int_uniq _ _ _ _ (int_minus _ _ _ _ _ _ (int_val _ t0 (cl t) (limF_cont i)) (int_val _ t0 (cl t) (picF_cont n i)))).
       unfold d. cbn [pic]. apply add_sub3. }
  eapply Rle_trans; [apply Rabs_triang|]. rewrite Rabs_Ropp.
  pose proof (lim_near (S n) i t) as E1. replace ((/ 2) ^ S n) with ((/ 2) ^ n / 2) in E1 by (cbn [pow]; field).
  assert (P2 : 0 <= (/ 2) ^ n) by (apply pow_le; lra). pose proof (Rmult_le_pos _ _ CP P2).
  assert (E2 : Rabs (RInt (fun s => F (cl s) (fun j => lim j s) i - F (cl s) (fun j => pic n j s) i) t0 (cl t)) <= K * L * (2 * C) * (/ 2) ^ n).
  { eapply Rle_trans; [apply (int_bound _ (fun _ => K * (2 * C * (/ 2) ^ n))); [lra| | |]|].
    - intros z. apply cminus; [apply limF_cont|apply picF_cont].
    - intros; apply cconst.
    - intros z Hz. apply HL; [apply clamp_in; auto|]. intros j. apply lim_near.
    - rewrite (int_uniq _ _ _ _ (int_const _ t0 (cl t))).
      replace (K * L * (2 * C) * (/ 2) ^ n) with (L * (K * (2 * C * (/ 2) ^ n))) by ring.
      apply Rmult_le_compat_r; [|unfold L; lra]. apply Rmult_le_pos; auto. lra. }
  lra.
Qed.

Theorem picard : exists x : I -> R -> R, (forall i, x i t0 = x0 i) /\
  forall t, t0 <= t <= t1 -> forall i, is_derive (x i) t (F t (fun j => x j t) i).
Proof.
  exists (fun i t => x0 i + RInt (fun s => F (cl s) (fun j => lim j s) i) t0 t). split.
  - intros i. rewrite RInt_point. unfold zero. cbn. ring.
  - intros t Ht i.
    assert (E : forall j, x0 j + RInt (fun s => F (cl s) (fun k => lim k s) j) t0 t = lim j t).
    { intros j. rewrite (lim_eq j t). unfold cl at 3. rewrite (clamp_id t0 t1 t) by auto. reflexivity. }
    eapply dd_eq; [apply dd_plus; [apply dd_const|apply prim_der; apply limF_cont]|].
    unfold cl. rewrite (clamp_id t0 t1 t) by auto. rewrite Rplus_0_l.
    apply Rminus_diag_uniq. apply Rabs_eq_0. apply Rle_antisym; [|apply Rabs_pos].
    rewrite <- (Rmult_0_r K). apply HL; auto. intros j. fold cl. rewrite E. replace (lim j t - lim j t) with 0 by ring. rewrite Rabs_R0. lra.
Qed.
End Picard.
