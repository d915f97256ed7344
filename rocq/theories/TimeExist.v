(** Short steps of any Runge-Kutta method, implicit or not, exist and are unique. *)
From Coquelicot Require Import Coquelicot.
From Coq Require Import FunctionalExtensionality.
From Verif Require Import Py PyLemmas Calc Picard ExistProofs StabProofs TimeModel TimeProofs.
Open Scope R_scope.

(** sequences whose steps halve converge *)
Lemma halving (u : nat -> R) B : 0 <= B -> (forall n, Rabs (u (S n) - u n) <= B * (/ 2) ^ n) -> exists x, forall n, Rabs (x - u n) <= 2 * B * (/ 2) ^ n.
Proof.
  intros PB H.
  assert (Far : forall n p, Rabs (u (n + p)%nat - u n) <= 2 * B * (/ 2) ^ n).
  { intros n p. assert (Q : Rabs (u (n + p)%nat - u n) <= 2 * B * (/ 2) ^ n - 2 * B * (/ 2) ^ (n + p)).
    { induction p as [|p IH].
      - rewrite Nat.add_0_r. replace (u n - u n) with 0 by ring. rewrite Rabs_R0. lra.
      - rewrite Nat.add_succ_r. pose proof (H (n + p)%nat) as S1.
        replace (u (S (n + p)) - u n) with ((u (S (n + p)) - u (n + p)%nat) + (u (n + p)%nat - u n)) by ring.
        eapply Rle_trans; [apply Rabs_triang|]. replace ((/ 2) ^ S (n + p)) with ((/ 2) ^ (n + p) / 2) by (cbn [pow]; field). lra. }
    assert (0 <= (/ 2) ^ (n + p)) by (apply pow_le; lra). pose proof (Rmult_le_pos _ _ PB H0). lra. }
  assert (L : is_lim_seq u (real (Lim_seq u))).
  { apply Lim_seq_correct'. apply ex_lim_seq_cauchy_corr. intros e.
    destruct (half_small (4 * B) e) as [N HN]; [lra|destruct e; auto|].
    exists N. intros n m Hn Hm. replace n with (N + (n - N))%nat by lia. replace m with (N + (m - N))%nat by lia.
    pose proof (Far N (n - N)%nat). pose proof (Far N (m - N)%nat). unfold Rabs in *. repeat destruct (Rcase_abs _); lra. }
  exists (real (Lim_seq u)). intros n.
  assert (Q : Rbar_le (Finite (Rabs (real (Lim_seq u) - u n))) (Finite (2 * B * (/ 2) ^ n))); [|exact Q].
  apply is_lim_seq_le with (u := fun p => Rabs (u (p + n)%nat - u n)) (v := fun _ => 2 * B * (/ 2) ^ n).
  - intros p. rewrite Nat.add_comm. apply Far.
  - apply (is_lim_seq_abs (fun p => u (p + n)%nat - u n) (Finite (real (Lim_seq u) - u n))).
    apply (is_lim_seq_minus' (fun p => u (p + n)%nat) (fun _ => u n)); [|apply is_lim_seq_const].
    apply (is_lim_seq_incr_n u). exact L.
  - apply is_lim_seq_const.
Qed.
Section S.
Variable I : Type.
Variables t0 t1 : R.
Hypothesis Hle : t0 <= t1.
Variable l : list I.
Variable F : R -> (I -> R) -> I -> R.
Hypothesis HF : forall i, In i l -> LF I t0 t1 (fun t x => F t x i).
Hypothesis HO : forall i, In i l \/ forall t x, F t x i = 0.
Variable T : tableau.
Hypothesis HT : forall i, (i < rs T)%nat -> 0 <= rc T i <= 1.
Let A := sumn (rs T) (fun i => sumn (rs T) (fun j => Rabs (rA T i j))).
Lemma stage_near h (y : I -> R) k k' m i p : 0 <= h -> (i < rs T)%nat -> (forall j, (j < rs T)%nat -> Rabs (k j p - k' j p) <= m) -> 0 <= m ->
  Rabs (stage T h y k i p - stage T h y k' i p) <= h * A * m.
Proof.
  intros Hh Hi H Hm. unfold stage.
  replace (y p + h * sumn (rs T) (fun j => rA T i j * k j p) - (y p + h * sumn (rs T) (fun j => rA T i j * k' j p))) with (h * sumn (rs T) (fun j => rA T i j * (k j p - k' j p))).
  2: { rewrite (sumn_ext _ (fun j => rA T i j * (k j p - k' j p)) (fun j => rA T i j * k j p - rA T i j * k' j p)) by (intros; ring). rewrite sumn_minus. ring. }
  rewrite Rabs_mult, (Rabs_pos_eq h), Rmult_assoc by auto. apply Rmult_le_compat_l; auto.
  eapply Rle_trans; [apply (sum_bound (rs T) (fun j => rA T i j) (fun j => k j p - k' j p) m H)|]. apply Rmult_le_compat_r; auto. apply A_row; auto.
Qed.
Theorem rk_exists : exists delta, 0 < delta /\ forall t h y, t0 <= t -> 0 <= h <= delta -> t + h <= t1 ->
  (exists y', rk_step T F t h y y') /\ forall y' y'', rk_step T F t h y y' -> rk_step T F t h y y'' -> forall p, y' p = y'' p.
Proof.
  destruct (lip I t0 t1 l F HF HO) as (K & PK & HL).
  assert (PA : 0 <= A) by apply A_pos.
  exists (/ (2 * (K * A + 1))). assert (P1 : 0 <= K * A) by (now apply Rmult_le_pos).
  split; [apply Rinv_0_lt_compat; lra|]. intros t h y Ht Hh Ht1.
  assert (Hs : h * (K * A) <= / 2).
  { apply (Rle_trans _ (/ (2 * (K * A + 1)) * (K * A))); [apply Rmult_le_compat_r; lra|].
    apply (Rmult_le_reg_l (2 * (K * A + 1))); [lra|]. rewrite <- Rmult_assoc, Rinv_r by lra. lra. }
  assert (TI : forall i, (i < rs T)%nat -> t0 <= t + rc T i * h <= t1).
  { intros i Hi. specialize (HT i Hi). assert (0 <= rc T i * h <= 1 * h) by (split; [apply Rmult_le_pos; lra|apply Rmult_le_compat_r; lra]). lra. }
  pose (Phi := fun (k : nat -> I -> R) i p => F (t + rc T i * h) (stage T h y k i) p).
  assert (CT : forall k k' m, 0 <= m -> (forall j p, (j < rs T)%nat -> Rabs (k j p - k' j p) <= m) -> forall i p, (i < rs T)%nat -> Rabs (Phi k i p - Phi k' i p) <= m / 2).
  { intros k k' m Hm H i p Hi. unfold Phi. eapply Rle_trans; [apply (HL p _ _ _ (h * A * m)); auto|].
    - apply Rmult_le_pos; auto. apply Rmult_le_pos; lra.
    - intros q. apply stage_near; auto; lra.
    - replace (K * (h * A * m)) with (h * (K * A) * m) by ring. assert (h * (K * A) * m <= / 2 * m) by (now apply Rmult_le_compat_r). lra. }
  split.
  - pose (it := fix it n := match n with 0%nat => fun (_ : nat) (_ : I) => 0 | S n => Phi (it n) end).
    destruct (largest (list_prod (seq 0 (rs T)) l) (fun ip => it 1%nat (fst ip) (snd ip))) as (B & PB & HB & _).
    assert (B1 : forall i p, (i < rs T)%nat -> Rabs (it 1%nat i p) <= B).
    { intros i p Hi. destruct (HO p) as [Q|Q]; [apply (HB (i, p)); apply in_prod; auto; apply in_seq; lia|].
      cbn [it]. unfold Phi. rewrite Q, Rabs_R0. auto. }
    assert (ST : forall n i p, (i < rs T)%nat -> Rabs (it (S n) i p - it n i p) <= B * (/ 2) ^ n).
    { induction n as [|n IH]; intros i p Hi; [cbn [pow]; rewrite Rmult_1_r; replace (it 1%nat i p - it 0%nat i p) with (it 1%nat i p) by (cbn [it]; ring); auto|].
      replace (B * (/ 2) ^ S n) with (B * (/ 2) ^ n / 2) by (cbn [pow]; field).
      change (it (S (S n)) i p) with (Phi (it (S n)) i p). change (it (S n) i p) with (Phi (it n) i p). apply CT; auto. apply Rmult_le_pos; auto. apply pow_le; lra. }
    pose (kk := fun i p => real (Lim_seq (fun n => it n i p))).
    assert (NR : forall n i p, (i < rs T)%nat -> Rabs (kk i p - it n i p) <= 2 * B * (/ 2) ^ n).
    { intros n i p Hi. destruct (halving (fun n => it n i p) B PB) as (x & Hx); [intros m; now apply ST|]. 
      replace (kk i p) with x; [apply Hx|]. unfold kk. replace (Lim_seq (fun n0 => it n0 i p)) with (Finite x); [reflexivity|]. symmetry. apply is_lim_seq_unique.
      apply is_lim_seq_spec. intros e. destruct (half_small (2 * B) e) as [N HN]; [lra|destruct e; auto|]. exists N. intros m Hm. rewrite Rabs_minus_sym.
      eapply Rle_lt_trans; [apply Hx|]. eapply Rle_lt_trans; [|exact HN]. apply Rmult_le_compat_l; [lra|]. replace m with (N + (m - N))%nat by lia. rewrite pow_add.
      assert (0 <= (/ 2) ^ N) by (apply pow_le; lra). rewrite <- (Rmult_1_r ((/ 2) ^ N)) at 2. apply Rmult_le_compat_l; auto.
      rewrite <- (pow1 (m - N)). apply pow_incr. lra. }
    assert (FX : forall i p, (i < rs T)%nat -> kk i p = Phi kk i p).
    { intros i p Hi. apply Rminus_diag_uniq. destruct (Req_dec (kk i p - Phi kk i p) 0) as [|N]; auto. exfalso.
      assert (PD : 0 < Rabs (kk i p - Phi kk i p)) by (now apply Rabs_pos_lt).
      destruct (half_small (2 * B) (Rabs (kk i p - Phi kk i p))) as [n Hn]; [lra|auto|].
      assert (E1 := NR (S n) i p Hi). assert (P2 : 0 <= 2 * B * (/ 2) ^ n) by (apply Rmult_le_pos; [lra|apply pow_le; lra]).
      assert (E2 := CT (it n) kk _ P2 ltac:(intros j q Hj; rewrite Rabs_minus_sym; now apply NR) i p Hi).
      change (Phi (it n) i p) with (it (S n) i p) in E2. replace (2 * B * (/ 2) ^ S n) with (2 * B * (/ 2) ^ n / 2) in E1 by (cbn [pow]; field).
      assert (Rabs (kk i p - Phi kk i p) <= Rabs (kk i p - it (S n) i p) + Rabs (it (S n) i p - Phi kk i p)).
      { replace (kk i p - Phi kk i p) with ((kk i p - it (S n) i p) + (it (S n) i p - Phi kk i p)) by ring. apply Rabs_triang. }
      lra. }
    exists (fun p => y p + h * sumn (rs T) (fun i => rb T i * kk i p)), kk. split; [|intros p; reflexivity]. intros i p Hi. now apply FX.
  - intros y' y'' (k & Hk & Ry) (k' & Hk' & Ry') p. rewrite Ry, Ry'. f_equal. f_equal.
    destruct (largest (list_prod (seq 0 (rs T)) l) (fun ip => k (fst ip) (snd ip) - k' (fst ip) (snd ip))) as (m & Pm & Hm & Qm).
    assert (M : forall j q, (j < rs T)%nat -> Rabs (k j q - k' j q) <= m).
    { intros j q Hj. destruct (HO q) as [Q|Q]; [apply (Hm (j, q)); apply in_prod; auto; apply in_seq; lia|].
      rewrite Hk, Hk', !Q, Rminus_eq_0, Rabs_R0 by auto. auto. }
    assert (m = 0) as ->.
    { destruct Qm as [|([j q] & Hj & E)]; auto. apply in_prod_iff in Hj. destruct Hj as [Hj _]. apply in_seq in Hj. cbn [fst snd] in E.
      assert (X := CT k k' m Pm M j q ltac:(lia)). unfold Phi in X. rewrite <- Hk, <- Hk', <- E in X by lia. lra. }
    apply sumn_ext. intros j Hj. f_equal. specialize (M j p Hj). apply Rminus_diag_uniq. destruct (Req_dec (k j p - k' j p) 0) as [|N]; auto. apply Rabs_pos_lt in N. lra.
Qed.
Theorem rk_exists_run : exists delta, 0 < delta /\ forall hs t y, t0 <= t -> (forall h, In h hs -> 0 <= h <= delta) -> t + total hs <= t1 ->
  exists y', rk_run T F t y hs y' /\ forall y'', rk_run T F t y hs y'' -> forall p, y'' p = y' p.
Proof.
  destruct rk_exists as (d & Pd & H). exists d. split; auto. induction hs as [|h hs IH]; intros t y Ht Hh Hs.
  - exists y. split; [intros p; reflexivity|]. intros y'' Q. exact Q.
  - cbn [total] in Hs. assert (P : 0 <= total hs). { clear -Hh. induction hs as [|a hs IH]; cbn [total]; [lra|]. assert (0 <= a) by (apply (Hh a); right; now left). assert (0 <= total hs); [|lra]. apply IH. intros x [->|Hx]; apply Hh; [now left|right; now right]. }
    assert (Hh0 := Hh h (or_introl eq_refl)).
    destruct (H t h y Ht Hh0 ltac:(lra)) as [(y1 & S1) U1].
    destruct (IH (t + h) y1 ltac:(lra)) as (y' & R1 & U); [intros x Hx; apply Hh; now right|lra|].
    exists y'. split; [exists y1; auto|]. intros y'' (y2 & S2 & R2). replace y2 with y1 in R2 by (apply functional_extensionality; intros p; now apply (U1 y1 y2)). now apply U.
Qed.
End S.
