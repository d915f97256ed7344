(** Runge-Kutta methods converge to the trajectories of the systems of ExistProofs. *)
From Coquelicot Require Import Coquelicot.
From Verif Require Import Py PyLemmas Calc Picard ExistProofs StabProofs TimeModel.
Open Scope R_scope.

Section C.
Variable I : Type.
Variables t0 t1 : R.
Hypothesis Hle : t0 <= t1.
Let cl := clamp t0 t1.
Variable l : list I.
Variable F : R -> (I -> R) -> I -> R.
Hypothesis HF : forall i, In i l -> LF I t0 t1 (fun t x => F t x i).
Hypothesis HO : forall i, In i l \/ forall t x, F t x i = 0.
Variable x : I -> R -> R.
Hypothesis HX : forall t i, t0 <= t <= t1 -> is_derive (x i) t (F t (fun j => x j t) i).
Let G i t := F t (fun j => x j t) i.

Lemma lip : exists K, 0 <= K /\ forall i t u v r, t0 <= t <= t1 -> 0 <= r -> (forall j, Rabs (u j - v j) <= r) -> Rabs (F t u i - F t v i) <= K * r.
Proof.
  assert (HK : exists K, 0 <= K /\ forall i, In i l -> forall t u v r, t0 <= t <= t1 -> 0 <= r -> (forall j, Rabs (u j - v j) <= r) -> Rabs (F t u i - F t v i) <= K * r).
  { clear HO HX. induction l as [|a l' IH]; [exists 0; split; [lra|intros i []]|].
    destruct IH as (K & P & H). { intros i Hi. apply HF. now right. }
    destruct (HF a (or_introl eq_refl)) as [_ (K2 & P2 & H2)]. exists (K + K2). split; [lra|].
    intros i [->|Hi] t u v r Ht Hr Hx.
    - specialize (H2 t u v r Ht Hr Hx). pose proof (Rmult_le_pos _ _ P Hr). lra.
    - specialize (H i Hi t u v r Ht Hr Hx). pose proof (Rmult_le_pos _ _ P2 Hr). lra. }
  destruct HK as (K & P & H). exists K. split; auto. intros i t u v r Ht Hr Hj. destruct (HO i) as [Q|Q]; [now apply H|].
  rewrite !Q, Rminus_eq_0, Rabs_R0. now apply Rmult_le_pos.
Qed.
Lemma G_cont i : In i l -> forall s, continuous (fun s => G i (cl s)) s.
Proof.
  intros Hi s. destruct (HF i Hi) as [C _]. apply (C (fun j s => x j (cl s))).
  intros j u. apply (ccomp (x j) cl); [apply clamp_cont|]. apply (ex_derive_continuous (x j)). eexists. apply HX. now apply clamp_in.
Qed.
Lemma G_bound : exists B, 0 <= B /\ forall i t, t0 <= t <= t1 -> Rabs (G i t) <= B.
Proof.
  assert (HB : exists B, 0 <= B /\ forall i, In i l -> forall t, t0 <= t <= t1 -> Rabs (G i t) <= B).
  { assert (K : forall m, (forall i, In i m -> In i l) -> exists B, 0 <= B /\ forall i, In i m -> forall t, t0 <= t <= t1 -> Rabs (G i t) <= B).
    { induction m as [|a m IH]; intros Hm; [exists 0; split; [lra|intros i []]|].
      destruct IH as (B & P & H); [intros; apply Hm; now right|].
      destruct (Cc_bounded t0 t1 Hle (G a)) as (B2 & P2 & H2); [intros s; apply G_cont; apply Hm; now left|].
      exists (B + B2). split; [lra|]. intros i [->|Hi] t Ht; [specialize (H2 t Ht)|specialize (H i Hi t Ht)]; lra. }
    apply K; auto. }
  destruct HB as (B & P & H). exists B. split; auto. intros i t Ht. destruct (HO i) as [Q|Q]; [now apply H|].
  unfold G. rewrite Q, Rabs_R0. auto.
Qed.
Lemma G_unif eps : 0 < eps -> exists d, 0 < d /\ forall i s t, t0 <= s <= t1 -> t0 <= t <= t1 -> Rabs (s - t) <= d -> Rabs (G i s - G i t) <= eps.
Proof.
  intros He.
  assert (K : forall m, (forall i, In i m -> In i l) -> exists d, 0 < d /\ forall i, In i m -> forall s t, t0 <= s <= t1 -> t0 <= t <= t1 -> Rabs (s - t) <= d -> Rabs (G i s - G i t) <= eps).
  { induction m as [|a m IH]; intros Hm; [exists 1; split; [lra|intros i []]|].
    destruct IH as (d & P & H); [intros; apply Hm; now right|].
    destruct (@Heine_cor2 (fun s => G a (cl s)) t0 t1) with (eps := mkposreal eps He) as (d2 & H2).
    { intros s _. apply continuity_pt_filterlim. apply G_cont. apply Hm. now left. }
    assert (P2 := cond_pos d2). exists (Rmin d (d2 / 2)). split; [apply Rmin_pos; lra|].
    intros i [->|Hi] s t Hs Ht Hst.
    - left. pose proof (Rmin_r d (d2 / 2)). specialize (H2 s t Hs Ht ltac:(lra)). cbv beta in H2. unfold cl in H2. rewrite !clamp_id in H2 by auto. exact H2.
    - pose proof (Rmin_l d (d2 / 2)). apply H; auto. lra. }
  destruct (K l) as (d & P & H); auto. exists d. split; auto. intros i s t Hs Ht Hst. destruct (HO i) as [Q|Q]; [now apply H|].
  unfold G. rewrite !Q, Rminus_eq_0, Rabs_R0. lra.
Qed.
Lemma x_lip B : (forall i t, t0 <= t <= t1 -> Rabs (G i t) <= B) -> forall i s t, t0 <= s <= t -> t <= t1 -> Rabs (x i t - x i s) <= B * (t - s).
Proof.
  intros HB i s t Hs Ht. destruct (MVT_gen (x i) s t (G i)) as (c & Hc & E).
  - intros u Hu. rewrite Rmin_left, Rmax_right in Hu by lra. apply HX. lra.
  - intros u Hu. rewrite Rmin_left, Rmax_right in Hu by lra. apply continuity_pt_filterlim, (ex_derive_continuous (x i)). eexists. apply HX. lra.
  - rewrite Rmin_left, Rmax_right in Hc by lra. rewrite E, Rabs_mult, (Rabs_pos_eq (t - s)) by lra. apply Rmult_le_compat_r; [lra|]. apply HB. lra.
Qed.
Lemma x_step i s t : t0 <= s <= t -> t <= t1 -> exists c, s <= c <= t /\ x i t - x i s = (t - s) * G i c.
Proof.
  intros Hs Ht. destruct (MVT_gen (x i) s t (G i)) as (c & Hc & E).
  - intros u Hu. rewrite Rmin_left, Rmax_right in Hu by lra. apply HX. lra.
  - intros u Hu. rewrite Rmin_left, Rmax_right in Hu by lra. apply continuity_pt_filterlim, (ex_derive_continuous (x i)). eexists. apply HX. lra.
  - rewrite Rmin_left, Rmax_right in Hc by lra. exists c. split; auto. rewrite E. ring.
Qed.
Lemma sumn_ge_term n f i : (i < n)%nat -> (forall j, (j < n)%nat -> 0 <= f j) -> f i <= sumn n f.
Proof.
  induction n as [|n IH]; intros Hi H; [lia|]. cbn [sumn]. destruct (Nat.eq_dec i n) as [->|N].
  - assert (0 <= sumn n f) by (apply sumn_nonneg; intros; apply H; lia). lra.
  - specialize (IH ltac:(lia) ltac:(intros; apply H; lia)). specialize (H n ltac:(lia)). lra.
Qed.
(** a largest entry *)
Lemma largest {A} (m : list A) (f : A -> R) : exists M, 0 <= M /\ (forall a, In a m -> Rabs (f a) <= M) /\ (M = 0 \/ exists a, In a m /\ M = Rabs (f a)).
Proof.
  induction m as [|a m (M & P & H & Q)]; [exists 0; split; [lra|split; [intros a []|now left]]|].
  destruct (Rle_lt_dec (Rabs (f a)) M) as [L|L].
  - exists M. split; auto. split; [intros b [<-|Hb]; auto|]. destruct Q as [Q|(b & Hb & Q)]; [now left|right; exists b; split; [now right|auto]].
  - exists (Rabs (f a)). split; [apply Rabs_pos|]. split; [intros b [<-|Hb]; [lra|specialize (H b Hb); lra]|]. right. exists a. split; [now left|reflexivity].
Qed.
Variable T : tableau.
Hypothesis HT : consistent T.
Let A := sumn (rs T) (fun i => sumn (rs T) (fun j => Rabs (rA T i j))).
Let be := sumn (rs T) (fun i => Rabs (rb T i)).
Lemma A_pos : 0 <= A.
Proof. apply sumn_nonneg. intros. apply sumn_nonneg. intros. apply Rabs_pos. Qed.
Lemma be_pos : 0 <= be.
Proof. apply sumn_nonneg. intros. apply Rabs_pos. Qed.
Lemma A_row i : (i < rs T)%nat -> sumn (rs T) (fun j => Rabs (rA T i j)) <= A.
Proof.
  intros Hi. apply (sumn_ge_term (rs T) (fun i => sumn (rs T) (fun j => Rabs (rA T i j)))); auto. intros. apply sumn_nonneg. intros. apply Rabs_pos.
Qed.
Lemma sum_bound n (a v : nat -> R) M : (forall j, (j < n)%nat -> Rabs (v j) <= M) -> Rabs (sumn n (fun j => a j * v j)) <= sumn n (fun j => Rabs (a j)) * M.
Proof.
  intros H. eapply Rle_trans; [apply sumn_abs|]. rewrite <- sumn_scal_r. apply sumn_le. intros j Hj. rewrite Rabs_mult. apply Rmult_le_compat_l; [apply Rabs_pos|auto].
Qed.

Lemma step_error K B d1 e1 : 0 <= K -> 0 <= B ->
  (forall i t u v r, t0 <= t <= t1 -> 0 <= r -> (forall j, Rabs (u j - v j) <= r) -> Rabs (F t u i - F t v i) <= K * r) ->
  (forall i t, t0 <= t <= t1 -> Rabs (G i t) <= B) ->
  (forall i s t, t0 <= s <= t1 -> t0 <= t <= t1 -> Rabs (s - t) <= d1 -> Rabs (G i s - G i t) <= e1) -> d1 * (K * A) <= 1 / 2 ->
  forall t h y y' e, 0 <= h <= d1 -> t0 <= t -> t + h <= t1 -> rk_step T F t h y y' -> (forall i, Rabs (y i - x i t) <= e) ->
  forall i, Rabs (y' i - x i (t + h)) <= (1 + h * (2 * K * be)) * e + h * (be * (2 * K * (A * B + B) * d1) + (be + 1) * e1).
Proof.
  intros HK PB HL HB HU Hd t h y y' e Hh Ht Hth (k & Hk & Hy) He p.
  assert (e0 : 0 <= e) by (eapply Rle_trans; [apply Rabs_pos|apply (He p)]).
  assert (PA := A_pos). assert (Pb := be_pos). destruct HT as [T1 T2].
  assert (TI : forall i, (i < rs T)%nat -> t <= t + rc T i * h <= t + h).
  { intros i Hi. specialize (T2 i Hi). split; [pose proof (Rmult_le_pos (rc T i) h); lra|]. assert (rc T i * h <= 1 * h) by (apply Rmult_le_compat_r; lra). lra. }
  destruct (largest (list_prod (seq 0 (rs T)) l) (fun ip => k (fst ip) (snd ip) - G (snd ip) (t + rc T (fst ip) * h))) as (m & Pm & Hm & Qm).
  assert (Hm' : forall i q, (i < rs T)%nat -> Rabs (k i q - G q (t + rc T i * h)) <= m).
  { intros i q Hi. destruct (HO q) as [Q|Q].
    - apply (Hm (i, q)). apply in_prod; auto. apply in_seq. lia.
    - rewrite Hk by auto. unfold G. rewrite !Q, Rminus_eq_0, Rabs_R0. auto. }
  assert (St : forall i q, (i < rs T)%nat -> Rabs (stage T h y k i q - x q (t + rc T i * h)) <= e + h * (A * (m + B)) + B * h).
  { intros i q Hi. unfold stage. specialize (TI i Hi).
    replace (y q + h * sumn (rs T) (fun j => rA T i j * k j q) - x q (t + rc T i * h)) with
      ((y q - x q t) + h * sumn (rs T) (fun j => rA T i j * k j q) + - (x q (t + rc T i * h) - x q t)) by ring.
    eapply Rle_trans; [apply Rabs_triang|]. apply Rplus_le_compat.
    - eapply Rle_trans; [apply Rabs_triang|]. apply Rplus_le_compat; [apply He|]. rewrite Rabs_mult, (Rabs_pos_eq h) by lra. apply Rmult_le_compat_l; [lra|].
      eapply Rle_trans; [apply (sum_bound (rs T) (rA T i) (fun j => k j q) (m + B))|].
      + intros j Hj. replace (k j q) with ((k j q - G q (t + rc T j * h)) + G q (t + rc T j * h)) by ring.
        eapply Rle_trans; [apply Rabs_triang|]. apply Rplus_le_compat; [now apply Hm'|]. apply HB.
        assert (Q := T2 j Hj). assert (rc T j * h <= 1 * h) by (apply Rmult_le_compat_r; lra). pose proof (Rmult_le_pos (rc T j) h). lra.
      + apply Rmult_le_compat_r; [lra|]. now apply A_row.
    - rewrite Rabs_Ropp. eapply Rle_trans; [apply (x_lip B HB); lra|]. apply Rmult_le_compat_l; lra. }
  assert (M1 : m <= K * (e + h * (A * (m + B)) + B * h)).
  { assert (N : 0 <= e + h * (A * (m + B)) + B * h).
    { assert (0 <= h * (A * (m + B))) by (apply Rmult_le_pos; [lra|]; apply Rmult_le_pos; lra). assert (0 <= B * h) by (apply Rmult_le_pos; lra). lra. }
    destruct Qm as [Em|([i q] & Hin & Em)]; [rewrite Em at 1; now apply Rmult_le_pos|]. rewrite Em at 1. cbn [fst snd]. apply in_prod_iff in Hin. destruct Hin as [Hi Hq]. apply in_seq in Hi.
    rewrite (Hk i q) by lia. unfold G at 1. apply HL.
    - specialize (TI i ltac:(lia)). lra.
    - exact N.
    - intros j. apply St. lia. }
  assert (M2 : m <= 2 * K * e + 2 * K * (A * B + B) * d1).
  { assert (Q1 : h * (K * A) * m <= 1 / 2 * m).
    { apply Rmult_le_compat_r; auto. eapply Rle_trans; [|exact Hd]. apply Rmult_le_compat_r; [now apply Rmult_le_pos|lra]. }
    assert (Q2 : h * (K * (A * B + B)) <= d1 * (K * (A * B + B))).
    { apply Rmult_le_compat_r; [|lra]. apply Rmult_le_pos; auto. assert (0 <= A * B) by now apply Rmult_le_pos. lra. }
    nra. }
  (* the sum of the slopes *)
  assert (S1 : Rabs (sumn (rs T) (fun i => rb T i * (k i p - G p t))) <= be * (m + e1)).
  { apply sum_bound. intros i Hi. replace (k i p - G p t) with ((k i p - G p (t + rc T i * h)) + (G p (t + rc T i * h) - G p t)) by ring.
    eapply Rle_trans; [apply Rabs_triang|]. specialize (TI i Hi). apply Rplus_le_compat; [now apply Hm'|]. apply HU; try lra.
    rewrite Rabs_pos_eq by lra. lra. }
  destruct (x_step p t (t + h)) as (c & Hc & Ec); [lra|lra|].
  assert (S2 : Rabs (G p c - G p t) <= e1) by (apply HU; try lra; rewrite Rabs_pos_eq; lra).
  rewrite Hy.
  replace (y p + h * sumn (rs T) (fun i => rb T i * k i p) - x p (t + h)) with
    ((y p - x p t) + h * sumn (rs T) (fun i => rb T i * (k i p - G p t)) + - (h * (G p c - G p t))).
  2: { rewrite (sumn_ext (rs T) (fun i => rb T i * (k i p - G p t)) (fun i => rb T i * k i p - rb T i * G p t)) by (intros; ring).
       rewrite sumn_minus, sumn_scal_r, T1. replace (x p (t + h)) with (x p t + (t + h - t) * G p c) by lra. ring. }
  eapply Rle_trans; [apply Rabs_triang|]. rewrite Rabs_Ropp, Rabs_mult, (Rabs_pos_eq h) by lra.
  assert (Z1 : Rabs (y p - x p t + h * sumn (rs T) (fun i => rb T i * (k i p - G p t))) <= e + h * (be * (m + e1))).
  { eapply Rle_trans; [apply Rabs_triang|]. rewrite Rabs_mult, (Rabs_pos_eq h) by lra. apply Rplus_le_compat; [apply He|]. apply Rmult_le_compat_l; lra. }
  assert (Z2 : h * Rabs (G p c - G p t) <= h * e1) by (apply Rmult_le_compat_l; lra).
  assert (Z3 : h * (be * m) <= h * (be * (2 * K * e + 2 * K * (A * B + B) * d1))) by (apply Rmult_le_compat_l; [lra|]; apply Rmult_le_compat_l; lra).
  nra.
Qed.

Fixpoint total (hs : list R) : R := match hs with nil => 0 | h :: r => h + total r end.
Theorem rk_converges eps : 0 < eps -> exists delta, 0 < delta /\ forall hs y y', (forall h, In h hs -> 0 <= h <= delta) -> t0 + total hs <= t1 ->
  rk_run T F t0 y hs y' -> (forall i, Rabs (y i - x i t0) <= delta) -> forall i, Rabs (y' i - x i (t0 + total hs)) <= eps.
Proof.
  intros He. destruct lip as (K & HK & HL). destruct G_bound as (B & PB & HB).
  assert (PA := A_pos). assert (Pb := be_pos). set (L := 2 * K * be). set (E0 := exp (L * (t1 - t0))).
  assert (PL : 0 <= L) by (unfold L; apply Rmult_le_pos; lra).
  assert (PE : 0 < E0) by apply exp_pos. set (W := t1 - t0). assert (PW : 0 <= W) by (unfold W; lra).
  set (e1 := eps / (4 * E0 * (be + 1) * (1 + W))).
  assert (Pe1 : 0 < e1).
  { unfold e1. apply Rdiv_lt_0_compat; [lra|]. repeat apply Rmult_lt_0_compat; lra. }
  destruct (G_unif e1 Pe1) as (d & Pd & HU).
  set (Q := be * (2 * K * (A * B + B))). assert (PQ : 0 <= Q).
  { unfold Q. apply Rmult_le_pos; auto. apply Rmult_le_pos; [lra|]. assert (0 <= A * B) by now apply Rmult_le_pos. lra. }
  set (d1 := Rmin (Rmin d (/ (2 * (K * A + 1)))) (eps / (4 * E0 * (1 + Q * W)))).
  assert (PKA : 0 <= K * A) by now apply Rmult_le_pos.
  assert (Pd1 : 0 < d1).
  { unfold d1. apply Rmin_pos; [apply Rmin_pos; auto; apply Rinv_0_lt_compat; lra|]. apply Rdiv_lt_0_compat; [lra|]. assert (0 <= Q * W) by now apply Rmult_le_pos. repeat apply Rmult_lt_0_compat; lra. }
  assert (D1 : d1 <= d) by (unfold d1; eapply Rle_trans; [apply Rmin_l|apply Rmin_l]).
  assert (D2 : d1 * (K * A) <= 1 / 2).
  { apply Rle_trans with (/ (2 * (K * A + 1)) * (K * A)).
    - apply Rmult_le_compat_r; auto. unfold d1. eapply Rle_trans; [apply Rmin_l|apply Rmin_r].
    - apply Rmult_le_reg_l with (2 * (K * A + 1)); [lra|]. rewrite <- Rmult_assoc, Rinv_r by lra. lra. }
  assert (D3 : E0 * d1 * (1 + Q * W) <= eps / 4).
  { assert (0 <= Q * W) by now apply Rmult_le_pos. apply Rle_trans with (E0 * (eps / (4 * E0 * (1 + Q * W))) * (1 + Q * W)).
    - apply Rmult_le_compat_r; [lra|]. apply Rmult_le_compat_l; [lra|]. unfold d1. apply Rmin_r.
    - right. field. lra. }
  set (eta := be * (2 * K * (A * B + B) * d1) + (be + 1) * e1).
  assert (Peta : 0 <= eta).
  { unfold eta. assert (0 <= be * (2 * K * (A * B + B) * d1)) by (replace (be * (2 * K * (A * B + B) * d1)) with (Q * d1) by (unfold Q; ring); apply Rmult_le_pos; lra).
    assert (0 <= (be + 1) * e1) by (apply Rmult_le_pos; lra). lra. }
  exists d1. split; auto.
  assert (Main : forall hs t y y' e, 0 <= e -> t0 <= t -> (forall h, In h hs -> 0 <= h <= d1) -> t + total hs <= t1 -> rk_run T F t y hs y' ->
    (forall i, Rabs (y i - x i t) <= e) -> forall i, Rabs (y' i - x i (t + total hs)) <= exp (L * total hs) * (e + eta * total hs)).
  { induction hs as [|h hs IH]; intros t y y' e Pe Ht Hh Hs Hr Hy i.
    - cbn [total] in *. rewrite Hr, Rmult_0_r, exp_0, Rplus_0_r, Rmult_0_r. specialize (Hy i). lra.
    - cbn [total] in *. destruct Hr as (y1 & S1 & Hr). assert (Ph := Hh h (or_introl eq_refl)).
      assert (Pt : 0 <= total hs).
      { assert (G0 : forall r, (forall h, In h r -> 0 <= h <= d1) -> 0 <= total r).
        { induction r as [|b r IHr]; intros Hb; cbn [total]; [lra|]. specialize (IHr ltac:(intros; apply Hb; now right)). specialize (Hb b (or_introl eq_refl)). lra. }
        apply G0. intros; apply Hh; now right. }
      set (e' := (1 + h * L) * e + h * eta).
      assert (Hy1 : forall i, Rabs (y1 i - x i (t + h)) <= e').
      { intros j. unfold e', L, eta. apply (step_error K B d1 e1 HK PB HL HB) with (y := y); auto; try lra. intros q s u Hs' Hu Hsu. apply HU; auto. lra. }
      assert (Pe' : 0 <= e') by (unfold e'; apply Rplus_le_le_0_compat; [apply Rmult_le_pos; auto; pose proof (Rmult_le_pos h L); lra|apply Rmult_le_pos; lra]).
      replace (t + (h + total hs)) with (t + h + total hs) by ring.
      eapply Rle_trans; [apply (IH (t + h) y1 y' e'); auto; try lra; intros; apply Hh; now right|].
      replace (L * (h + total hs)) with (L * h + L * total hs) by ring. rewrite exp_plus, (Rmult_comm (exp (L * h))), Rmult_assoc.
      apply Rmult_le_compat_l; [left; apply exp_pos|].
      assert (X : 1 + h * L <= exp (L * h)). { pose proof (exp_ineq1_le (L * h)). lra. }
      assert (X1 : 1 <= exp (L * h)) by (assert (0 <= h * L) by (apply Rmult_le_pos; lra); lra).
      unfold e'. apply Rle_trans with (exp (L * h) * e + h * eta + eta * total hs).
      + apply Rplus_le_compat_r, Rplus_le_compat_r. apply Rmult_le_compat_r; auto.
      + assert (Y : 0 <= eta * h + eta * total hs) by (apply Rplus_le_le_0_compat; apply Rmult_le_pos; lra).
        assert (1 * (eta * h + eta * total hs) <= exp (L * h) * (eta * h + eta * total hs)) by (apply Rmult_le_compat_r; auto). lra. }
  intros hs y y' Hh Hs Hr Hy i. eapply Rle_trans; [apply (Main hs t0 y y' d1); auto; lra|].
  assert (Pt : 0 <= total hs).
  { assert (G0 : forall r, (forall h, In h r -> 0 <= h <= d1) -> 0 <= total r).
    { induction r as [|b r IHr]; intros Hb; cbn [total]; [lra|]. specialize (IHr ltac:(intros; apply Hb; now right)). specialize (Hb b (or_introl eq_refl)). lra. }
    now apply G0. }
  assert (TW : total hs <= W) by (unfold W; lra).
  assert (X1 : exp (L * total hs) <= E0).
  { assert (Q1 : L * total hs <= L * (t1 - t0)) by (apply Rmult_le_compat_l; [auto|fold W; lra]).
    destruct (Rle_lt_or_eq_dec _ _ Q1) as [Q2|Q2]; [left; now apply exp_increasing|right; unfold E0; now rewrite Q2]. }
  apply Rle_trans with (E0 * (d1 + eta * W)).
  - apply Rmult_le_compat; [left; apply exp_pos| |auto|].
    + assert (0 <= eta * total hs) by now apply Rmult_le_pos. lra.
    + assert (eta * total hs <= eta * W) by (apply Rmult_le_compat_l; auto). lra.
  - assert (Z : E0 * ((be + 1) * e1 * W) <= eps / 4).
    { unfold e1. replace (E0 * ((be + 1) * (eps / (4 * E0 * (be + 1) * (1 + W))) * W)) with (eps / 4 * (W / (1 + W))) by (field; lra).
      rewrite <- (Rmult_1_r (eps / 4)) at 2. apply Rmult_le_compat_l; [lra|]. apply Rmult_le_reg_r with (1 + W); [lra|]. unfold Rdiv. rewrite Rmult_assoc, Rinv_l by lra. lra. }
    replace (E0 * (d1 + eta * W)) with (E0 * d1 * (1 + Q * W) + E0 * ((be + 1) * e1 * W)) by (unfold eta, Q; ring). lra.
Qed.
End C.
(** the slopes of an explicit method exist *)
Theorem explicit_exists {I} T (F : R -> (I -> R) -> I -> R) t h y : explicit T -> exists y', rk_step T F t h y y'.
Proof.
  intros HE.
  assert (K : forall n, (n <= rs T)%nat -> exists k : nat -> I -> R, forall i p, (i < n)%nat -> k i p = F (t + rc T i * h) (fun q => y q + h * sumn n (fun j => rA T i j * k j q)) p).
  { induction n as [|n IH]; intros Hn; [exists (fun _ _ => 0); intros; lia|]. destruct (IH ltac:(lia)) as (k & Hk).
    exists (fun i => if (i =? n)%nat then F (t + rc T n * h) (fun q => y q + h * sumn n (fun j => rA T n j * k j q)) else k i).
    assert (E : forall i q, (i <= n)%nat -> sumn (S n) (fun j => rA T i j * (if (j =? n)%nat then F (t + rc T n * h) (fun q => y q + h * sumn n (fun j => rA T n j * k j q)) else k j) q) = sumn n (fun j => rA T i j * k j q)).
    { intros i q Hi. cbn [sumn]. rewrite HE by lia. rewrite Rmult_0_l, Rplus_0_r. apply sumn_ext. intros j Hj. destruct (Nat.eqb_spec j n); [lia|reflexivity]. }
    intros i p Hi.
    replace (fun q => y q + h * sumn (S n) (fun j => rA T i j * (if (j =? n)%nat then F (t + rc T n * h) (fun q => y q + h * sumn n (fun j => rA T n j * k j q)) else k j) q)) with (fun q => y q + h * sumn n (fun j => rA T i j * k j q)).
    2: { apply FunctionalExtensionality.functional_extensionality. intros q. rewrite E by lia. reflexivity. }
    destruct (Nat.eqb_spec i n) as [->|N]; [reflexivity|]. apply Hk. lia. }
  destruct (K (rs T) (le_n _)) as (k & Hk). exists (fun p => y p + h * sumn (rs T) (fun i => rb T i * k i p)). exists k. split; [exact Hk|]. intros p. reflexivity.
Qed.
Theorem explicit_run {I} T (F : R -> (I -> R) -> I -> R) : explicit T -> forall hs t y, exists y', rk_run T F t y hs y'.
Proof.
  intros HE. induction hs as [|h hs IH]; intros t y; [exists y; intros p; reflexivity|].
  destruct (explicit_exists T F t h y HE) as (y1 & H1). destruct (IH (t + h) y1) as (y' & H2). exists y', y1. auto.
Qed.
