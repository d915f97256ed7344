(** C179: which time steps keep the piecewise-constant slab solution nonnegative. *)
From Coquelicot Require Import Coquelicot.
From Coq Require Import FunctionalExtensionality.
From Verif Require Import Py PyLemmas Calc Legendre DGModel DGSpec DGProofs DGInt DGBalance StabSpec StabThms StabProofs ExistProofs RhsModel SphSpec SphExist ExistThms TimeModel TimeProofs TimeStab TimeThms TimeStabThms.

(** no value of the angular flux held in the state vector y at time t is negative *)
Definition nowhere_negative (c : flux_cfg) (E : nat -> R -> R) (N_ang : nat) (t : R) (y : idx -> R) : Prop :=
  forall a s x, (a < N_ang)%nat -> (s < fN c)%nat -> 0 <= field Slab (fM c) (fun j => y (a, s, j)) (E s t) (E (S s) t) x.
(** no value exceeds K *)
Definition nowhere_above (c : flux_cfg) (E : nat -> R -> R) (N_ang : nat) (K t : R) (y : idx -> R) : Prop :=
  forall a s x, (a < N_ang)%nat -> (s < fN c)%nat -> field Slab (fM c) (fun j => y (a, s, j)) (E s t) (E (S s) t) x <= K.
(** what enters is not negative, does not exceed K *)
Definition enters_nonneg (c : flux_cfg) (E : nat -> R -> R) (t : R) : Prop :=
  forall v, inflow_l c t (fun k => E k t) (fun _ => 0) v \/ inflow_r c t (fun k => E k t) v -> 0 <= v.
Definition enters_below (c : flux_cfg) (E : nat -> R -> R) (K t : R) : Prop :=
  forall v, inflow_l c t (fun k => E k t) (fun _ => 0) v \/ inflow_r c t (fun k => E k t) v -> v <= K.
(** the rate at which a direction leaves a moving cell through its two ends, in cell widths *)
Definition leaving (E D : nat -> R -> R) (mu : R) (s : nat) (t : R) : R :=
  (Rmax 0 (mu - D (S s) t) + Rmax 0 (D s t - mu)) / (E (S s) t - E s t).
(** the relative rate of growth of a cell *)
Definition widening (E D : nat -> R -> R) (s : nat) (t : R) : R := (D (S s) t - D s t) / (E (S s) t - E s t).

Lemma argmin n (f : nat -> R) : (0 < n)%nat -> exists i, (i < n)%nat /\ forall j, (j < n)%nat -> f i <= f j.
Proof.
  induction n as [|n IH]; [lia|]. intros _. destruct n as [|n].
  - exists 0%nat. split; [lia|]. intros j Hj. replace j with 0%nat by lia. lra.
  - destruct IH as (i & Hi & H); [lia|]. destruct (Rle_lt_dec (f i) (f (S n))) as [L|L].
    + exists i. split; [lia|]. intros j Hj. destruct (Nat.eq_dec j (S n)) as [->|]; [auto|apply H; lia].
    + exists (S n). split; [lia|]. intros j Hj. destruct (Nat.eq_dec j (S n)) as [->|]; [lra|]. specialize (H j ltac:(lia)). lra.
Qed.
Lemma argmin2 n m (f : nat -> nat -> R) : (0 < n)%nat -> (0 < m)%nat ->
  exists a s, (a < n)%nat /\ (s < m)%nat /\ forall b k, (b < n)%nat -> (k < m)%nat -> f a s <= f b k.
Proof.
  intros Hn Hm. induction n as [|n IH]; [lia|]. destruct (argmin m (f n) Hm) as (k & Hk & H). destruct n as [|n].
  - exists 0%nat, k. repeat split; auto; try lia. intros b j Hb Hj. replace b with 0%nat by lia. auto.
  - destruct IH as (a & s & Ha & Hs & Q); [lia|]. destruct (Rle_lt_dec (f a s) (f (S n) k)) as [L|L].
    + exists a, s. repeat split; auto; try lia. intros b j Hb Hj. destruct (Nat.eq_dec b (S n)) as [->|]; [specialize (H j Hj); lra|apply Q; auto; lia].
    + exists (S n), k. repeat split; auto; try lia. intros b j Hb Hj. destruct (Nat.eq_dec b (S n)) as [->|]; [auto|]. specialize (Q b j ltac:(lia) Hj). lra.
Qed.

Section One.
Variables (c : flux_cfg) (E D : nat -> R -> R) (t : R).
Hypothesis Hg : fgeom c = Slab.
Hypothesis HN : (2 <= fN c)%nat.
Hypothesis HM : fM c = 0%nat.
Hypothesis He : increasing (fN c) (fun k => E k t).
Let w s := E (S s) t - E s t.
Lemma w_pos s : (s < fN c)%nat -> 0 < w s.
Proof. intros Hs. pose proof (He s Hs). cbv beta in H. unfold w. lra. Qed.
Lemma sw_pos s : (s < fN c)%nat -> 0 < sqrt (w s).
Proof. intros Hs. apply sqrt_lt_R0. now apply w_pos. Qed.
Lemma field0 (u : nat -> R) s x : (s < fN c)%nat -> field Slab (fM c) u (E s t) (E (S s) t) x = u 0%nat / sqrt (w s).
Proof.
  intros Hs. rewrite HM. unfold field. cbn [Nat.add sumn]. rewrite DGInt.basis0 by (apply (He s Hs)). fold (w s). field.
  pose proof (sw_pos s Hs). lra.
Qed.
Lemma coef_nonneg A y : nowhere_negative c E A t y <-> forall a s, (a < A)%nat -> (s < fN c)%nat -> 0 <= y (a, s, 0%nat).
Proof.
  split.
  - intros H a s Ha Hs. specialize (H a s 0 Ha Hs). rewrite field0 in H by auto. pose proof (sw_pos s Hs) as P.
    replace (y (a, s, 0%nat)) with (y (a, s, 0%nat) / sqrt (w s) * sqrt (w s)) by (field; lra). apply Rmult_le_pos; lra.
  - intros H a s x Ha Hs. rewrite field0 by auto. apply Rmult_le_pos; [auto|]. left. apply Rinv_0_lt_compat. now apply sw_pos.
Qed.
(** the right-hand side with one moment per cell, in terms of the values carried through the two faces *)
Lemma rhs0 A ws mus cc S0 st y a s : (a < A)%nat -> (s < fN c)%nat -> exists vl vr,
  face c t (fun k => E k t) (fun k => D k t) (fun k j => y (a, k, j)) (mus a) (fun _ => 0) s vl /\
  face c t (fun k => E k t) (fun k => D k t) (fun k j => y (a, k, j)) (mus a) (fun _ => 0) (S s) vr /\
  slabR c E D A ws mus cc S0 st t y (a, s, 0%nat) =
    - (D (S s) t - D s t) / (2 * w s) * y (a, s, 0%nat) - ((mus a - D (S s) t) * vr - (mus a - D s t) * vl) / sqrt (w s)
    - y (a, s, 0%nat) + cc * sumn A (fun l => y (l, s, 0%nat) * ws l) + 1 / 2 * S0 s 0%nat t.
Proof.
  intros Ha Hs. pose proof (w_pos s Hs) as Wp. pose proof (sw_pos s Hs) as Sp.
  destruct (LU_formula c t (fun k => E k t) (fun k => D k t) (fun k j => y (a, k, j)) (mus a) (fun _ => 0) HN He (st t a s) s 0%nat Hs) as (vl & vr & F1 & F2 & Q).
  exists vl, vr. split; [exact F1|]. split; [exact F2|].
  unfold slabR. rewrite (proj2 (active_iff A (fN c) (fM c) a s 0%nat)) by (repeat split; auto; lia).
  unfold slab_rhs. cbv zeta. rewrite Q, Hg. rewrite !DGInt.basis0 by (apply (He s Hs)). fold (w s). cbn [wt].
  unfold dotv, make_P, G_slab, L_slab, L_const. rewrite HM. cbn [Nat.add sumn Nat.eqb Nat.ltb Nat.leb andb]. rewrite !Nat.add_1_r. cbv zeta. fold (w s). cbn [INR Nat.even].
  try (destruct (0 =? 0)%nat eqn:X; [|discriminate]).
  field. split; lra.
Qed.
Lemma face_val A y mus a f v : (a < A)%nat -> (f <= fN c)%nat ->
  face c t (fun k => E k t) (fun k => D k t) (fun k j => y (a, k, j)) (mus a) (fun _ => 0) f v ->
  (inflow_l c t (fun k => E k t) (fun _ => 0) v \/ inflow_r c t (fun k => E k t) v) \/ exists k, (k < fN c)%nat /\ v = y (a, k, 0%nat) / sqrt (w k).
Proof.
  intros Ha Hf F. inversion F; subst.
  - left. now left.
  - right. exists f0. split; auto. rewrite Hg. now apply field0.
  - right. exists f. split; auto. rewrite Hg. now apply field0.
  - left. now right.
Qed.
Lemma face_out A y mus a s v : (a < A)%nat -> (s < fN c)%nat ->
  (0 <= mus a - D (S s) t -> face c t (fun k => E k t) (fun k => D k t) (fun k j => y (a, k, j)) (mus a) (fun _ => 0) (S s) v -> v = y (a, s, 0%nat) / sqrt (w s)) /\
  (mus a - D s t < 0 -> face c t (fun k => E k t) (fun k => D k t) (fun k j => y (a, k, j)) (mus a) (fun _ => 0) s v -> v = y (a, s, 0%nat) / sqrt (w s)).
Proof.
  intros Ha Hs.
  pose proof (face_fun c t (fun k => E k t) (fun k => D k t) (fun k j => y (a, k, j)) (mus a) (fun _ => 0) HN He) as FF.
  split; intros P F.
  - rewrite (FF _ _ _ F (face_from_left c t _ _ (fun k j => y (a, k, j)) (mus a) (fun _ => 0) s P Hs)). rewrite Hg. now apply field0.
  - rewrite (FF _ _ _ F (face_from_right c t _ _ (fun k j => y (a, k, j)) (mus a) (fun _ => 0) s P Hs)). rewrite Hg. now apply field0.
Qed.
(** explicit steps *)
Lemma explicit_low A ws mus cc S0 st y a s : (a < A)%nat -> (s < fN c)%nat ->
  (forall b, (b < A)%nat -> 0 <= ws b) -> 0 <= cc -> 0 <= S0 s 0%nat t -> enters_nonneg c E t ->
  (forall b k, (b < A)%nat -> (k < fN c)%nat -> 0 <= y (b, k, 0%nat)) ->
  - (1 + widening E D s t / 2 + leaving E D (mus a) s t) * y (a, s, 0%nat) <= slabR c E D A ws mus cc S0 st t y (a, s, 0%nat).
Proof.
  intros Ha Hs Hw Hc HS Hin Hy. destruct (rhs0 A ws mus cc S0 st y a s Ha Hs) as (vl & vr & Fl & Fr & ->).
  pose proof (w_pos s Hs) as Wp. pose proof (sw_pos s Hs) as Sp.
  assert (Pv : forall f v, (f <= fN c)%nat -> face c t (fun k => E k t) (fun k => D k t) (fun k j => y (a, k, j)) (mus a) (fun _ => 0) f v -> 0 <= v).
  { intros f v Hf F. destruct (face_val A y mus a f v Ha Hf F) as [I|(k & Hk & ->)]; [now apply Hin|].
    apply Rmult_le_pos; [auto|]. left. apply Rinv_0_lt_compat. now apply sw_pos. }
  assert (HP : 0 <= cc * sumn A (fun l => y (l, s, 0%nat) * ws l)).
  { apply Rmult_le_pos; auto. apply sumn_nonneg. intros l Hl. apply Rmult_le_pos; auto. }
  pose proof (Hy a s Ha Hs) as Hu. set (u := y (a, s, 0%nat)) in *.
  set (r := sqrt (w s)) in *. assert (SS : w s = r * r) by (symmetry; apply sqrt_sqrt; lra).
  assert (RR : (mus a - D (S s) t) * vr / r <= Rmax 0 (mus a - D (S s) t) / w s * u).
  { destruct (Rle_lt_dec 0 (mus a - D (S s) t)) as [P|P].
    - rewrite (proj1 (face_out A y mus a s vr Ha Hs) P Fr). fold u. fold r. rewrite Rmax_right by lra. right. rewrite SS. field. lra.
    - rewrite Rmax_left by lra. replace (0 / w s * u) with 0 by (unfold Rdiv; ring). pose proof (Pv (S s) vr ltac:(lia) Fr).
      assert (Y : 0 <= / r) by (left; now apply Rinv_0_lt_compat). assert (X : 0 <= - (mus a - D (S s) t) * vr) by (apply Rmult_le_pos; lra). pose proof (Rmult_le_pos _ _ X Y). unfold Rdiv. lra. }
  assert (LL : - (mus a - D s t) * vl / r <= Rmax 0 (D s t - mus a) / w s * u).
  { destruct (Rle_lt_dec 0 (mus a - D s t)) as [P|P].
    - rewrite Rmax_left by lra. replace (0 / w s * u) with 0 by (unfold Rdiv; ring). pose proof (Pv s vl ltac:(lia) Fl).
      assert (Y : 0 <= / r) by (left; now apply Rinv_0_lt_compat). assert (X : 0 <= (mus a - D s t) * vl) by (apply Rmult_le_pos; lra). pose proof (Rmult_le_pos _ _ X Y). unfold Rdiv. lra.
    - rewrite (proj2 (face_out A y mus a s vl Ha Hs) P Fl). fold u. fold r. rewrite Rmax_right by lra. right. rewrite SS. field. lra. }
  unfold widening, leaving. fold (w s).
  replace (- (1 + (D (S s) t - D s t) / w s / 2 + (Rmax 0 (mus a - D (S s) t) + Rmax 0 (D s t - mus a)) / w s) * u) with
    (- (D (S s) t - D s t) / (2 * w s) * u - u - Rmax 0 (mus a - D (S s) t) / w s * u - Rmax 0 (D s t - mus a) / w s * u) by (field; lra).
  replace (((mus a - D (S s) t) * vr - (mus a - D s t) * vl) / r) with ((mus a - D (S s) t) * vr / r + - (mus a - D s t) * vl / r) by (field; lra).
  lra.
Qed.
(** where the smallest value is, if it lies below everything that enters *)
Lemma implicit_low A ws mus cc S0 st y a s m : (a < A)%nat -> (s < fN c)%nat ->
  (forall b, (b < A)%nat -> 0 <= ws b) -> 0 <= cc -> 0 <= S0 s 0%nat t ->
  (forall v, inflow_l c t (fun k => E k t) (fun _ => 0) v \/ inflow_r c t (fun k => E k t) v -> m <= v) ->
  (forall b k, (b < A)%nat -> (k < fN c)%nat -> m <= y (b, k, 0%nat) / sqrt (w k)) -> y (a, s, 0%nat) / sqrt (w s) = m ->
  sqrt (w s) * m * (widening E D s t / 2 - 1 + cc * sumn A ws) <= slabR c E D A ws mus cc S0 st t y (a, s, 0%nat).
Proof.
  intros Ha Hs Hw Hc HS Hin Hy Hm. destruct (rhs0 A ws mus cc S0 st y a s Ha Hs) as (vl & vr & Fl & Fr & ->).
  pose proof (w_pos s Hs) as Wp. pose proof (sw_pos s Hs) as Sp.
  assert (Pv : forall f v, (f <= fN c)%nat -> face c t (fun k => E k t) (fun k => D k t) (fun k j => y (a, k, j)) (mus a) (fun _ => 0) f v -> m <= v).
  { intros f v Hf F. destruct (face_val A y mus a f v Ha Hf F) as [I|(k & Hk & ->)]; [now apply Hin|auto]. }
  assert (HP : cc * (sqrt (w s) * m * sumn A ws) <= cc * sumn A (fun l => y (l, s, 0%nat) * ws l)).
  { apply Rmult_le_compat_l; auto. rewrite <- sumn_scal. apply sumn_le. intros l Hl. apply Rmult_le_compat_r; auto.
    pose proof (Hy l s Hl Hs) as Q. replace (y (l, s, 0%nat)) with (sqrt (w s) * (y (l, s, 0%nat) / sqrt (w s))) by (field; lra).
    apply Rmult_le_compat_l; lra. }
  assert (U : y (a, s, 0%nat) = sqrt (w s) * m) by (rewrite <- Hm; field; lra).
  set (r := sqrt (w s)) in *. assert (SS : w s = r * r) by (symmetry; apply sqrt_sqrt; lra).
  assert (RR : (mus a - D (S s) t) * vr <= (mus a - D (S s) t) * m).
  { destruct (Rle_lt_dec 0 (mus a - D (S s) t)) as [P|P].
    - rewrite (proj1 (face_out A y mus a s vr Ha Hs) P Fr). fold r. rewrite Hm. lra.
    - pose proof (Pv (S s) vr ltac:(lia) Fr). nra. }
  assert (LL : (mus a - D s t) * m <= (mus a - D s t) * vl).
  { destruct (Rle_lt_dec 0 (mus a - D s t)) as [P|P].
    - pose proof (Pv s vl ltac:(lia) Fl). nra.
    - rewrite (proj2 (face_out A y mus a s vl Ha Hs) P Fl). fold r. rewrite Hm. lra. }
  rewrite U. unfold widening. fold (w s).
  assert (FF : ((mus a - D (S s) t) * vr - (mus a - D s t) * vl) / r <= - (D (S s) t - D s t) * m / r).
  { apply Rmult_le_compat_r; [left; now apply Rinv_0_lt_compat|]. lra. }
  replace (r * m * ((D (S s) t - D s t) / w s / 2 - 1 + cc * sumn A ws)) with
    (- (D (S s) t - D s t) / (2 * w s) * (r * m) - - (D (S s) t - D s t) * m / r - r * m + cc * (r * m * sumn A ws)).
  2: { rewrite SS. field. lra. }
  lra.
Qed.
(** where the largest value is, if it lies above everything that enters *)
Lemma implicit_up A ws mus cc S0 st y a s m : (a < A)%nat -> (s < fN c)%nat ->
  (forall b, (b < A)%nat -> 0 <= ws b) -> 0 <= cc -> S0 s 0%nat t <= 0 ->
  (forall v, inflow_l c t (fun k => E k t) (fun _ => 0) v \/ inflow_r c t (fun k => E k t) v -> v <= m) ->
  (forall b k, (b < A)%nat -> (k < fN c)%nat -> y (b, k, 0%nat) / sqrt (w k) <= m) -> y (a, s, 0%nat) / sqrt (w s) = m ->
  slabR c E D A ws mus cc S0 st t y (a, s, 0%nat) <= sqrt (w s) * m * (widening E D s t / 2 - 1 + cc * sumn A ws).
Proof.
  intros Ha Hs Hw Hc HS Hin Hy Hm. destruct (rhs0 A ws mus cc S0 st y a s Ha Hs) as (vl & vr & Fl & Fr & ->).
  pose proof (w_pos s Hs) as Wp. pose proof (sw_pos s Hs) as Sp.
  assert (Pv : forall f v, (f <= fN c)%nat -> face c t (fun k => E k t) (fun k => D k t) (fun k j => y (a, k, j)) (mus a) (fun _ => 0) f v -> v <= m).
  { intros f v Hf F. destruct (face_val A y mus a f v Ha Hf F) as [I|(k & Hk & ->)]; [now apply Hin|auto]. }
  assert (HP : cc * sumn A (fun l => y (l, s, 0%nat) * ws l) <= cc * (sqrt (w s) * m * sumn A ws)).
  { apply Rmult_le_compat_l; auto. rewrite <- sumn_scal. apply sumn_le. intros l Hl. apply Rmult_le_compat_r; auto.
    pose proof (Hy l s Hl Hs) as Q. replace (y (l, s, 0%nat)) with (sqrt (w s) * (y (l, s, 0%nat) / sqrt (w s))) by (field; lra).
    apply Rmult_le_compat_l; lra. }
  assert (U : y (a, s, 0%nat) = sqrt (w s) * m) by (rewrite <- Hm; field; lra).
  set (r := sqrt (w s)) in *. assert (SS : w s = r * r) by (symmetry; apply sqrt_sqrt; lra).
  assert (RR : (mus a - D (S s) t) * m <= (mus a - D (S s) t) * vr).
  { destruct (Rle_lt_dec 0 (mus a - D (S s) t)) as [P|P].
    - rewrite (proj1 (face_out A y mus a s vr Ha Hs) P Fr). fold r. rewrite Hm. lra.
    - pose proof (Pv (S s) vr ltac:(lia) Fr). nra. }
  assert (LL : (mus a - D s t) * vl <= (mus a - D s t) * m).
  { destruct (Rle_lt_dec 0 (mus a - D s t)) as [P|P].
    - pose proof (Pv s vl ltac:(lia) Fl). nra.
    - rewrite (proj2 (face_out A y mus a s vl Ha Hs) P Fl). fold r. rewrite Hm. lra. }
  rewrite U. unfold widening. fold (w s).
  assert (FF : - (D (S s) t - D s t) * m / r <= ((mus a - D (S s) t) * vr - (mus a - D s t) * vl) / r).
  { apply Rmult_le_compat_r; [left; now apply Rinv_0_lt_compat|]. lra. }
  replace (r * m * ((D (S s) t - D s t) / w s / 2 - 1 + cc * sumn A ws)) with
    (- (D (S s) t - D s t) / (2 * w s) * (r * m) - - (D (S s) t - D s t) * m / r - r * m + cc * (r * m * sumn A ws)).
  2: { rewrite SS. field. lra. }
  lra.
Qed.
End One.

Lemma euler_form F t h (y y' : idx -> R) : rk_step euler F t h y y' -> forall p, y' p = y p + h * F t y p.
Proof.
  intros (k & Hk & Hr) p. rewrite (Hr p). cbn [rs euler sumn rb]. rewrite (Hk 0%nat p) by (cbn; lia). cbn [rc euler].
  replace (t + 0 * h) with t by ring. replace (stage euler h y k 0) with y; [ring|].
  apply functional_extensionality. intros q. unfold stage. cbn [rs euler sumn rA]. ring.
Qed.
Lemma implicit_form F t h (y y' : idx -> R) : rk_step implicit_euler F t h y y' -> forall p, y' p = y p + h * F (t + h) y' p.
Proof.
  intros (k & Hk & Hr) p. rewrite (Hr p). cbn [rs implicit_euler sumn rb]. rewrite (Hk 0%nat p) by (cbn; lia). cbn [rc implicit_euler].
  replace (t + 1 * h) with (t + h) by ring. replace (stage implicit_euler h y k 0) with y'; [ring|].
  apply functional_extensionality. intros q. rewrite (Hr q). unfold stage. cbn [rs implicit_euler sumn rA rb]. ring.
Qed.
Lemma total_nonneg hs : (forall h, In h hs -> 0 <= h) -> 0 <= total hs.
Proof. induction hs as [|a hs IH]; cbn [total]; intros H; [lra|]. assert (0 <= a) by (apply H; now left). assert (0 <= total hs) by (apply IH; intros x Hx; apply H; now right). lra. Qed.
Lemma run_keeps (P : R -> (idx -> R) -> Prop) T F t0 t1 : (forall t y z, (forall p, z p = y p) -> P t y -> P t z) ->
  forall hs (ok : R -> Prop), (forall t h y y', t0 <= t -> 0 <= h -> ok h -> t + h <= t1 -> P t y -> rk_step T F t h y y' -> P (t + h) y') ->
  forall t y y', t0 <= t -> (forall h, In h hs -> 0 <= h /\ ok h) -> t + total hs <= t1 -> P t y -> rk_run T F t y hs y' -> P (t + total hs) y'.
Proof.
  intros Hext hs ok Hstep. induction hs as [|h hs IH]; cbn [total rk_run]; intros t y y' Ht Hh Hle HP Hr.
  - rewrite Rplus_0_r. now apply (Hext t y).
  - destruct Hr as (y1 & H1 & H2). destruct (Hh h (or_introl eq_refl)) as [h0 hk]. assert (0 <= total hs) by (apply total_nonneg; intros x Hx; apply Hh; now right).
    replace (t + (h + total hs)) with (t + h + total hs) by ring. apply (IH (t + h) y1); auto; try lra.
    + intros x Hx. apply Hh. now right.
    + apply (Hstep t h y); auto; lra.
Qed.

(** Explicit steps.  On a mesh which may move in any way the steps of Euler's method keep a nonnegative solution
    nonnegative if no step is longer than the time in which a direction would empty some cell: absorption at rate one, half
    the rate at which the cell widens, and what leaves through its ends. *)
Theorem C179_explicit : forall c E D N_ang ws mus cc S0 st t0 t1 delta hs y y', fgeom c = Slab -> (2 <= fN c)%nat -> fM c = 0%nat ->
  (forall t, t0 <= t <= t1 -> increasing (fN c) (fun k => E k t)) ->
  (forall a, (a < N_ang)%nat -> 0 <= ws a) -> 0 <= cc ->
  (forall s t, (s < fN c)%nat -> t0 <= t <= t1 -> 0 <= S0 s 0%nat t) -> (forall t, t0 <= t <= t1 -> enters_nonneg c E t) ->
  (forall a s t, (a < N_ang)%nat -> (s < fN c)%nat -> t0 <= t <= t1 -> delta * (1 + widening E D s t / 2 + leaving E D (mus a) s t) <= 1) ->
  (forall h, In h hs -> 0 <= h <= delta) -> t0 + total hs <= t1 ->
  nowhere_negative c E N_ang t0 y -> rk_run euler (slabR c E D N_ang ws mus cc S0 st) t0 y hs y' ->
  nowhere_negative c E N_ang (t0 + total hs) y'.
Proof.
  intros c E D N_ang ws mus cc S0 st t0 t1 delta hs y y' Hg HN HM He Hw Hc HS Hin Hd Hh Hle Hy Hr.
  apply (run_keeps (nowhere_negative c E N_ang) euler (slabR c E D N_ang ws mus cc S0 st) t0 t1) with (ok := fun h => h <= delta) (y := y); auto; [| |lra].
  - intros t u z Hz Hu a s x Ha Hs. specialize (Hu a s x Ha Hs). replace (fun j => z (a, s, j)) with (fun j => u (a, s, j)); auto.
    apply functional_extensionality. intros j. now rewrite Hz.
  - intros t h u u' Ht h0 hd Hth Hu Hst. rewrite (coef_nonneg c E (t + h)) by (auto; apply He; lra). rewrite (coef_nonneg c E t) in Hu by (auto; apply He; lra).
    intros a s Ha Hs. rewrite (euler_form _ _ _ _ _ Hst).
    pose proof (explicit_low c E D t Hg HN HM (He t ltac:(lra)) N_ang ws mus cc S0 st u a s Ha Hs Hw Hc (HS s t Hs ltac:(lra)) (Hin t ltac:(lra)) Hu) as L.
    pose proof (Hd a s t Ha Hs ltac:(lra)) as B. pose proof (Hu a s Ha Hs) as U. set (q := 1 + widening E D s t / 2 + leaving E D (mus a) s t) in *.
    assert (h * q <= 1). { destruct (Rle_lt_dec 0 q) as [Q|Q]; [apply (Rle_trans _ (delta * q)); auto; apply Rmult_le_compat_r; auto|]. assert (0 <= h * - q) by (apply Rmult_le_pos; lra). lra. }
    apply (Rmult_le_compat_l h) in L; auto. assert (0 <= (1 - h * q) * u (a, s, 0%nat)) by (apply Rmult_le_pos; lra). lra.
Qed.
Print Assumptions C179_explicit.
(** Implicit steps.  The steps of the implicit Euler method do so whatever their lengths, as long as no cell widens by
    too much in one step; with at most as much scattered as arrives and a mesh at rest there is no condition. *)
Theorem C179_implicit : forall c E D N_ang ws mus cc S0 st t0 t1 hs y y', fgeom c = Slab -> (2 <= fN c)%nat -> fM c = 0%nat ->
  (forall t, t0 <= t <= t1 -> increasing (fN c) (fun k => E k t)) ->
  (forall a, (a < N_ang)%nat -> 0 <= ws a) -> 0 <= cc ->
  (forall s t, (s < fN c)%nat -> t0 <= t <= t1 -> 0 <= S0 s 0%nat t) -> (forall t, t0 <= t <= t1 -> enters_nonneg c E t) ->
  (forall h s t, In h hs -> (s < fN c)%nat -> t0 <= t <= t1 -> h * (widening E D s t / 2 - 1 + cc * sumn N_ang ws) < 1) ->
  (forall h, In h hs -> 0 <= h) -> t0 + total hs <= t1 ->
  nowhere_negative c E N_ang t0 y -> rk_run implicit_euler (slabR c E D N_ang ws mus cc S0 st) t0 y hs y' ->
  nowhere_negative c E N_ang (t0 + total hs) y'.
Proof.
  intros c E D N_ang ws mus cc S0 st t0 t1 hs y y' Hg HN HM He Hw Hc HS Hin Hd Hh Hle Hy Hr.
  apply (run_keeps (nowhere_negative c E N_ang) implicit_euler (slabR c E D N_ang ws mus cc S0 st) t0 t1) with (ok := fun h => In h hs) (y := y); auto; [| |lra].
  - intros t u z Hz Hu a s x Ha Hs. specialize (Hu a s x Ha Hs). replace (fun j => z (a, s, j)) with (fun j => u (a, s, j)); auto.
    apply functional_extensionality. intros j. now rewrite Hz.
  - intros t h u u' Ht h0 hd Hth Hu Hst. rewrite (coef_nonneg c E t) in Hu by (auto; apply He; lra).
    assert (I1 : increasing (fN c) (fun k => E k (t + h))) by (apply He; lra). rewrite (coef_nonneg c E (t + h)) by auto.
    destruct (Nat.eq_dec N_ang 0) as [->|HA]; [intros; lia|].
    destruct (argmin2 N_ang (fN c) (fun a s => u' (a, s, 0%nat) / sqrt (E (S s) (t + h) - E s (t + h)))) as (a & s & Ha & Hs & Q); [lia|lia|].
    set (m := u' (a, s, 0%nat) / sqrt (E (S s) (t + h) - E s (t + h))) in *.
    assert (M : 0 <= m).
    { destruct (Rle_lt_dec 0 m) as [|L]; auto. exfalso.
      pose proof (implicit_low c E D (t + h) Hg HN HM I1 N_ang ws mus cc S0 st u' a s m Ha Hs Hw Hc (HS s (t + h) Hs ltac:(lra))) as X.
      specialize (X ltac:(intros v Hv; pose proof (Hin (t + h) ltac:(lra) v Hv); lra) Q eq_refl).
      pose proof (implicit_form _ _ _ _ _ Hst (a, s, 0%nat)) as Y. pose proof (Hu a s Ha Hs) as U.
      pose proof (sw_pos c E (t + h) I1 s Hs) as Sp. set (r := sqrt (E (S s) (t + h) - E s (t + h))) in *.
      assert (U' : u' (a, s, 0%nat) = r * m) by (unfold m; field; lra).
      pose proof (Hd h s (t + h) hd Hs ltac:(lra)) as B. set (q := widening E D s (t + h) / 2 - 1 + cc * sumn N_ang ws) in *.
      apply (Rmult_le_compat_l h) in X; auto. rewrite U' in Y.
      assert (0 < (1 - h * q) * (r * - m)) by (apply Rmult_lt_0_compat; [lra|apply Rmult_lt_0_compat; lra]). lra. }
    intros b k Hb Hk. pose proof (Q b k Hb Hk) as Z. cbv beta in Z. pose proof (sw_pos c E (t + h) I1 k Hk) as Sp.
    replace (u' (b, k, 0%nat)) with (u' (b, k, 0%nat) / sqrt (E (S k) (t + h) - E k (t + h)) * sqrt (E (S k) (t + h) - E k (t + h))) by (field; lra).
    apply Rmult_le_pos; lra.
Qed.
Print Assumptions C179_implicit.
(** On a mesh at rest, without sources and with at most as much scattered as arrives, the implicit steps let no value exceed
    the largest initial or entering one. *)
Theorem C179_implicit_maximum : forall c e N_ang ws mus cc st t0 hs y y' K, fgeom c = Slab -> (2 <= fN c)%nat -> fM c = 0%nat ->
  increasing (fN c) e -> (forall a, (a < N_ang)%nat -> 0 <= ws a) -> sumn N_ang ws <= 1 -> 0 <= cc <= 1 -> 0 <= K ->
  (forall t, t0 <= t <= t0 + total hs -> enters_below c (fun k _ => e k) K t) -> (forall h, In h hs -> 0 <= h) ->
  nowhere_above c (fun k _ => e k) N_ang K t0 y -> rk_run implicit_euler (slabR c (fun k _ => e k) (fun _ _ => 0) N_ang ws mus cc (fun _ _ _ => 0) st) t0 y hs y' ->
  nowhere_above c (fun k _ => e k) N_ang K (t0 + total hs) y'.
Proof.
  intros c e N_ang ws mus cc st t0 hs y y' K Hg HN HM He Hw W1 Hc HK Hin Hh Hy Hr.
  assert (SN : 0 <= sumn N_ang ws) by (now apply sumn_nonneg).
  apply (run_keeps (nowhere_above c (fun k _ => e k) N_ang K) implicit_euler (slabR c (fun k _ => e k) (fun _ _ => 0) N_ang ws mus cc (fun _ _ _ => 0) st) t0 (t0 + total hs)) with (ok := fun h => True) (y := y); auto; try lra.
  - intros t u z Hz Hu a s x Ha Hs. specialize (Hu a s x Ha Hs). replace (fun j => z (a, s, j)) with (fun j => u (a, s, j)); auto.
    apply functional_extensionality. intros j. now rewrite Hz.
  - intros t h u u' Ht h0 _ Hth Hu Hst.
    destruct (Nat.eq_dec N_ang 0) as [->|HA]; [intros ? ? ? ?; lia|].
    destruct (argmin2 N_ang (fN c) (fun a s => - (u' (a, s, 0%nat) / sqrt (e (S s) - e s)))) as (a & s & Ha & Hs & Q); [lia|lia|].
    set (m := u' (a, s, 0%nat) / sqrt (e (S s) - e s)) in *.
    assert (M : m <= K).
    { destruct (Rle_lt_dec m K) as [|L]; auto. exfalso.
      pose proof (implicit_up c (fun k _ => e k) (fun _ _ => 0) (t + h) Hg HN HM He N_ang ws mus cc (fun _ _ _ => 0) st u' a s m Ha Hs Hw (proj1 Hc) (Rle_refl 0)) as X.
      specialize (X ltac:(intros v Hv; pose proof (Hin (t + h) ltac:(lra) v Hv); lra) ltac:(intros b k Hb Hk; pose proof (Q b k Hb Hk); lra) eq_refl).
      pose proof (implicit_form _ _ _ _ _ Hst (a, s, 0%nat)) as Y. pose proof (Hu a s 0 Ha Hs) as U. cbv beta in U. rewrite (field0 c (fun k _ => e k) t HM He) in U by auto.
      pose proof (sw_pos c (fun k _ => e k) t He s Hs) as Sp. cbv beta in *. set (r := sqrt (e (S s) - e s)) in *.
      assert (U' : u' (a, s, 0%nat) = r * m) by (unfold m; field; lra).
      assert (U2 : u (a, s, 0%nat) <= r * K). { replace (u (a, s, 0%nat)) with (r * (u (a, s, 0%nat) / r)) by (field; lra). apply Rmult_le_compat_l; lra. }
      assert (Wd : widening (fun k _ => e k) (fun _ _ => 0) s (t + h) = 0) by (unfold widening, Rdiv; ring). rewrite Wd in X.
      assert (CW : cc * sumn N_ang ws <= 1). { apply (Rle_trans _ (1 * 1)); [apply Rmult_le_compat; lra|lra]. }
      apply (Rmult_le_compat_l h) in X; auto. rewrite U' in Y.
      assert (0 <= h * (r * m * (1 - cc * sumn N_ang ws))) by (apply Rmult_le_pos; auto; apply Rmult_le_pos; [apply Rmult_le_pos|]; lra).
      assert (0 < r * (m - K)) by (apply Rmult_lt_0_compat; lra). lra. }
    intros b k x Hb Hk. cbv beta. rewrite (field0 c (fun k _ => e k) (t + h) HM He) by auto. pose proof (Q b k Hb Hk). cbv beta in *. lra.
Qed.
Print Assumptions C179_implicit_maximum.

(** two unit cells at rest, direction 1, scattering ratio 1/2 (StabThms.sC), filled with x and w *)
Definition two_cells (x w : R) (p : idx) : R := let '(a, s, i) := p in if ((a =? 0) && (i =? 0))%nat then match s with 0%nat => x | 1%nat => w | _ => 0 end else 0.
Definition unit_problem : R -> (idx -> R) -> idx -> R := slabR sC sE (fun _ _ => 0) 1 (fun _ => 1) (fun _ => 1) (1 / 2) (fun _ _ _ => 0) (fun _ _ _ => s0).
Lemma unit_closed t v : inflow_l sC t (fun k => sE k t) (fun _ => 0) v \/ inflow_r sC t (fun k => sE k t) v -> v = 0.
Proof. intros [H|H]; inversion H; subst; auto; try (destruct H0 as [X|[X _]]; discriminate); discriminate. Qed.
Lemma two_rhs t x w p : unit_problem t (two_cells x w) p = two_cells (- (3 / 2) * x) (x - 3 / 2 * w) p.
Proof.
  destruct p as [[a s] i]. unfold unit_problem. destruct (active 1 (fN sC) (fM sC) (a, s, i)) eqn:Q.
  2: { unfold slabR. rewrite Q. unfold two_cells. destruct (Nat.eqb_spec a 0); cbn [andb]; auto. destruct (Nat.eqb_spec i 0); auto. destruct s as [|[|s]]; auto; subst; discriminate. }
  apply active_iff in Q. cbn [fN fM sC] in Q. assert (a = 0 /\ i = 0 /\ (s < 2))%nat as (-> & -> & Hs) by lia.
  destruct (rhs0 sC sE (fun _ _ => 0) t eq_refl ltac:(cbn; lia) eq_refl (sE_incr t) 1 (fun _ => 1) (fun _ => 1) (1 / 2) (fun _ _ _ => 0) (fun _ _ _ => s0) (two_cells x w) 0 s ltac:(lia) Hs) as (vl & vr & Fl & Fr & ->).
  assert (W : forall k, sE (S k) t - sE k t = 1) by (intros k; unfold sE; rewrite S_INR; ring).
  assert (vr = two_cells x w (0%nat, s, 0%nat)) as ->.
  { rewrite (proj1 (face_out sC sE (fun _ _ => 0) t eq_refl ltac:(cbn; lia) eq_refl (sE_incr t) 1 (two_cells x w) (fun _ => 1) 0 s vr ltac:(lia) Hs) ltac:(lra) Fr).
    rewrite W, sqrt_1. field. }
  assert (vl = match s with 0%nat => 0 | S k => two_cells x w (0%nat, k, 0%nat) end) as ->.
  { destruct s as [|k].
    - inversion Fl; subst; try (exfalso; lra); try (exfalso; discriminate). apply (unit_closed t). now left.
    - rewrite (proj1 (face_out sC sE (fun _ _ => 0) t eq_refl ltac:(cbn; lia) eq_refl (sE_incr t) 1 (two_cells x w) (fun _ => 1) 0 k vl ltac:(lia) ltac:(cbn; lia)) ltac:(lra) Fl).
      rewrite W, sqrt_1. field. }
  rewrite W, sqrt_1. destruct s as [|[|s]]; [| |lia]; cbn [two_cells Nat.eqb andb sumn]; field.
Qed.
Lemma two_nonneg x w t : 0 <= x -> 0 <= w -> nowhere_negative sC sE 1 t (two_cells x w).
Proof.
  intros. apply (coef_nonneg sC sE t eq_refl (sE_incr t)). intros a s Ha Hs. cbn [fN sC] in Hs. assert (a = 0%nat) as -> by lia.
  destruct s as [|[|s]]; [| |lia]; cbn [two_cells Nat.eqb andb]; auto.
Qed.
Lemma two_not x w t : w < 0 -> ~ nowhere_negative sC sE 1 t (two_cells x w).
Proof.
  intros Hw H. rewrite (coef_nonneg sC sE t eq_refl (sE_incr t)) in H. specialize (H 0%nat 1%nat ltac:(lia) ltac:(cbn; lia)). cbn [two_cells Nat.eqb andb] in H. lra.
Qed.
(** For longer steps it fails, also for the method 'RK45': a step of length 2 (the bound above is 1/2) from the state
    which fills the left cell makes the right one negative, and one of Euler's from the full right cell. *)
Definition k45 (i : nat) : idx -> R := two_cells (nth i [-3/2; -3/5; -303/400; 213/50; 2543/150; 6198/275] 0) (nth i [1/1; -1/5; 83/200; -311/25; -251/5; -39551/550] 0).
Theorem C179_long_steps_refuted : (exists y', nowhere_negative sC sE 1 0 (two_cells 1 0) /\
    rk_step rk45 unit_problem 0 2 (two_cells 1 0) y' /\ ~ nowhere_negative sC sE 1 2 y') /\
  exists y', nowhere_negative sC sE 1 0 (two_cells 0 1) /\ rk_step euler unit_problem 0 2 (two_cells 0 1) y' /\ ~ nowhere_negative sC sE 1 2 y'.
Proof.
  split.
  - exists (two_cells (113/200) (-211/100)). split; [apply two_nonneg; lra|]. split; [|apply two_not; lra].
    exists k45. split.
    + intros i p Hi. cbn [rs rk45] in Hi.
      assert (X : exists x w, stage rk45 2 (two_cells 1 0) k45 i = two_cells x w /\ k45 i = two_cells (- (3 / 2) * x) (x - 3 / 2 * w)).
      { exists (1 + 2 * sumn 6 (fun j => rA rk45 i j * nth j [-3/2; -3/5; -303/400; 213/50; 2543/150; 6198/275] 0)), (2 * sumn 6 (fun j => rA rk45 i j * nth j [1/1; -1/5; 83/200; -311/25; -251/5; -39551/550] 0)). split.
        - apply functional_extensionality. intros [[a s] j]. unfold stage, k45. cbn [rs rk45]. unfold two_cells.
          destruct ((a =? 0) && (j =? 0))%nat; [|rewrite sumn_zero; [ring|intros; ring]].
          destruct s as [|[|s]]; [reflexivity|ring|]. rewrite sumn_zero; [ring|intros; ring].
        - unfold k45. do 6 (destruct i as [|i]; [f_equal; cbn [rA rk45 sumn nth rk45_rows]; field|]). lia. }
      destruct X as (x & w & -> & ->). now rewrite two_rhs.
    + intros [[a s] j]. cbn [rs rk45 sumn]. unfold k45, two_cells. destruct ((a =? 0) && (j =? 0))%nat; [|ring].
      destruct s as [|[|s]]; [| |ring]; cbn [rb rk45 nth]; field.
  - exists (two_cells 0 (-2)). split; [apply two_nonneg; lra|]. split; [|apply two_not; lra].
    exists (fun _ => two_cells 0 (- (3 / 2))). split.
    + intros i p _. replace (stage euler 2 (two_cells 0 1) (fun _ => two_cells 0 (- (3 / 2))) i) with (two_cells 0 1).
      * rewrite two_rhs. f_equal; ring.
      * apply functional_extensionality. intros q. unfold stage. cbn [rs euler sumn rA]. ring.
    + intros [[a s] j]. cbn [rs euler sumn rb]. unfold two_cells. destruct ((a =? 0) && (j =? 0))%nat; [|ring]. destruct s as [|[|s]]; field.
Qed.
Print Assumptions C179_long_steps_refuted.
(** the hypotheses of the three theorems hold for the unit problem: Euler steps up to 1/2, implicit steps of any length *)
Example C179_example hs y' : (forall h, In h hs -> 0 <= h <= 1 / 2) -> rk_run euler unit_problem 0 (two_cells 1 0) hs y' -> nowhere_negative sC sE 1 (0 + total hs) y'.
Proof.
  intros Hh. apply (C179_explicit sC sE (fun _ _ => 0) 1 (fun _ => 1) (fun _ => 1) (1 / 2) (fun _ _ _ => 0) (fun _ _ _ => s0) 0 (0 + total hs) (1 / 2)); auto; try lra.
  - intros; apply sE_incr.
  - intros. lra.
  - intros. lra.
  - intros t _ v Hv. rewrite (unit_closed t v Hv). lra.
  - intros a s t _ _ _. unfold widening, leaving. replace (sE (S s) t - sE s t) with 1 by (unfold sE; rewrite S_INR; ring).
    rewrite (Rmax_right 0 (1 - 0)), (Rmax_left 0 (0 - 1)) by lra. lra.
  - apply two_nonneg; lra.
Qed.
Example C179_example_implicit hs y' : (forall h, In h hs -> 0 <= h) -> rk_run implicit_euler unit_problem 0 (two_cells 1 0) hs y' ->
  nowhere_negative sC sE 1 (0 + total hs) y' /\ nowhere_above sC sE 1 1 (0 + total hs) y'.
Proof.
  intros Hh Hr. split.
  - apply (C179_implicit sC sE (fun _ _ => 0) 1 (fun _ => 1) (fun _ => 1) (1 / 2) (fun _ _ _ => 0) (fun _ _ _ => s0) 0 (0 + total hs) hs (two_cells 1 0)); auto; try lra.
    + intros; apply sE_incr.
    + intros. lra.
    + intros. lra.
    + intros t _ v Hv. rewrite (unit_closed t v Hv). lra.
    + intros h s t Hi _ _. specialize (Hh h Hi). unfold widening. cbn [sumn]. replace ((0 - 0) / (sE (S s) t - sE s t)) with 0 by (unfold Rdiv; ring). lra.
    + apply two_nonneg; lra.
  - apply (C179_implicit_maximum sC INR 1 (fun _ => 1) (fun _ => 1) (1 / 2) (fun _ _ _ => s0) 0 hs (two_cells 1 0) y' 1); auto; try lra; try (cbn [sumn]; lra).
    + apply (sE_incr 0).
    + intros. lra.
    + intros t _ v Hv. change (fun k => INR k) with (fun k => sE k t) in Hv. rewrite (unit_closed t v Hv). lra.
    + intros a s x Ha Hs. cbv beta. rewrite (field0 sC (fun k _ => INR k) 0 eq_refl (sE_incr 0)) by auto. rewrite S_INR.
      replace (INR s + 1 - INR s) with 1 by ring. rewrite sqrt_1. cbn [fN sC] in Hs. assert (a = 0%nat) as -> by lia.
      destruct s as [|[|s]]; [| |lia]; cbn [two_cells Nat.eqb andb]; lra.
Qed.
