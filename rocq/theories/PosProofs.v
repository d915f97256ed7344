(** Order preservation of the piecewise-constant slab scheme on moving meshes. *)
From Coquelicot Require Import Coquelicot.
From Verif Require Import Py PyLemmas Calc Legendre Cheb DGModel DGSpec DGProofs DGInt DGBalance DGFinal StabSpec StabProofs ErrSpec.

(** ** Negative parts *)
Definition neg (x : R) : R := Rmin x 0.
Lemma neg_le0 x : neg x <= 0. Proof. apply Rmin_r. Qed.
Lemma neg_le x : neg x <= x. Proof. apply Rmin_l. Qed.
Lemma neg_mul x : neg x * x = neg x ^ 2.
Proof. unfold neg, Rmin. destruct (Rle_dec x 0); ring. Qed.
Lemma neg_0 x : 0 <= x -> neg x = 0. Proof. intros. unfold neg. now apply Rmin_right. Qed.
Lemma neg_inv x : neg x ^ 2 <= 0 -> 0 <= x.
Proof. intros H. unfold neg, Rmin in H. destruct (Rle_dec x 0); nra. Qed.
Lemma neg_cross x y k : 0 <= k -> neg x * (k * y) <= k * ((neg x ^ 2 + neg y ^ 2) / 2).
Proof.
  intros K. apply (Rle_trans _ (neg x * (k * neg y))).
  - assert (k * neg y <= k * y) by (apply Rmult_le_compat_l; [auto|apply neg_le]). pose proof (neg_le0 x). nra.
  - assert (0 <= (neg x - neg y) ^ 2) by apply pow2_ge_0. nra.
Qed.
Lemma neg_sq_der (x : R) : is_derive (fun z => neg z ^ 2) x (2 * neg x).
Proof.
  destruct (Rtotal_order x 0) as [H|[->|H]].
  - apply (dd_loc (fun z => z * z)).
    { apply (filter_imp (fun z : R => z < 0)); [|apply (open_lt 0 x H)]. intros z Hz. cbv beta in Hz. unfold neg. rewrite Rmin_left by lra. ring. }
    eapply dd_eq; [apply dd_mult; apply dd_id|]. unfold neg. rewrite Rmin_left by lra. ring.
  - apply is_derive_Reals. intros eps He. exists (mkposreal eps He). intros h Hh Hb. cbn in Hb. rewrite (neg_0 0) by lra.
    rewrite Rplus_0_l. apply (Rle_lt_trans _ (Rabs h)); [|exact Hb].
    unfold neg, Rmin. destruct (Rle_dec h 0).
    + replace ((h ^ 2 - 0 ^ 2) / h - 2 * 0) with h by (field; auto). lra.
    + replace ((0 ^ 2 - 0 ^ 2) / h - 2 * 0) with 0 by (field; auto). rewrite Rabs_R0. apply Rabs_pos.
  - apply (dd_loc (fun _ => 0)).
    { apply (filter_imp (fun z : R => 0 < z)); [|apply (open_gt 0 x H)]. intros z Hz. cbv beta in Hz. rewrite neg_0 by lra. ring. }
    eapply dd_eq; [apply dd_const|]. rewrite neg_0 by lra. ring.
Qed.
Lemma term_le n (f : nat -> R) i : (forall i, (i < n)%nat -> 0 <= f i) -> (i < n)%nat -> f i <= sumn n f.
Proof.
  intros P. induction n as [|n IH]; [lia|]. intros Hi. cbn [sumn]. assert (0 <= sumn n f) by (apply sumn_nonneg; auto).
  assert (0 <= f n) by auto. destruct (Nat.eq_dec i n) as [->|N]; [lra|]. specialize (IH ltac:(auto) ltac:(lia)). lra.
Qed.

Definition total (n m : nat) (y : nat -> nat -> R) : R := sumn n (fun a => sumn m (fun s => neg (y a s) ^ 2)).
Lemma total_term n m y a s : (a < n)%nat -> (s < m)%nat -> neg (y a s) ^ 2 <= total n m y.
Proof.
  intros Ha Hs. unfold total. apply (Rle_trans _ (sumn m (fun s => neg (y a s) ^ 2))).
  - apply (term_le m (fun s => neg (y a s) ^ 2)); auto. intros; apply pow2_ge_0.
  - apply (term_le n (fun a => sumn m (fun s => neg (y a s) ^ 2))); auto. intros. apply sumn_nonneg. intros. apply pow2_ge_0.
Qed.
Lemma total_nonneg n m y : 0 <= total n m y.
Proof. apply sumn_nonneg; intros; apply sumn_nonneg; intros; apply pow2_ge_0. Qed.
(** if every negative part is pushed back at a bounded rate, nothing becomes negative *)
Lemma invariant n m (y : nat -> nat -> R -> R) B t0 t1 : t0 <= t1 ->
  (forall t, t0 <= t <= t1 -> forall a s, (a < n)%nat -> (s < m)%nat -> exists d : R,
     is_derive (y a s) t d /\ neg (y a s t) * d <= B * total n m (fun a s => y a s t)) ->
  (forall a s, (a < n)%nat -> (s < m)%nat -> 0 <= y a s t0) ->
  forall a s, (a < n)%nat -> (s < m)%nat -> 0 <= y a s t1.
Proof.
  intros Hle H H0. pose (F := fun t => total n m (fun a s => y a s t)).
  assert (K : F t1 <= exp (- (- (2 * (INR n * (INR m * B)))) * (t1 - t0)) * F t0).
  { apply decay; auto. intros t Ht.
    exists (sumn n (fun a => sumn m (fun s => 2 * (neg (y a s t) * Derive (y a s) t)))). split.
    - unfold F, total. apply (StabProofs.dd_sumn n (fun a w => sumn m (fun s => neg (y a s w) ^ 2))). intros a Ha.
      apply (StabProofs.dd_sumn m (fun s w => neg (y a s w) ^ 2)). intros s Hs. destruct (H t Ht a s Ha Hs) as (d & Hd & _).
      rewrite (is_derive_unique (y a s) t d Hd). eapply dd_eq; [apply (dd_comp (fun z => neg z ^ 2) (y a s)); [apply neg_sq_der|exact Hd]|]. ring.
    - apply (Rle_trans _ (sumn n (fun a => sumn m (fun s => 2 * (B * F t))))).
      + apply sumn_le. intros a Ha. apply sumn_le. intros s Hs. destruct (H t Ht a s Ha Hs) as (d & Hd & Hn).
        rewrite (is_derive_unique (y a s) t d Hd). unfold F. lra.
      + assert (Q : forall k x, sumn k (fun _ => x) = INR k * x) by (intros k x; induction k as [|k IH]; [cbn; ring|]; cbn [sumn]; rewrite IH, S_INR; ring).
        rewrite !Q. right. ring. }
  assert (F t0 = 0) as E0.
  { unfold F, total. apply sumn_zero. intros a Ha. apply sumn_zero. intros s Hs. rewrite neg_0 by auto. ring. }
  rewrite E0, Rmult_0_r in K. intros a s Ha Hs. apply neg_inv. apply (Rle_trans _ (F t1)); [|exact K].
  exact (total_term n m (fun a s => y a s t1) a s Ha Hs).
Qed.

(** ** Bounded coefficients *)
Lemma bounded (f : R -> R) t0 t1 : t0 <= t1 -> (forall t, t0 <= t <= t1 -> continuous f t) -> exists K, forall t, t0 <= t <= t1 -> f t <= K.
Proof.
  intros Hle Hc. destruct (continuity_ab_maj f t0 t1 Hle) as (x & Hx & _).
  - intros t Ht. apply continuity_pt_filterlim. now apply Hc.
  - exists (f x). exact Hx.
Qed.
Lemma bounded_fin n (f : nat -> R -> R) t0 t1 : t0 <= t1 -> (forall k, (k < n)%nat -> forall t, t0 <= t <= t1 -> continuous (f k) t) ->
  exists K, 0 <= K /\ forall k t, (k < n)%nat -> t0 <= t <= t1 -> f k t <= K.
Proof.
  intros Hle. induction n as [|n IH]; intros Hc.
  - exists 0. split; [lra|]. intros; lia.
  - destruct IH as (K & KP & HK); [auto|]. destruct (bounded (f n) t0 t1 Hle (Hc n ltac:(lia))) as (K' & HK').
    exists (Rmax K K'). split; [apply (Rle_trans _ K); [auto|apply Rmax_l]|]. intros k t Hk Ht. destruct (Nat.eq_dec k n) as [->|N].
    + apply (Rle_trans _ K'); [auto|apply Rmax_r].
    + apply (Rle_trans _ K); [apply HK; auto; lia|apply Rmax_l].
Qed.

(** ** The scheme *)
Section Scheme.
Variables (N N_ang : nat) (E D : nat -> R -> R) (ws mus : nat -> R) (cc t0 t1 : R).
Hypothesis Hle : t0 <= t1.
Hypothesis HI : forall t, t0 <= t <= t1 -> increasing N (fun k => E k t).
Hypothesis HD : forall k, (k <= N)%nat -> forall t, is_derive (E k) t (D k t) /\ continuous (D k) t.
Hypothesis Hw : forall a, (a < N_ang)%nat -> 0 <= ws a.
Hypothesis Hc : 0 <= cc.

Lemma speeds_bounded : exists K, 0 <= K /\ forall a f s t, (a < N_ang)%nat -> (f <= N)%nat -> (s < N)%nat -> t0 <= t <= t1 ->
  Rabs (mus a - D f t) / (E (S s) t - E s t) <= K.
Proof.
  assert (C : forall a f s, (f <= N)%nat -> (s < N)%nat -> forall t, t0 <= t <= t1 -> continuous (fun t => Rabs (mus a - D f t) / (E (S s) t - E s t)) t).
  { intros a f s Hf Hs t Ht. apply (continuous_mult (fun t => Rabs (mus a - D f t)) (fun t => / (E (S s) t - E s t))).
    - apply (continuous_comp (fun t => mus a - D f t) Rabs); [|apply continuous_Rabs].
      apply (continuous_minus (fun _ => mus a) (D f)); [apply continuous_const|apply HD; auto].
    - apply (ex_derive_continuous (V := R_NormedModule)). eexists. apply dd_inv.
      + apply dd_minus; apply HD; lia.
      + pose proof (HI t Ht s Hs). cbv beta in H. lra. }
  assert (X : forall a f, (f <= N)%nat -> exists K, 0 <= K /\ forall s t, (s < N)%nat -> t0 <= t <= t1 -> Rabs (mus a - D f t) / (E (S s) t - E s t) <= K).
  { intros a f Hf. apply (bounded_fin N (fun s t => Rabs (mus a - D f t) / (E (S s) t - E s t)) t0 t1 Hle). intros; now apply C. }
  assert (Y : forall n (P : nat -> R -> Prop), (forall a k k', P a k -> k <= k' -> P a k') -> (forall a, (a < n)%nat -> exists k, 0 <= k /\ P a k) ->
     exists k, 0 <= k /\ forall a, (a < n)%nat -> P a k).
  { intros n P mono. induction n as [|n IH]; intros H; [exists 0; split; [lra|intros; lia]|].
    destruct IH as (k & k0 & Hk); [intros; apply H; lia|]. destruct (H n ltac:(lia)) as (k' & k0' & Hk').
    exists (k + k'). split; [lra|]. intros a Ha. destruct (Nat.eq_dec a n) as [->|Ne].
    - apply (mono n k'); auto; lra.
    - apply (mono a k); [apply Hk; lia|lra]. }
  destruct (Y N_ang (fun a k => forall f s t, (f <= N)%nat -> (s < N)%nat -> t0 <= t <= t1 -> Rabs (mus a - D f t) / (E (S s) t - E s t) <= k)) as (k & k0 & Hk).
  - intros a k k' H Hk f s t Hf Hs Ht. apply (Rle_trans _ k); auto.
  - intros a _. destruct (Y (S N) (fun f k => forall s t, (s < N)%nat -> t0 <= t <= t1 -> Rabs (mus a - D f t) / (E (S s) t - E s t) <= k)) as (k & k0 & Hk).
    + intros f k k' H Hk s t Hs Ht. apply (Rle_trans _ k); auto.
    + intros f Hf. apply X. lia.
    + exists k. split; [auto|]. intros f s t Hf. apply Hk. lia.
  - exists k. split; [auto|]. intros a f s t Ha Hf Hs Ht. now apply Hk.
Qed.

Variables (y : nat -> nat -> R -> R) (inl inr : nat -> R -> R).
(** the value sent through face f *)
Definition sent (a f : nat) (t : R) : R :=
  if Rle_dec 0 (mus a - D f t)
  then match f with 0%nat => inl a t | S k => y a k t / (E (S k) t - E k t) end
  else if (f <? N)%nat then y a f t / (E (S f) t - E f t) else inr a t.
Hypothesis Hin : forall a t, (a < N_ang)%nat -> t0 <= t <= t1 -> (0 < mus a - D 0%nat t -> 0 <= inl a t) /\ (mus a - D N t < 0 -> 0 <= inr a t).
Hypothesis Hy : forall t, t0 <= t <= t1 -> forall a s, (a < N_ang)%nat -> (s < N)%nat -> exists d : R, is_derive (y a s) t d /\
  (mus a - D s t) * sent a s t - (mus a - D (S s) t) * sent a (S s) t - y a s t + cc * sumn N_ang (fun l => ws l * y l s t) <= d.

Lemma stays_nonneg : (forall a s, (a < N_ang)%nat -> (s < N)%nat -> 0 <= y a s t0) -> forall a s, (a < N_ang)%nat -> (s < N)%nat -> 0 <= y a s t1.
Proof.
  destruct speeds_bounded as (K & K0 & HK).
  apply (invariant N_ang N y (2 * K + cc * sumn N_ang ws) t0 t1 Hle).
  intros t Ht a s Ha Hs. destruct (Hy t Ht a s Ha Hs) as (d & Hd & Hlow). exists d. split; [exact Hd|].
  set (T := total N_ang N (fun a s => y a s t)).
  assert (TP : 0 <= T) by apply total_nonneg.
  assert (TT : forall b k, (b < N_ang)%nat -> (k < N)%nat -> neg (y b k t) ^ 2 <= T) by (intros; apply (total_term N_ang N (fun a s => y a s t)); auto).
  assert (hp : forall k, (k < N)%nat -> 0 < E (S k) t - E k t) by (intros k Hk; pose proof (HI t Ht k Hk) as X; cbv beta in X; lra).
  pose proof (neg_le0 (y a s t)) as m0. set (m := neg (y a s t)) in *.
  apply (Rle_trans _ (m * ((mus a - D s t) * sent a s t - (mus a - D (S s) t) * sent a (S s) t - y a s t + cc * sumn N_ang (fun l => ws l * y l s t)))).
  { nra. }
  assert (A1 : m * ((mus a - D s t) * sent a s t) <= K * T).
  { unfold sent. destruct (Rle_dec 0 (mus a - D s t)) as [P|P].
    - destruct s as [|k].
      + assert (0 <= (mus a - D 0%nat t) * inl a t).
        { destruct (Req_dec (mus a - D 0%nat t) 0) as [->|Ne]; [lra|]. apply Rmult_le_pos; [lra|]. apply Hin; auto. lra. }
        assert (0 <= K * T) by (apply Rmult_le_pos; auto). nra.
      + set (r := (mus a - D (S k) t) / (E (S k) t - E k t)).
        assert (R0 : 0 <= r) by (apply Rmult_le_pos; [auto|]; left; apply Rinv_0_lt_compat, hp; lia).
        assert (RK : r <= K) by (unfold r; pose proof (HK a (S k) k t Ha ltac:(lia) ltac:(lia) Ht) as X; rewrite Rabs_pos_eq in X by auto; exact X).
        replace ((mus a - D (S k) t) * (y a k t / (E (S k) t - E k t))) with (r * y a k t) by (unfold r; field; apply Rgt_not_eq, hp; lia).
        apply (Rle_trans _ _ _ (neg_cross _ _ r R0)). fold m. pose proof (TT a (S k) Ha Hs). fold m in H. pose proof (TT a k Ha ltac:(lia)).
        apply Rmult_le_compat; auto; nra.
    - destruct (Nat.ltb_spec s N); [|lia].
      set (r := - (mus a - D s t) / (E (S s) t - E s t)).
      assert (R0 : 0 <= r) by (apply Rmult_le_pos; [lra|]; left; apply Rinv_0_lt_compat, hp; auto).
      replace (m * ((mus a - D s t) * (y a s t / (E (S s) t - E s t)))) with (- (r * (m * y a s t))) by (unfold r; field; apply Rgt_not_eq, hp; auto).
      unfold m. rewrite neg_mul. fold m. assert (0 <= r * m ^ 2) by (apply Rmult_le_pos; [auto|apply pow2_ge_0]). assert (0 <= K * T) by (apply Rmult_le_pos; auto). lra. }
  assert (A2 : m * (- ((mus a - D (S s) t) * sent a (S s) t)) <= K * T).
  { unfold sent. destruct (Rle_dec 0 (mus a - D (S s) t)) as [P|P].
    - set (r := (mus a - D (S s) t) / (E (S s) t - E s t)).
      assert (R0 : 0 <= r) by (apply Rmult_le_pos; [lra|]; left; apply Rinv_0_lt_compat, hp; auto).
      replace (m * - ((mus a - D (S s) t) * (y a s t / (E (S s) t - E s t)))) with (- (r * (m * y a s t))) by (unfold r; field; apply Rgt_not_eq, hp; auto).
      unfold m. rewrite neg_mul. fold m. assert (0 <= r * m ^ 2) by (apply Rmult_le_pos; [auto|apply pow2_ge_0]). assert (0 <= K * T) by (apply Rmult_le_pos; auto). lra.
    - destruct (Nat.ltb_spec (S s) N).
      + set (r := - (mus a - D (S s) t) / (E (S (S s)) t - E (S s) t)).
        assert (R0 : 0 <= r) by (apply Rmult_le_pos; [lra|]; left; apply Rinv_0_lt_compat, hp; lia).
        assert (RK : r <= K) by (unfold r; pose proof (HK a (S s) (S s) t Ha ltac:(lia) ltac:(lia) Ht) as X; rewrite Rabs_left in X by lra; exact X).
        replace (- ((mus a - D (S s) t) * (y a (S s) t / (E (S (S s)) t - E (S s) t)))) with (r * y a (S s) t) by (unfold r; field; apply Rgt_not_eq, hp; lia).
        apply (Rle_trans _ _ _ (neg_cross _ _ r R0)). fold m. pose proof (TT a s Ha Hs) as X1. fold m in X1. pose proof (TT a (S s) Ha ltac:(lia)).
        apply Rmult_le_compat; auto; nra.
      + assert (ES : S s = N) by lia. rewrite ES in P |- *.
        assert (0 <= - (mus a - D N t) * inr a t) by (apply Rmult_le_pos; [lra|]; apply Hin; auto; lra).
        assert (0 <= K * T) by (apply Rmult_le_pos; auto). nra. }
  assert (A3 : m * (- y a s t) <= 0).
  { replace (m * - y a s t) with (- (m * y a s t)) by ring. unfold m. rewrite neg_mul. pose proof (pow2_ge_0 (neg (y a s t))). lra. }
  assert (A4 : m * (cc * sumn N_ang (fun l => ws l * y l s t)) <= cc * sumn N_ang ws * T).
  { replace (m * (cc * sumn N_ang (fun l => ws l * y l s t))) with (cc * sumn N_ang (fun l => m * (ws l * y l s t))) by (rewrite sumn_scal; ring).
    rewrite Rmult_assoc. apply Rmult_le_compat_l; [auto|]. rewrite <- sumn_scal_r. apply sumn_le. intros l Hl.
    apply (Rle_trans _ _ _ (neg_cross _ _ (ws l) (Hw l Hl))). fold m. apply Rmult_le_compat_l; [auto|].
    pose proof (TT a s Ha Hs) as X1. fold m in X1. pose proof (TT l s Hl Hs). lra. }
  nra.
Qed.
End Scheme.
