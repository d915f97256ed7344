(** Gaussian elimination: lemmas. *)
From Verif Require Import Py PyLemmas SplineModel.

(** [x] solves the system of N equations. *)
Definition solves (N : nat) (A : mat) (b x : vec) : Prop :=
  forall i, (i < N)%nat -> sumn N (fun j => A i j * x j) = b i.
(** Only the zero vector is mapped to zero. *)
Definition nonsingular (N : nat) (A : mat) : Prop :=
  forall x, (forall i, (i < N)%nat -> sumn N (fun j => A i j * x j) = 0) -> forall j, (j < N)%nat -> x j = 0.

Lemma sumn_split N i f : (i < N)%nat -> sumn N f = sumn i f + f i + sumn (N - S i) (fun d => f (S i + d)%nat).
Proof.
  induction N as [|N IH]; intros Hi; [lia|].
  destruct (Nat.eq_dec i N) as [->|Hn].
  - replace (S N - S N)%nat with 0%nat by lia. simpl. lra.
  - replace (S N - S i)%nat with (S (N - S i)) by lia. cbn [sumn]. rewrite IH by lia.
    replace (S i + (N - S i))%nat with N by lia. lra.
Qed.
Definition skip (k j : nat) : nat := if (j <? k)%nat then j else S j.
Lemma sumn_skip n k f : (k <= n)%nat -> sumn (S n) f = f k + sumn n (fun j => f (skip k j)).
Proof.
  induction n as [|n IH]; intros Hk.
  - replace k with 0%nat by lia. simpl. lra.
  - destruct (Nat.eq_dec k (S n)) as [->|Hn].
    + cbn [sumn]. assert (E : sumn n (fun j => f (skip (S n) j)) = sumn n f).
      { apply sumn_ext. intros j Hj. unfold skip. destruct (Nat.ltb_spec j (S n)); [auto|lia]. }
      rewrite E. unfold skip. destruct (Nat.ltb_spec n (S n)); [|lia]. lra.
    + change (sumn (S (S n)) f) with (sumn (S n) f + f (S n)). rewrite IH by lia. cbn [sumn].
      assert (E : skip k n = S n). { unfold skip. destruct (Nat.ltb_spec n k); [lia|auto]. }
      rewrite E. lra.
Qed.

(** Fewer equations than unknowns: a solution that is not zero. *)
Lemma underdetermined : forall m n (A : mat), (m < n)%nat ->
  exists x : vec, (exists j, (j < n)%nat /\ x j <> 0) /\ forall i, (i < m)%nat -> sumn n (fun j => A i j * x j) = 0.
Proof.
  induction m as [|m IH]; intros n A Hn.
  - exists (fun _ => 1). split; [exists 0%nat; split; [lia|lra]|intros; lia].
  - assert (D : (forall j, (j < n)%nat -> A m j = 0) \/ exists k, (k < n)%nat /\ A m k <> 0).
    { clear. induction n as [|n [IHn|[k [Hk Ak]]]].
      - left. intros; lia.
      - destruct (Req_dec (A m n) 0) as [E|E].
        + left. intros j Hj. destruct (Nat.eq_dec j n) as [->|]; [auto|apply IHn; lia].
        + right. exists n. split; [lia|auto].
      - right. exists k. split; [lia|auto]. }
    destruct D as [D|[k [Hk Ak]]].
    + destruct (IH n A) as [x [Hx Hs]]; [lia|]. exists x. split; [auto|]. intros i Hi.
      destruct (Nat.eq_dec i m) as [->|]; [|apply Hs; lia].
      apply sumn_zero. intros j Hj. rewrite D by lia. lra.
    + destruct n as [|n]; [lia|].
      destruct (IH n (fun i j => A i (skip k j) - A i k / A m k * A m (skip k j))) as [x [[j0 [Hj0 Hx0]] Hs]]; [lia|].
      set (v := - sumn n (fun j => A m (skip k j) * x j) / A m k).
      set (y := fun j => if (j =? k)%nat then v else if (j <? k)%nat then x j else x (j - 1)%nat).
      assert (Yk : y k = v). { unfold y. now rewrite Nat.eqb_refl. }
      assert (Ys : forall j, y (skip k j) = x j).
      { intros j. unfold y, skip. destruct (Nat.ltb_spec j k) as [L|L].
        - destruct (Nat.eqb_spec j k); [lia|]. destruct (Nat.ltb_spec j k); [auto|lia].
        - destruct (Nat.eqb_spec (S j) k); [lia|]. destruct (Nat.ltb_spec (S j) k); [lia|]. f_equal. lia. }
      exists y. split.
      * exists (skip k j0). split; [unfold skip; destruct (Nat.ltb_spec j0 k); lia|]. now rewrite Ys.
      * intros i Hi. rewrite (sumn_skip n k) by lia. rewrite Yk.
        rewrite (sumn_ext n _ (fun j => A i (skip k j) * x j)) by (intros; now rewrite Ys).
        destruct (Nat.eq_dec i m) as [->|Ne].
        -- unfold v. field. auto.
        -- assert (Hi' : (i < m)%nat) by lia. specialize (Hs i Hi').
           rewrite (sumn_ext n _ (fun j => A i (skip k j) * x j - A i k / A m k * (A m (skip k j) * x j))) in Hs
             by (intros; ring).
           rewrite sumn_minus, sumn_scal in Hs. unfold v.
           replace (sumn n (fun j => A i (skip k j) * x j))
             with (A i k / A m k * sumn n (fun j => A m (skip k j) * x j)) by lra.
           field. auto.
Qed.

(** The largest magnitude of a row is zero only for a zero row. *)
Lemma max_abs_zero n f : max_abs n f = 0 -> forall j, (j < n)%nat -> f j = 0.
Proof.
  assert (P : forall n, 0 <= max_abs n f). { induction n0; simpl; [lra|]. eapply Rle_trans; [apply IHn0|apply Rmax_l]. }
  induction n as [|n IH]; simpl; intros H j Hj; [lia|].
  assert (A1 := Rmax_l (max_abs n f) (Rabs (f n))). assert (A2 := Rmax_r (max_abs n f) (Rabs (f n))).
  assert (B1 := P n). assert (B2 := Rabs_pos (f n)).
  destruct (Nat.eq_dec j n) as [->|].
  - assert (Rabs (f n) = 0) by lra. destruct (Req_dec (f n) 0) as [|N0]; [auto|]. apply Rabs_no_R0 in N0. lra.
  - apply IH; [lra|lia].
Qed.

(** The row argmax picks. *)
Lemma argmax_range q k i best : argmax_from q k i best = best \/ (i <= argmax_from q k i best < i + k)%nat.
Proof.
  revert i best. induction k as [|k IH]; intros i best; simpl.
  - destruct (q best); auto.
  - assert (K : forall b, b = best \/ b = i ->
        argmax_from q k (S i) b = best \/ (i <= argmax_from q k (S i) b < i + S k)%nat).
    { intros b Hb. destruct (IH (S i) b) as [E|E]; [rewrite E; destruct Hb; subst; [auto|right; lia]|right; lia]. }
    destruct (q best); auto; destruct (q i); try (right; lia); apply K;
      match goal with |- context [if ?c then _ else _] => destruct c; auto end.
Qed.
Lemma argmax_nan q k i best : q best = Nan -> argmax_from q k i best = best.
Proof. intros H. destruct k; simpl; rewrite H; auto. Qed.
Lemma argmax_largest (v : nat -> R) k i best :
  forall r, (r = best \/ i <= r < i + k)%nat -> v r <= v (argmax_from (fun r => Num (v r)) k i best).
Proof.
  revert i best. induction k as [|k IH]; intros i best; cbn [argmax_from].
  - intros r [->|H]; [lra|lia].
  - intros r Hr. unfold larger, Rltb.
    destruct (Rlt_dec (v best) (v i)) as [L|L].
    + destruct Hr as [->|Hr].
      * eapply Rle_trans; [|apply (IH (S i) i); auto]. lra.
      * destruct (Nat.eq_dec r i) as [->|]; apply (IH (S i) i); [auto|right; lia].
    + destruct Hr as [->|Hr].
      * apply (IH (S i) best). auto.
      * destruct (Nat.eq_dec r i) as [->|].
        -- eapply Rle_trans; [|apply (IH (S i) best); auto]. lra.
        -- apply (IH (S i) best). right. lia.
Qed.

Lemma pivot_range N U s c : (c < N)%nat -> (c <= pivot_row N U s c < N)%nat.
Proof. intros. unfold pivot_row. destruct (argmax_range (fun i => abs_quo (U i c) (s c)) (N - S c) (S c) c); lia. Qed.
Lemma pivot_zero_scale N U s c : s c = 0 -> U c c = 0 -> pivot_row N U s c = c.
Proof. intros Hs Hu. unfold pivot_row. apply argmax_nan. unfold abs_quo. now rewrite Hs, Hu, Reqb_refl. Qed.
Lemma pivot_largest N U s c i : s c <> 0 -> (c <= i < N)%nat -> Rabs (U i c) <= Rabs (U (pivot_row N U s c) c).
Proof.
  intros Hs Hi. unfold pivot_row.
  assert (E : forall k i b, argmax_from (fun i => abs_quo (U i c) (s c)) k i b
                            = argmax_from (fun r => Num (Rabs (U r c / s c))) k i b).
  { clear i Hi. induction k as [|k IH]; intros i b; cbn [argmax_from]; unfold abs_quo;
      destruct (Reqb_spec (s c) 0); try tauto; auto. }
  rewrite E.
  assert (L := argmax_largest (fun r => Rabs (U r c / s c)) (N - S c) (S c) c i). simpl in L.
  assert (Hi' : i = c \/ (S c <= i < S c + (N - S c))%nat) by lia. specialize (L Hi').
  unfold Rdiv in L. rewrite !Rabs_mult in L.
  apply Rmult_le_reg_r with (2 := L). apply Rabs_pos_lt. now apply Rinv_neq_0_compat.
Qed.

(** Solutions of U x = t * (last column). *)
Definition sat (N : nat) (U : mat) (t : R) (x : vec) : Prop :=
  forall i, (i < N)%nat -> sumn N (fun j => U i j * x j) = t * U i N.

Lemma swap_sat N U t x a b : (a < N)%nat -> (b < N)%nat -> sat N (swap_rows U a b) t x <-> sat N U t x.
Proof.
  intros Ha Hb. unfold sat, swap_rows. split; intros H i Hi.
  - destruct (Nat.eq_dec i a) as [->|Na].
    + specialize (H b Hb). destruct (Nat.eqb_spec b a); [subst; auto|]. now rewrite Nat.eqb_refl in H.
    + destruct (Nat.eq_dec i b) as [->|Nb].
      * specialize (H a Ha). now rewrite Nat.eqb_refl in H.
      * specialize (H i Hi). destruct (Nat.eqb_spec i a); [lia|]. destruct (Nat.eqb_spec i b); [lia|]. auto.
  - destruct (i =? a)%nat; [now apply H|]. destruct (i =? b)%nat; now apply H.
Qed.
Lemma elim_sat N U V t x c : (c < N)%nat -> eliminate N U c = Ok V -> sat N V t x <-> sat N U t x.
Proof.
  unfold eliminate. intros Hc.
  destruct (Nat.ltb_spec (S c) N); [|intros E; injection E as <-; tauto].
  destruct (Reqb_spec (U c c) 0) as [|Hp]; [discriminate|]. intros E; injection E as <-.
  assert (G : forall i, sumn N (fun j => (U i j - U i c / U c c * U c j) * x j)
     = sumn N (fun j => U i j * x j) - U i c / U c c * sumn N (fun j => U c j * x j)).
  { intros i. rewrite <- sumn_scal, <- sumn_minus. apply sumn_ext. intros; ring. }
  unfold sat. split; intros H' i Hi.
  - assert (Hcc := H' c Hc). rewrite Nat.ltb_irrefl in Hcc.
    specialize (H' i Hi). destruct (c <? i)%nat; [|auto]. rewrite G, Hcc in H'. lra.
  - destruct (c <? i)%nat; [|auto]. rewrite G, (H' i Hi), (H' c Hc). ring.
Qed.

(** Zeros below the diagonal in the first c columns, and non-zero diagonal entries there. *)
Definition tri (N c : nat) (U : mat) : Prop :=
  (forall j i, (j < c)%nat -> (j < i < N)%nat -> U i j = 0) /\ (forall j, (j < c)%nat -> (S j < N)%nat -> U j j <> 0).
(** Rows of scale zero are zero. *)
Definition zero_rows (N : nat) (U : mat) (s : vec) : Prop :=
  forall i, (i < N)%nat -> s i = 0 -> forall j, (j < N)%nat -> U i j = 0.

Lemma swap_tri N U c p : (c <= p < N)%nat -> tri N c U -> tri N c (swap_rows U c p).
Proof.
  intros Hp [H1 H2]. unfold swap_rows. split.
  - intros j i Hj Hi. destruct (i =? c)%nat; [apply H1; lia|]. destruct (i =? p)%nat; [apply H1; lia|]. apply H1; auto.
  - intros j Hj HN. destruct (Nat.eqb_spec j c); [lia|]. destruct (Nat.eqb_spec j p); [lia|]. apply H2; auto.
Qed.
Lemma elim_tri N U V c : (c < N)%nat -> eliminate N U c = Ok V -> tri N c U -> tri N (S c) V.
Proof.
  unfold eliminate. intros Hc E [H1 H2]. destruct (Nat.ltb_spec (S c) N).
  - destruct (Reqb_spec (U c c) 0) as [|Hp]; [discriminate|]. injection E as <-. split.
    + intros j i Hj Hi. destruct (Nat.ltb_spec c i) as [L|L].
      * destruct (Nat.eq_dec j c) as [->|]; [field; auto|].
        rewrite (H1 j i), (H1 j c) by lia. ring.
      * apply H1; lia.
    + intros j Hj HN. destruct (Nat.ltb_spec c j); [lia|]. destruct (Nat.eq_dec j c) as [->|]; [auto|apply H2; lia].
  - injection E as <-. split.
    + intros j i Hj Hi. apply H1; lia.
    + intros j Hj HN. apply H2; lia.
Qed.
Lemma swap_zero_rows N U s c p : (c < N)%nat -> (p < N)%nat -> zero_rows N U s -> zero_rows N (swap_rows U c p) (swap s c p).
Proof.
  unfold zero_rows, swap_rows, swap. intros Hc Hp H i Hi Hs j Hj.
  destruct (i =? c)%nat; [now apply H|]. destruct (i =? p)%nat; now apply H.
Qed.
Lemma elim_zero_rows N U V s c : (c < N)%nat -> eliminate N U c = Ok V -> zero_rows N U s -> zero_rows N V s.
Proof.
  unfold eliminate, zero_rows. intros Hc E H i Hi Hs j Hj. destruct (S c <? N)%nat; [|injection E as <-; now apply H].
  destruct (Reqb_spec (U c c) 0); [discriminate|]. injection E as <-.
  assert (E1 := H i Hi Hs c Hc). assert (E2 := H i Hi Hs j Hj).
  destruct (c <? i)%nat; [|auto]. rewrite E1, E2. field. auto.
Qed.

(** The loop keeps the solutions and makes the matrix triangular. *)
Lemma columns_ok N : forall k c U s V, (c + k = N)%nat -> tri N c U -> columns N U s k c = Ok V ->
  tri N N V /\ forall t x, sat N V t x <-> sat N U t x.
Proof.
  induction k as [|k IH]; intros c U s V Hk HT E; cbn [columns] in E.
  - injection E as <-. replace N with c in * by lia. tauto.
  - assert (Hc : (c < N)%nat) by lia. assert (R := pivot_range N U s c Hc).
    set (p := pivot_row N U s c) in *.
    destruct (eliminate N (swap_rows U c p) c) as [U'|] eqn:EE; [|discriminate]. cbn [bind] in E.
    destruct (IH (S c) U' (swap s c p) V) as [T S]; [lia| |exact E|].
    + eapply elim_tri; [auto|apply EE|]. apply swap_tri; auto; lia.
    + split; [auto|]. intros t x. rewrite S, (elim_sat _ _ _ t x c Hc EE). apply swap_sat; lia.
Qed.

(** Triangular systems. *)
Lemma back_sub_ok N U : (forall j i, (j < i < N)%nat -> U i j = 0) ->
  forall k x0 x, (k <= N)%nat -> BackSub N U k x0 = Ok x ->
  (forall i, (k <= i)%nat -> x i = x0 i) /\
  (forall i, (i < k)%nat -> U i i <> 0 /\ sumn N (fun j => U i j * x j) = U i N).
Proof.
  intros HT. induction k as [|k IH]; intros x0 x Hk E; cbn [BackSub] in E.
  - injection E as <-. split; [auto|intros; lia].
  - destruct (Reqb_spec (U k k) 0) as [|Hp]; [discriminate|].
    apply IH in E; [|lia]. destruct E as [E1 E2].
    assert (K : forall i, (k < i)%nat -> x i = x0 i).
    { intros i Hi. rewrite E1 by lia. destruct (Nat.eqb_spec i k); [lia|auto]. }
    split.
    + intros i Hi. apply K. lia.
    + intros i Hi. destruct (Nat.eq_dec i k) as [->|]; [|apply E2; lia]. split; [auto|].
      rewrite (sumn_split N k) by lia. rewrite (sumn_zero k) by (intros; rewrite HT by lia; ring).
      rewrite (E1 k) by lia. rewrite Nat.eqb_refl.
      rewrite (sumn_ext (N - S k) (fun d => U k (S k + d)%nat * x (S k + d)%nat) (fun d => x0 (S k + d)%nat * U k (S k + d)%nat)).
      * field. auto.
      * intros d _. rewrite K by lia. ring.
Qed.
Lemma back_sub_succeeds N U : forall k x0, (forall i, (i < k)%nat -> U i i <> 0) -> exists x, BackSub N U k x0 = Ok x.
Proof.
  induction k as [|k IH]; intros x0 H; cbn [BackSub]; [eauto|].
  destruct (Reqb_spec (U k k) 0) as [E|]; [exfalso; revert E; apply H; lia|]. apply IH. intros; apply H; lia.
Qed.
Lemma triangular_kernel N U : (forall j i, (j < i < N)%nat -> U i j = 0) -> (forall i, (i < N)%nat -> U i i <> 0) -> nonsingular N U.
Proof.
  intros HT HD x Hx.
  assert (G : forall d j, (N - j <= d)%nat -> (j < N)%nat -> x j = 0).
  { induction d as [|d IH]; intros j Hd Hj; [lia|].
    assert (E := Hx j Hj). rewrite (sumn_split N j) in E by auto.
    rewrite (sumn_zero j) in E by (intros; rewrite HT by lia; ring).
    rewrite (sumn_zero (N - S j)) in E by (intros; rewrite IH by lia; ring).
    assert (D := HD j Hj). apply Rmult_eq_reg_l with (U j j); lra. }
  intros j Hj. apply (G N); lia.
Qed.

Lemma sat_hom N A b x : sat N (augment N A b) 0 x <-> forall i, (i < N)%nat -> sumn N (fun j => A i j * x j) = 0.
Proof.
  unfold sat, augment. split; intros H i Hi; specialize (H i Hi).
  - rewrite Rmult_0_l in H. rewrite <- H. apply sumn_ext. intros j Hj. destruct (Nat.eqb_spec j N); [lia|auto].
  - rewrite Rmult_0_l. rewrite <- H. apply sumn_ext. intros j Hj. destruct (Nat.eqb_spec j N); [lia|auto].
Qed.
Lemma sat_solves N A b x : sat N (augment N A b) 1 x <-> solves N A b x.
Proof.
  unfold sat, augment, solves. split; intros H i Hi; specialize (H i Hi); rewrite Nat.eqb_refl in *.
  - rewrite Rmult_1_l in H. rewrite <- H. apply sumn_ext. intros j Hj. destruct (Nat.eqb_spec j N); [lia|auto].
  - rewrite Rmult_1_l, <- H. apply sumn_ext. intros j Hj. destruct (Nat.eqb_spec j N); [lia|auto].
Qed.

Lemma gauss_sound N A b x : GaussElim N A b = Ok x -> solves N A b x /\ nonsingular N A.
Proof.
  unfold GaussElim. destruct (columns N (augment N A b) (scales N A) N 0) as [V|] eqn:E; [|discriminate]. cbn [bind].
  apply columns_ok in E; [|lia|split; intros; lia]. destruct E as [[T _] S]. intros B.
  apply back_sub_ok in B; [|intros; apply T; lia|lia]. destruct B as [_ B]. split.
  - apply sat_solves, S. intros i Hi. rewrite Rmult_1_l. now apply B.
  - intros y Hy. apply (triangular_kernel N V); [intros; apply T; lia|intros; now apply B|].
    intros i Hi. apply (sat_hom N A b) in Hy. apply S in Hy. rewrite (Hy i Hi). ring.
Qed.

(** A matrix whose pivot is zero is singular. *)
Lemma zero_pivot_singular N U c : (c < N)%nat -> (forall j i, (j < c)%nat -> (j < i < N)%nat -> U i j = 0) ->
  (forall i, (c <= i < N)%nat -> U i c = 0) -> ~ nonsingular N U.
Proof.
  intros Hc HT H0 NS. destruct (underdetermined c (S c) U) as [x [[j [Hj Nz]] Hx]]; [lia|].
  apply Nz. assert (E : (if (j <=? c)%nat then x j else 0) = 0).
  { refine (NS (fun j => if (j <=? c)%nat then x j else 0) _ j _); [|lia]. intros i Hi.
    assert (Z : sumn N (fun j => U i j * (if (j <=? c)%nat then x j else 0)) = sumn (S c) (fun j => U i j * x j)).
    { rewrite (sumn_split N c) by auto. cbn [sumn]. rewrite (sumn_zero (N - S c)).
      - rewrite Nat.leb_refl, Rplus_0_r. f_equal. apply sumn_ext. intros k Hk. destruct (Nat.leb_spec k c); [auto|lia].
      - intros d Hd. destruct (Nat.leb_spec (S c + d) c); [lia|ring]. }
    rewrite Z. destruct (Nat.lt_ge_cases i c) as [L|L]; [now apply Hx|].
    apply sumn_zero. intros k Hk. destruct (Nat.eq_dec k c) as [->|]; [rewrite H0 by lia; ring|rewrite HT by lia; ring]. }
  destruct (Nat.leb_spec j c); [auto|lia].
Qed.
Lemma zero_row_singular N U c : (c < N)%nat -> (forall j, (j < N)%nat -> U c j = 0) -> ~ nonsingular N U.
Proof.
  intros Hc H0 NS. destruct (underdetermined (N - 1) N (fun i => U (skip c i))) as [x [[j [Hj Nz]] Hx]]; [lia|].
  apply Nz. apply NS; [|auto]. intros i Hi. destruct (Nat.eq_dec i c) as [->|].
  - apply sumn_zero. intros k Hk. rewrite H0 by auto. ring.
  - destruct (Nat.lt_ge_cases i c) as [L|L].
    + specialize (Hx i). unfold skip in Hx. destruct (Nat.ltb_spec i c); [|lia]. apply Hx. lia.
    + specialize (Hx (i - 1)%nat). unfold skip in Hx. destruct (Nat.ltb_spec (i - 1) c); [lia|].
      replace (S (i - 1)) with i in Hx by lia. apply Hx. lia.
Qed.
Lemma nonsingular_sat N U V : (forall x, sat N V 0 x <-> sat N U 0 x) -> nonsingular N U -> nonsingular N V.
Proof.
  intros S NS x Hx. apply NS. intros i Hi.
  assert (G : sat N V 0 x) by (intros k Hk; rewrite Hx by auto; ring). apply S in G. rewrite G by auto. ring.
Qed.
Lemma pivot_nonzero N U s c : (c < N)%nat -> nonsingular N U -> tri N c U -> zero_rows N U s ->
  swap_rows U c (pivot_row N U s c) c c <> 0.
Proof.
  intros Hc NS HT HZ E. unfold swap_rows in E. rewrite Nat.eqb_refl in E.
  destruct (Req_dec (s c) 0) as [S0|S0].
  - apply (zero_row_singular N U c Hc); auto.
  - apply (zero_pivot_singular N U c Hc); auto; [apply HT|]. intros i Hi.
    assert (L := pivot_largest N U s c i S0 Hi). rewrite E, Rabs_R0 in L.
    destruct (Req_dec (U i c) 0) as [|Nz]; [auto|]. apply Rabs_pos_lt in Nz. lra.
Qed.
Lemma columns_succeeds N : forall k c U s, (c + k = N)%nat -> nonsingular N U -> tri N c U -> zero_rows N U s ->
  exists V, columns N U s k c = Ok V /\ nonsingular N V /\ (forall i, (c <= i < N)%nat -> V i i <> 0).
Proof.
  induction k as [|k IH]; intros c U s Hk NS HT HZ; cbn [columns].
  - exists U. split; [auto|]. split; [auto|]. intros; lia.
  - assert (Hc : (c < N)%nat) by lia. assert (R := pivot_range N U s c Hc).
    assert (P := pivot_nonzero N U s c Hc NS HT HZ).
    set (p := pivot_row N U s c) in *.
    assert (EE : exists U', eliminate N (swap_rows U c p) c = Ok U' /\ forall j, U' c j = swap_rows U c p c j).
    { unfold eliminate. destruct (S c <? N)%nat; [|eauto].
      destruct (Reqb_spec (swap_rows U c p c c) 0); [tauto|]. eexists. split; [reflexivity|]. intros j. cbv beta. rewrite Nat.ltb_irrefl. auto. }
    destruct EE as [U' [EE Ec]]. rewrite EE. cbn [bind].
    assert (T' : tri N (S c) U'). { eapply elim_tri; [auto|apply EE|]. apply swap_tri; auto; lia. }
    destruct (IH (S c) U' (swap s c p)) as [V [EV [NV DV]]]; [lia| |auto| |].
    + apply (nonsingular_sat N U U'); [|auto]. intros x. rewrite (elim_sat _ _ _ 0 x c Hc EE).
      exact (swap_sat N U 0 x c p Hc (proj2 R)).
    + apply (elim_zero_rows N (swap_rows U c p) U' (swap s c p) c Hc EE). apply swap_zero_rows; auto; lia.
    + exists V. split; [auto|]. split; [auto|]. intros i Hi. destruct (Nat.eq_dec i c) as [->|]; [|apply DV; lia].
      assert (K : forall k c' U s V, (c < c')%nat -> columns N U s k c' = Ok V -> (c' + k = N)%nat -> V c c = U c c).
      { clear - Hc. induction k as [|k IH]; intros c' U s V L E Hk; cbn [columns] in E; [injection E as <-; auto|].
        assert (R := pivot_range N U s c' ltac:(lia)). set (p := pivot_row N U s c') in *.
        destruct (eliminate N (swap_rows U c' p) c') as [U'|] eqn:EE; [|discriminate]. cbn [bind] in E.
        rewrite (IH (S c') U' (swap s c' p) V) by (auto; lia).
        assert (X : swap_rows U c' p c c = U c c).
        { unfold swap_rows. destruct (Nat.eqb_spec c c'); [lia|]. destruct (Nat.eqb_spec c p); [lia|auto]. }
        unfold eliminate in EE. destruct (S c' <? N)%nat; [|injection EE as <-; auto].
        destruct (Reqb _ 0); [discriminate|]. injection EE as <-. destruct (Nat.ltb_spec c' c); [lia|auto]. }
      rewrite (K k (S c) U' (swap s c p) V) by (auto; lia). rewrite Ec. auto.
Qed.
Lemma gauss_complete N A b : nonsingular N A -> exists x, GaussElim N A b = Ok x.
Proof.
  intros NS. unfold GaussElim.
  destruct (columns_succeeds N N 0 (augment N A b) (scales N A)) as [V [E [_ D]]]; [lia| | | |].
  - intros x Hx. apply NS. apply (sat_hom N A b). intros i Hi. rewrite Hx by auto. ring.
  - split; intros; lia.
  - intros i Hi Hs j Hj. unfold augment. destruct (Nat.eqb_spec j N); [lia|]. now apply (max_abs_zero N).
  - rewrite E. cbn [bind]. apply back_sub_succeeds. intros; apply D; lia.
Qed.
Lemma columns_error N : forall k c U s e, columns N U s k c = Err e -> e = ZeroDivision.
Proof.
  induction k as [|k IH]; intros c U s e E; cbn [columns] in E; [discriminate|].
  destruct (eliminate N (swap_rows U c (pivot_row N U s c)) c) as [U'|] eqn:EE; cbn [bind] in E; [eauto|].
  unfold eliminate in EE. destruct (S c <? N)%nat; [|discriminate]. destruct (Reqb _ 0); congruence.
Qed.
Lemma back_sub_error N U : forall k x e, BackSub N U k x = Err e -> e = ZeroDivision.
Proof. induction k as [|k IH]; intros x e E; cbn [BackSub] in E; [discriminate|]. destruct (Reqb _ 0); [congruence|eauto]. Qed.
Lemma gauss_error N A b e : GaussElim N A b = Err e -> e = ZeroDivision.
Proof.
  unfold GaussElim. destruct (columns N (augment N A b) (scales N A) N 0) as [V|e'] eqn:E; cbn [bind]; intros H.
  - eapply back_sub_error; eauto.
  - apply columns_error in E. congruence.
Qed.
