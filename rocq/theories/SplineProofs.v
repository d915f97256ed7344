(** The system of the natural cubic spline: lemmas. *)
From Coq Require Import ZifyNat Zify.
From Verif Require Import Py PyLemmas SplineModel GaussProofs.
Ltac Zify.zify_post_hook ::= Z.to_euclidean_division_equations.

(** Piece [k] of a coefficient vector, its first and second derivative. *)
Definition piece (c : vec) (k : nat) (x : R) : R :=
  c (4 * k)%nat + c (4 * k + 1)%nat * x + c (4 * k + 2)%nat * x ^ 2 + c (4 * k + 3)%nat * x ^ 3.
Definition piece1 (c : vec) (k : nat) (x : R) : R := c (4 * k + 1)%nat + 2 * c (4 * k + 2)%nat * x + 3 * c (4 * k + 3)%nat * x ^ 2.
Definition piece2 (c : vec) (k : nat) (x : R) : R := 2 * c (4 * k + 2)%nat + 6 * c (4 * k + 3)%nat * x.

Lemma dot_set4 N A i l v0 v1 v2 v3 (c : vec) : (l + 3 < N)%nat ->
  A i l = 0 -> A i (l + 1)%nat = 0 -> A i (l + 2)%nat = 0 -> A i (l + 3)%nat = 0 ->
  sumn N (fun j => set4 A i l v0 v1 v2 v3 i j * c j)
  = sumn N (fun j => A i j * c j) + (v0 * c l + v1 * c (l + 1)%nat + v2 * c (l + 2)%nat + v3 * c (l + 3)%nat).
Proof.
  intros Hl E0 E1 E2 E3.
  rewrite (sumn_ext N _ (fun j => A i j * c j + ((if (j =? l)%nat then v0 * c l else 0)
      + (if (j =? l + 1)%nat then v1 * c (l + 1)%nat else 0) + (if (j =? l + 2)%nat then v2 * c (l + 2)%nat else 0)
      + (if (j =? l + 3)%nat then v3 * c (l + 3)%nat else 0)))).
  - rewrite sumn_plus, !sumn_plus. f_equal.
    assert (G : forall k v, (k < N)%nat -> sumn N (fun j => if (j =? k)%nat then v else 0) = v).
    { intros k v Hk. rewrite (sumn_single N _ k Hk); [now rewrite Nat.eqb_refl|].
      intros j _ Hj. destruct (Nat.eqb_spec j k); [lia|auto]. }
    rewrite !G by lia. auto.
  - intros j Hj. unfold set4. rewrite Nat.eqb_refl.
    destruct (Nat.eqb_spec j l) as [->|].
    { destruct (Nat.eqb_spec l (l + 1)); [lia|]. destruct (Nat.eqb_spec l (l + 2)); [lia|].
      destruct (Nat.eqb_spec l (l + 3)); [lia|]. rewrite E0. ring. }
    destruct (Nat.eqb_spec j (l + 1)) as [->|].
    { destruct (Nat.eqb_spec (l + 1) (l + 2)); [lia|]. destruct (Nat.eqb_spec (l + 1) (l + 3)); [lia|]. rewrite E1. ring. }
    destruct (Nat.eqb_spec j (l + 2)) as [->|].
    { destruct (Nat.eqb_spec (l + 2) (l + 3)); [lia|]. rewrite E2. ring. }
    destruct (Nat.eqb_spec j (l + 3)) as [->|]; [rewrite E3|]; ring.
Qed.
Lemma set4_other A i l v0 v1 v2 v3 r j : r <> i -> set4 A i l v0 v1 v2 v3 r j = A r j.
Proof. intros. unfold set4. destruct (Nat.eqb_spec r i); [tauto|auto]. Qed.
Lemma set4_outside A i l v0 v1 v2 v3 j : (j < l \/ l + 3 < j)%nat -> set4 A i l v0 v1 v2 v3 i j = A i j.
Proof.
  intros. unfold set4. rewrite Nat.eqb_refl. repeat match goal with |- context [(?a =? ?b)%nat] => destruct (Nat.eqb_spec a b); [lia|] end. auto.
Qed.
Lemma set4_row (A B : mat) r l v0 v1 v2 v3 j : (forall j, A r j = B r j) -> set4 A r l v0 v1 v2 v3 r j = set4 B r l v0 v1 v2 v3 r j.
Proof. intros H. unfold set4. rewrite Nat.eqb_refl, H. auto. Qed.
Lemma set1_same b i v : set1 b i v i = v.
Proof. unfold set1. now rewrite Nat.eqb_refl. Qed.
Lemma set1_other b i v r : r <> i -> set1 b i v r = b r.
Proof. intros. unfold set1. destruct (Nat.eqb_spec r i); [tauto|auto]. Qed.
Lemma getitem_nth (l : list R) i : (i < length l)%nat -> getitem l i = Ok (nth i l 0).
Proof. intros H. unfold getitem. rewrite (nth_error_nth' l 0 H). auto. Qed.

Lemma sumn_nonneg_zero m (f : nat -> R) : sumn m f = 0 -> (forall k, (k < m)%nat -> 0 <= f k) -> forall k, (k < m)%nat -> f k = 0.
Proof.
  induction m as [|m IH]; intros T P k Hk; [lia|].
  cbn [sumn] in T. assert (0 <= sumn m f) by (apply sumn_nonneg; intros; apply P; lia). assert (0 <= f m) by (apply P; lia).
  destruct (Nat.eq_dec k m) as [->|]; [lra|]. apply IH; [lra|intros; apply P; lia|lia].
Qed.
Lemma quad_zero a b : a ^ 2 + a * b + b ^ 2 = 0 -> a = 0 /\ b = 0.
Proof.
  intros H. assert (Hb : b = 0). { apply Rsqr_0_uniq. unfold Rsqr. assert (0 <= (a + b / 2) ^ 2) by apply pow2_ge_0. nra. }
  subst b. split; [|auto]. apply Rsqr_0_uniq. unfold Rsqr. nra.
Qed.
Lemma system_unfold datax datay : (1 <= length datay)%nat -> spline_system datax datay =
  (Ar <- points datax datay (length datay - 1) (fun _ _ => 0) (fun _ => 0) ;;
   Ar <- first_deriv datax (length datay - 1 - 1) 1 (2 * (length datay - 1)) 0 (fst Ar) (snd Ar) ;;
   second_deriv datax (length datay - 1) (fst Ar) (snd Ar)).
Proof. destruct datay; simpl length; [lia|reflexivity]. Qed.

Section System.
  Variables (datax datay : list R) (n : nat).
  Hypothesis (HX : length datax = S n) (HY : length datay = S n) (Hn : (1 <= n)%nat).
  Let X k := nth k datax 0.
  Let Y k := nth k datay 0.

  Lemma points_loop_spec : forall k ix s, (1 <= ix)%nat -> (ix + k <= 2 * n)%nat ->
    p_1 s = ((ix + 1) / 2)%nat -> p_2 s = ((ix - 1) mod 2)%nat -> p_3 s = (ix mod 2)%nat -> p_left s = (4 * (ix / 2))%nat ->
    exists s', points_loop datax datay k ix s = Ok s' /\
      (forall r, (r < ix \/ ix + k <= r)%nat -> (forall j, p_A s' r j = p_A s r j) /\ p_rhs s' r = p_rhs s r) /\
      (forall r, (ix <= r < ix + k)%nat -> p_rhs s' r = Y ((r + 1) / 2)%nat /\
        forall j, p_A s' r j = set4 (p_A s) r (4 * (r / 2)) 1 (X ((r + 1) / 2)%nat) (X ((r + 1) / 2)%nat ^ 2) (X ((r + 1) / 2)%nat ^ 3) r j).
  Proof.
    induction k as [|k IH]; intros ix s H1 H2 E1 E2 E3 E4; cbn [points_loop].
    - exists s. split; [auto|]. split; [auto|intros; lia].
    - rewrite !getitem_nth by lia. cbn [bind].
      match goal with |- context [points_loop datax datay k (S ix) ?u] => set (s1 := u) end.
      destruct (IH (S ix) s1) as [s' [E [P1 P2]]]; [lia|lia| | | | |].
      + unfold s1. cbn [p_1]. rewrite E1, E2. destruct (Nat.eqb_spec ((ix - 1) mod 2 + 1) 2); lia.
      + unfold s1. cbn [p_2]. rewrite E2. destruct (Nat.eqb_spec ((ix - 1) mod 2 + 1) 2); lia.
      + unfold s1. cbn [p_3]. rewrite E3. destruct (Nat.eqb_spec (ix mod 2 + 1) 2); lia.
      + unfold s1. cbn [p_left]. rewrite E3, E4. destruct (Nat.eqb_spec (ix mod 2 + 1) 2); lia.
      + exists s'. split; [auto|]. split.
        * intros r Hr. destruct (P1 r) as [Q1 Q2]; [lia|]. split; [intros j; rewrite Q1|rewrite Q2]; unfold s1; cbn [p_A p_rhs].
          -- apply set4_other. lia.
          -- apply set1_other. lia.
        * intros r Hr. destruct (Nat.eq_dec r ix) as [->|Ne].
          -- destruct (P1 ix) as [Q1 Q2]; [lia|]. split; [rewrite Q2|intros j; rewrite Q1]; unfold s1; cbn [p_A p_rhs].
             ++ rewrite set1_same. now rewrite E1.
             ++ now rewrite E1, E4.
          -- destruct (P2 r) as [Q1 Q2]; [lia|]. split; [auto|]. intros j. rewrite Q2. unfold s1; cbn [p_A].
             apply set4_row. intros j1. rewrite set4_other by lia. auto.
  Qed.
  Lemma first_deriv_spec : forall k ix row left A rhs, (ix + k <= S n)%nat ->
    exists A' rhs', first_deriv datax k ix row left A rhs = Ok (A', rhs') /\
      (forall r, (r < row \/ row + k <= r)%nat -> (forall j, A' r j = A r j) /\ rhs' r = rhs r) /\
      (forall i, (i < k)%nat -> rhs' (row + i)%nat = 0 /\ forall j, A' (row + i)%nat j =
         set4 (set4 A (row + i) (left + 4 * i) 0 1 (2 * X (ix + i)%nat) (3 * X (ix + i)%nat ^ 2))
              (row + i) (left + 4 * i + 4) 0 (-1) (-2 * X (ix + i)%nat) (-3 * X (ix + i)%nat ^ 2) (row + i)%nat j).
  Proof.
    induction k as [|k IH]; intros ix row left A rhs H; cbn [first_deriv].
    - exists A, rhs. split; [auto|]. split; [auto|intros; lia].
    - rewrite getitem_nth by lia. cbn [bind]. fold (X ix).
      match goal with |- context [first_deriv datax k _ _ _ ?u ?v] => set (A1 := u); set (r1 := v) end.
      destruct (IH (S ix) (S row) (left + 4)%nat A1 r1) as [A' [rhs' [E [P1 P2]]]]; [lia|].
      exists A', rhs'. split; [auto|]. split.
      + intros r Hr. destruct (P1 r) as [Q1 Q2]; [lia|]. split; [intros j; rewrite Q1|rewrite Q2].
        * unfold A1. rewrite !set4_other by lia. auto.
        * apply set1_other. lia.
      + intros i Hi. destruct i as [|i].
        * rewrite !Nat.add_0_r. destruct (P1 row) as [Q1 Q2]; [lia|]. split; [rewrite Q2; apply set1_same|].
          intros j. rewrite Q1. auto.
        * destruct (P2 i) as [Q1 Q2]; [lia|]. replace (row + S i)%nat with (S row + i)%nat by lia.
          split; [auto|]. intros j. rewrite Q2.
          replace (ix + S i)%nat with (S ix + i)%nat by lia. replace (left + 4 * S i)%nat with (left + 4 + 4 * i)%nat by lia.
          apply set4_row. intros j1. apply set4_row. intros j2. unfold A1. rewrite !set4_other by lia. auto.
  Qed.
  Lemma second_loop_spec : forall k ix row left A rhs, (ix + k <= S n)%nat ->
    exists A' rhs', second_loop datax k ix row left A rhs = Ok (A', rhs') /\
      (forall r, (r < row \/ row + k <= r)%nat -> (forall j, A' r j = A r j) /\ rhs' r = rhs r) /\
      (forall i, (i < k)%nat -> rhs' (row + i)%nat = 0 /\ forall j, A' (row + i)%nat j =
         set4 (set4 A (row + i) (left + 4 * i) 0 0 2 (6 * X (ix + i)%nat))
              (row + i) (left + 4 * i + 4) 0 0 (-2) (-6 * X (ix + i)%nat) (row + i)%nat j).
  Proof.
    induction k as [|k IH]; intros ix row left A rhs H; cbn [second_loop].
    - exists A, rhs. split; [auto|]. split; [auto|intros; lia].
    - rewrite getitem_nth by lia. cbn [bind]. fold (X ix).
      match goal with |- context [second_loop datax k _ _ _ ?u ?v] => set (A1 := u); set (r1 := v) end.
      destruct (IH (S ix) (S row) (left + 4)%nat A1 r1) as [A' [rhs' [E [P1 P2]]]]; [lia|].
      exists A', rhs'. split; [auto|]. split.
      + intros r Hr. destruct (P1 r) as [Q1 Q2]; [lia|]. split; [intros j; rewrite Q1|rewrite Q2].
        * unfold A1. rewrite !set4_other by lia. auto.
        * apply set1_other. lia.
      + intros i Hi. destruct i as [|i].
        * rewrite !Nat.add_0_r. destruct (P1 row) as [Q1 Q2]; [lia|]. split; [rewrite Q2; apply set1_same|].
          intros j. rewrite Q1. auto.
        * destruct (P2 i) as [Q1 Q2]; [lia|]. replace (row + S i)%nat with (S row + i)%nat by lia.
          split; [auto|]. intros j. rewrite Q2.
          replace (ix + S i)%nat with (S ix + i)%nat by lia. replace (left + 4 * S i)%nat with (left + 4 + 4 * i)%nat by lia.
          apply set4_row. intros j1. apply set4_row. intros j2. unfold A1. rewrite !set4_other by lia. auto.
  Qed.

  (** What the rows say about a coefficient vector. *)
  Definition dot (A : mat) (i : nat) (c : vec) : R := sumn (4 * n) (fun j => A i j * c j).
  Lemma system_rows : exists A rhs, spline_system datax datay = Ok (A, rhs) /\
    (forall k c, (k < n)%nat -> dot A (2 * k) c = piece c k (X k) /\ dot A (2 * k + 1) c = piece c k (X (k + 1)%nat)) /\
    (forall k, (k < n)%nat -> rhs (2 * k)%nat = Y k /\ rhs (2 * k + 1)%nat = Y (k + 1)%nat) /\
    (forall k c, (k < n - 1)%nat -> dot A (2 * n + k) c = piece1 c k (X (k + 1)%nat) - piece1 c (k + 1) (X (k + 1)%nat)) /\
    (forall k c, (k < n - 1)%nat -> dot A (3 * n - 1 + k) c = piece2 c k (X (k + 1)%nat) - piece2 c (k + 1) (X (k + 1)%nat)) /\
    (forall c, dot A (4 * n - 2) c = piece2 c 0 (X 0%nat)) /\ (forall c, dot A (4 * n - 1) c = piece2 c (n - 1) (X n)) /\
    (forall r, (2 * n <= r < 4 * n)%nat -> rhs r = 0).
  Proof.
    rewrite (system_unfold datax datay) by lia.
    replace (length datay - 1)%nat with n by lia.
    unfold points. rewrite !getitem_nth by lia. cbn [bind]. destruct (Nat.eqb_spec n 0); [lia|].
    match goal with |- context [points_loop datax datay (2 * n - 1) 1 ?u] => set (s0 := u) end.
    destruct (points_loop_spec (2 * n - 1) 1 s0) as [s1 [E1 [P1 P2]]]; try reflexivity; [lia|].
    rewrite E1. cbn [bind fst snd].
    destruct (first_deriv_spec (n - 1) 1 (2 * n) 0 (p_A s1) (p_rhs s1)) as [A2 [r2 [E2 [Q1 Q2]]]]; [lia|].
    rewrite E2. cbn [bind fst snd]. unfold second_deriv.
    destruct (second_loop_spec (n - 1) 1 (3 * n - 1) 0 A2 r2) as [A3 [r3 [E3 [S1 S2]]]]; [lia|].
    rewrite E3. cbn [bind fst snd]. rewrite getitem_nth by lia. cbn [bind]. unfold getneg.
    destruct (Nat.ltb_spec (length datax) 1); [lia|]. rewrite getitem_nth by lia. cbn [bind].
    replace (length datax - 1)%nat with n by lia. fold (X 0%nat). fold (X n).
    match goal with |- context [Ok (?u, ?v)] => set (A := u); set (rhs := v) end.
    exists A, rhs. split; [reflexivity|].
    (* rows before the last two *)
    assert (L : forall r j, (r < 4 * n - 2)%nat -> A r j = A3 r j /\ rhs r = r3 r).
    { intros r j Hr. unfold A, rhs. rewrite !set4_other by lia. rewrite !set1_other by lia. auto. }
    assert (Z0 : forall r j, (2 * n <= r)%nat -> p_A s1 r j = 0).
    { intros r j Hr. destruct (P1 r) as [G _]; [lia|]. rewrite G. unfold s0. cbn [p_A]. apply set4_other. lia. }
    assert (R0 : forall r, (2 * n <= r)%nat -> p_rhs s1 r = 0).
    { intros r Hr. destruct (P1 r) as [_ G]; [lia|]. rewrite G. unfold s0. cbn [p_rhs]. apply set1_other. lia. }
    assert (Z2 : forall r j, (3 * n - 1 <= r)%nat -> A2 r j = 0).
    { intros r j Hr. destruct (Q1 r) as [G _]; [lia|]. rewrite G. apply Z0. lia. }
    assert (Z3 : forall r j, (4 * n - 2 <= r)%nat -> A3 r j = 0).
    { intros r j Hr. destruct (S1 r) as [G _]; [lia|]. rewrite G. apply Z2. lia. }
    (* rows of the values *)
    assert (V : forall r j, (r < 2 * n)%nat -> A r j = set4 (fun _ _ => 0) r (4 * (r / 2)) 1 (X ((r + 1) / 2)%nat) (X ((r + 1) / 2)%nat ^ 2) (X ((r + 1) / 2)%nat ^ 3) r j
        /\ rhs r = Y ((r + 1) / 2)%nat).
    { intros r j Hr. destruct (L r j) as [-> ->]; [lia|].
      destruct (S1 r) as [-> ->]; [lia|]. destruct (Q1 r) as [-> ->]; [lia|].
      destruct (Nat.eq_dec r 0) as [->|Nr].
      - destruct (P1 0%nat) as [-> ->]; [lia|]. unfold s0. cbn [p_A p_rhs]. split; auto.
      - destruct (P2 r) as [-> ->]; [lia|]. split; [|auto].
        apply set4_row. intros j1. unfold s0. cbn [p_A]. rewrite set4_other by lia. auto. }
    assert (D4 : forall r l v0 v1 v2 v3 c, (l + 3 < 4 * n)%nat -> (forall j, A r j = set4 (fun _ _ => 0) r l v0 v1 v2 v3 r j) ->
        dot A r c = v0 * c l + v1 * c (l + 1)%nat + v2 * c (l + 2)%nat + v3 * c (l + 3)%nat).
    { intros r l v0 v1 v2 v3 c Hl H4. unfold dot. rewrite (sumn_ext _ _ (fun j => set4 (fun _ _ => 0) r l v0 v1 v2 v3 r j * c j)) by (intros; now rewrite H4).
      rewrite dot_set4 by (auto; lia). rewrite sumn_zero by (intros; ring). ring. }
    assert (D8 : forall r l v0 v1 v2 v3 w0 w1 w2 w3 c, (l + 7 < 4 * n)%nat ->
        (forall j, A r j = set4 (set4 (fun _ _ => 0) r l v0 v1 v2 v3) r (l + 4) w0 w1 w2 w3 r j) ->
        dot A r c = v0 * c l + v1 * c (l + 1)%nat + v2 * c (l + 2)%nat + v3 * c (l + 3)%nat
                    + (w0 * c (l + 4)%nat + w1 * c (l + 4 + 1)%nat + w2 * c (l + 4 + 2)%nat + w3 * c (l + 4 + 3)%nat)).
    { intros r l v0 v1 v2 v3 w0 w1 w2 w3 c Hl H8. unfold dot.
      rewrite (sumn_ext _ _ (fun j => set4 (set4 (fun _ _ => 0) r l v0 v1 v2 v3) r (l + 4) w0 w1 w2 w3 r j * c j)) by (intros; now rewrite H8).
      rewrite dot_set4; [|lia|now rewrite set4_outside by lia..].
      rewrite dot_set4 by (auto; lia). rewrite sumn_zero by (intros; ring). ring. }
    split; [|split; [|split; [|split; [|split; [|split]]]]].
    - intros k c Hk. split.
      + rewrite (D4 (2 * k)%nat (4 * (2 * k / 2))%nat _ _ _ _ c) by (try lia; intros j; apply V; lia).
        replace (2 * k / 2)%nat with k by lia. replace ((2 * k + 1) / 2)%nat with k by lia. unfold piece. ring.
      + rewrite (D4 (2 * k + 1)%nat (4 * ((2 * k + 1) / 2))%nat _ _ _ _ c) by (try lia; intros j; apply V; lia).
        replace ((2 * k + 1) / 2)%nat with k by lia. replace ((2 * k + 1 + 1) / 2)%nat with (k + 1)%nat by lia. unfold piece. ring.
    - intros k Hk. destruct (V (2 * k)%nat 0%nat) as [_ ->]; [lia|]. destruct (V (2 * k + 1)%nat 0%nat) as [_ ->]; [lia|].
      split; f_equal; lia.
    - intros k c Hk. rewrite (D8 (2 * n + k)%nat (4 * k)%nat 0 1 (2 * X (k + 1)%nat) (3 * X (k + 1)%nat ^ 2) 0 (-1) (-2 * X (k + 1)%nat) (-3 * X (k + 1)%nat ^ 2) c).
      + unfold piece1. replace (4 * (k + 1))%nat with (4 * k + 4)%nat by lia. ring.
      + lia.
      + intros j. destruct (L (2 * n + k)%nat j) as [-> _]; [lia|]. destruct (S1 (2 * n + k)%nat) as [-> _]; [lia|].
        destruct (Q2 k) as [_ ->]; [lia|]. replace (1 + k)%nat with (k + 1)%nat by lia. cbn [Nat.add].
        apply set4_row. intros j'. apply set4_row. intros j''. apply Z0. lia.
    - intros k c Hk. rewrite (D8 (3 * n - 1 + k)%nat (4 * k)%nat 0 0 2 (6 * X (k + 1)%nat) 0 0 (-2) (-6 * X (k + 1)%nat) c).
      + unfold piece2. replace (4 * (k + 1))%nat with (4 * k + 4)%nat by lia. ring.
      + lia.
      + intros j. destruct (L (3 * n - 1 + k)%nat j) as [-> _]; [lia|].
        destruct (S2 k) as [_ ->]; [lia|]. replace (1 + k)%nat with (k + 1)%nat by lia. cbn [Nat.add].
        apply set4_row. intros j'. apply set4_row. intros j''. apply Z2. lia.
    - intros c. rewrite (D4 (4 * n - 2)%nat 0%nat 0 0 2 (6 * X 0%nat) c).
      + unfold piece2. cbn [Nat.mul Nat.add]. ring.
      + lia.
      + intros j. unfold A. rewrite set4_other by lia. apply set4_row. intros j'. apply Z3. lia.
    - intros c. rewrite (D4 (4 * n - 1)%nat (4 * n - 4)%nat 0 0 2 (6 * X n) c).
      + unfold piece2. replace (4 * (n - 1))%nat with (4 * n - 4)%nat by lia. ring.
      + lia.
      + intros j. unfold A. apply set4_row. intros j'. rewrite set4_other by lia. apply Z3. lia.
    - intros r Hr. destruct (Nat.lt_ge_cases r (4 * n - 2)) as [Lr|Lr].
      + destruct (L r 0%nat) as [_ ->]; [lia|]. destruct (Nat.lt_ge_cases r (3 * n - 1)) as [L3|L3].
        * destruct (S1 r) as [_ ->]; [lia|]. destruct (Q2 (r - 2 * n)%nat) as [G _]; [lia|].
          replace (2 * n + (r - 2 * n))%nat with r in G by lia. auto.
        * destruct (S2 (r - (3 * n - 1))%nat) as [G _]; [lia|]. replace (3 * n - 1 + (r - (3 * n - 1)))%nat with r in G by lia. auto.
      + unfold rhs. destruct (Nat.eq_dec r (4 * n - 1)) as [->|]; [apply set1_same|]. rewrite set1_other by lia.
        replace r with (4 * n - 2)%nat by lia. apply set1_same.
  Qed.

  (** The conditions on the coefficients of a natural cubic spline through (X, V). *)
  Definition natural (V : vec) (c : vec) : Prop :=
    (forall k, (k < n)%nat -> piece c k (X k) = V k /\ piece c k (X (k + 1)%nat) = V (k + 1)%nat) /\
    (forall k, (k < n - 1)%nat -> piece1 c k (X (k + 1)%nat) = piece1 c (k + 1) (X (k + 1)%nat)) /\
    (forall k, (k < n - 1)%nat -> piece2 c k (X (k + 1)%nat) = piece2 c (k + 1) (X (k + 1)%nat)) /\
    piece2 c 0 (X 0%nat) = 0 /\ piece2 c (n - 1) (X n) = 0.

  Lemma rows_cases (P : nat -> Prop) : (forall k, (k < n)%nat -> P (2 * k)%nat /\ P (2 * k + 1)%nat) ->
    (forall k, (k < n - 1)%nat -> P (2 * n + k)%nat) -> (forall k, (k < n - 1)%nat -> P (3 * n - 1 + k)%nat) ->
    P (4 * n - 2)%nat -> P (4 * n - 1)%nat -> forall r, (r < 4 * n)%nat -> P r.
  Proof.
    intros H1 H2 H3 H4 H5 r Hr. destruct (Nat.lt_ge_cases r (2 * n)).
    { destruct (H1 (r / 2)%nat) as [Ha Hb]; [lia|]. destruct (Nat.eq_dec (r mod 2) 0).
      - replace r with (2 * (r / 2))%nat by lia. auto.
      - replace r with (2 * (r / 2) + 1)%nat by lia. auto. }
    destruct (Nat.lt_ge_cases r (3 * n - 1)). { replace r with (2 * n + (r - 2 * n))%nat by lia. apply H2. lia. }
    destruct (Nat.lt_ge_cases r (4 * n - 2)). { replace r with (3 * n - 1 + (r - (3 * n - 1)))%nat by lia. apply H3. lia. }
    destruct (Nat.eq_dec r (4 * n - 2)) as [->|]; [auto|]. replace r with (4 * n - 1)%nat by lia. auto.
  Qed.
  Lemma system_meaning : exists A rhs, spline_system datax datay = Ok (A, rhs) /\
    (forall c, solves (4 * n) A rhs c <-> natural Y c) /\
    (forall c, (forall i, (i < 4 * n)%nat -> sumn (4 * n) (fun j => A i j * c j) = 0) <-> natural (fun _ => 0) c).
  Proof.
    destruct system_rows as [A [rhs [E [R1 [R2 [R3 [R4 [R5 [R6 R7]]]]]]]]]. exists A, rhs. split; [auto|].
    assert (G : forall b V, (forall k, (k < n)%nat -> b (2 * k)%nat = V k /\ b (2 * k + 1)%nat = V (k + 1)%nat) ->
        (forall r, (2 * n <= r < 4 * n)%nat -> b r = 0) ->
        forall c, (forall i, (i < 4 * n)%nat -> dot A i c = b i) <-> natural V c).
    { intros b V B1 B2 c. split.
      - intros H. split; [|split; [|split; [|split]]].
        + intros k Hk. destruct (R1 k c Hk) as [<- <-]. destruct (B1 k Hk) as [<- <-]. split; apply H; lia.
        + intros k Hk. assert (F := R3 k c Hk). rewrite H in F by lia. rewrite B2 in F by lia. lra.
        + intros k Hk. assert (F := R4 k c Hk). rewrite H in F by lia. rewrite B2 in F by lia. lra.
        + rewrite <- R5, H by lia. apply B2. lia.
        + rewrite <- R6, H by lia. apply B2. lia.
      - intros [N1 [N2 [N3 [N4 N5]]]]. apply rows_cases.
        + intros k Hk. destruct (R1 k c Hk) as [-> ->]. destruct (B1 k Hk) as [-> ->]. now apply N1.
        + intros k Hk. rewrite R3, B2 by lia. rewrite (N2 k Hk). lra.
        + intros k Hk. rewrite R4, B2 by lia. rewrite (N3 k Hk). lra.
        + rewrite R5, B2 by lia. auto.
        + rewrite R6, B2 by lia. auto. }
    split.
    - intros c. exact (G rhs Y R2 R7 c).
    - intros c. apply (G (fun _ => 0) (fun _ => 0)); auto.
  Qed.

  (** A natural spline through zeros is zero. *)
  Lemma natural_zero c : (forall k, (k < n)%nat -> X k < X (k + 1)%nat) -> natural (fun _ => 0) c ->
    forall j, (j < 4 * n)%nat -> c j = 0.
  Proof using Hn.
    clear Y HX HY. intros Inc [N1 [N2 [N3 [N4 N5]]]].
    (* slopes and second derivatives at the ends of a piece that vanishes there *)
    set (h := fun k => X (k + 1)%nat - X k). set (a := fun k => piece2 c k (X k)). set (b := fun k => piece2 c k (X (k + 1)%nat)).
    assert (Q : forall k, (k < n)%nat -> b k * piece1 c k (X (k + 1)%nat) - a k * piece1 c k (X k) = h k / 3 * (a k ^ 2 + a k * b k + b k ^ 2)).
    { intros k Hk. destruct (N1 k Hk) as [Z1 Z2]. assert (I := Inc k Hk). unfold a, b, h, piece, piece1, piece2 in *.
      set (x := X k) in *. set (z := X (k + 1)%nat) in *.
      set (c0 := c (4 * k)%nat) in *. set (c1 := c (4 * k + 1)%nat) in *. set (c2 := c (4 * k + 2)%nat) in *. set (c3 := c (4 * k + 3)%nat) in *.
      assert (F : c1 = - c2 * (x + z) - c3 * (x ^ 2 + x * z + z ^ 2)).
      { apply Rmult_eq_reg_l with (z - x); [|lra]. nra. }
      rewrite F. field. }
    assert (T : sumn n (fun k => h k / 3 * (a k ^ 2 + a k * b k + b k ^ 2)) = 0).
    { set (f := fun k => if (k =? n)%nat then b (n - 1)%nat * piece1 c (n - 1) (X n) else a k * piece1 c k (X k)).
      rewrite (sumn_ext n _ (fun k => f (S k) - f k)).
      - rewrite sumn_telescope. unfold f. rewrite Nat.eqb_refl. destruct (Nat.eqb_spec 0 n); [lia|].
        unfold a, b. replace (n - 1 + 1)%nat with n by lia. rewrite N4, N5. ring.
      - intros k Hk. rewrite <- Q by auto. unfold f. destruct (Nat.eqb_spec k n); [lia|].
        destruct (Nat.eqb_spec (S k) n) as [Ek|Ek].
        + replace (n - 1)%nat with k by lia. rewrite <- Ek. replace (k + 1)%nat with (S k) by lia. auto.
        + unfold a, b. rewrite N2, N3 by lia. replace (k + 1)%nat with (S k) by lia. auto. }
    assert (P : forall k, (k < n)%nat -> 0 <= h k / 3 * (a k ^ 2 + a k * b k + b k ^ 2)).
    { intros k Hk. assert (I := Inc k Hk). apply Rmult_le_pos; [unfold h; lra|]. nra. }
    assert (Z : forall k, (k < n)%nat -> h k / 3 * (a k ^ 2 + a k * b k + b k ^ 2) = 0).
    { apply (sumn_nonneg_zero n (fun k => h k / 3 * (a k ^ 2 + a k * b k + b k ^ 2)) T P). }
    assert (C : forall k, (k < n)%nat -> c (4 * k)%nat = 0 /\ c (4 * k + 1)%nat = 0 /\ c (4 * k + 2)%nat = 0 /\ c (4 * k + 3)%nat = 0).
    { intros k Hk. assert (I := Inc k Hk). assert (E := Z k Hk). assert (H3 : 0 < h k / 3) by (unfold h; lra).
      assert (S0 : a k ^ 2 + a k * b k + b k ^ 2 = 0) by (apply Rmult_eq_reg_l with (h k / 3); lra).
      destruct (quad_zero _ _ S0) as [A0 B0].
      destruct (N1 k Hk) as [Z1 Z2]. unfold a, b, piece2, piece in *.
      assert (c3 : c (4 * k + 3)%nat = 0). { apply Rmult_eq_reg_l with (X (k + 1)%nat - X k); [|lra]. lra. }
      rewrite c3 in *. assert (c2 : c (4 * k + 2)%nat = 0) by lra. rewrite c2 in *.
      assert (c1 : c (4 * k + 1)%nat = 0). { apply Rmult_eq_reg_l with (X (k + 1)%nat - X k); [|lra]. lra. }
      rewrite c1 in *. repeat split; auto. lra. }
    intros j Hj. destruct (C (j / 4)%nat) as [C0 [C1 [C2 C3]]]; [lia|].
    assert (M : (j mod 4 = 0 \/ j mod 4 = 1 \/ j mod 4 = 2 \/ j mod 4 = 3)%nat) by lia.
    destruct M as [M|[M|[M|M]]].
    - replace j with (4 * (j / 4))%nat by lia. auto.
    - replace j with (4 * (j / 4) + 1)%nat by lia. auto.
    - replace j with (4 * (j / 4) + 2)%nat by lia. auto.
    - replace j with (4 * (j / 4) + 3)%nat by lia. auto.
  Qed.
End System.
