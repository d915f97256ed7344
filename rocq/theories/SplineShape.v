(** The function that the spline evaluation computes is the natural cubic spline: lemmas. *)
From Coquelicot Require Import Coquelicot.
From Verif Require Import Py PyLemmas Calc SplineModel GaussProofs SplineProofs.
Open Scope R_scope.

(** The natural cubic spline through the points (X k, Y k), k = 0..n: twice continuously differentiable, through the points,
    a cubic between neighbouring knots, and without curvature outside the range. *)
Definition natural_spline (n : nat) (X Y : nat -> R) (S : R -> R) : Prop :=
  exists S1 S2 : R -> R,
    (forall x, is_derive S x (S1 x)) /\ (forall x, is_derive S1 x (S2 x)) /\ (forall x, continuous S2 x) /\
    (forall k, (k <= n)%nat -> S (X k) = Y k) /\
    (forall k, (k < n)%nat -> exists c0 c1 c2 c3, forall x, X k <= x <= X (k + 1)%nat -> S x = c0 + c1 * x + c2 * x ^ 2 + c3 * x ^ 3) /\
    (forall x, x <= X 0%nat \/ X n <= x -> S2 x = 0).

Definition glue (a : R) (g h : R -> R) (x : R) : R := if Rlt_dec x a then g x else h x.
Lemma glue_left a g h x : x < a -> glue a g h x = g x.
Proof. intros. unfold glue. destruct (Rlt_dec x a); [auto|lra]. Qed.
Lemma glue_right a g h x : a <= x -> glue a g h x = h x.
Proof. intros. unfold glue. destruct (Rlt_dec x a); [lra|auto]. Qed.
Lemma glue_derive a g h g1 h1 : g a = h a -> g1 a = h1 a -> (forall x, is_derive g x (g1 x)) -> (forall x, is_derive h x (h1 x)) ->
  forall x, is_derive (glue a g h) x (glue a g1 h1 x).
Proof.
  intros E0 E1 Dg Dh x. destruct (Rtotal_order x a) as [L|[->|L]].
  - rewrite glue_left by auto. apply (is_derive_ext_loc g); [|auto].
    apply (locally_interval _ x m_infty a); simpl; auto. intros y _ Hy. now rewrite glue_left.
  - rewrite glue_right by lra. apply is_derive_Reals. intros eps He.
    assert (D1 := Dg a). assert (D2 := Dh a). apply is_derive_Reals in D1. apply is_derive_Reals in D2.
    destruct (D1 eps He) as [d1 P1]. destruct (D2 eps He) as [d2 P2].
    assert (Hd : 0 < Rmin d1 d2) by (apply Rmin_glb_lt; apply cond_pos).
    exists (mkposreal _ Hd). intros s Hs Hl. simpl in Hl.
    assert (B1 := Rmin_l d1 d2). assert (B2 := Rmin_r d1 d2).
    rewrite (glue_right a g h a) by lra. destruct (Rlt_dec s 0).
    + rewrite glue_left by lra. rewrite <- E0, <- E1. apply P1; [auto|lra].
    + rewrite glue_right by lra. apply P2; [auto|lra].
  - rewrite glue_right by lra. apply (is_derive_ext_loc h); [|auto].
    apply (locally_interval _ x a p_infty); simpl; auto. intros y Hy _. rewrite glue_right; [auto|lra].
Qed.
Lemma glue_continuous a g h : g a = h a -> (forall x, continuous g x) -> (forall x, continuous h x) -> forall x, continuous (glue a g h) x.
Proof.
  intros E0 Cg Ch x. destruct (Rtotal_order x a) as [L|[->|L]].
  - apply (continuous_ext_loc _ g); [|auto].
    apply (locally_interval _ x m_infty a); simpl; auto. intros y _ Hy. now rewrite glue_left.
  - intros P HP. rewrite glue_right in HP by lra.
    assert (P1 := Cg a P). assert (P2 := Ch a P). rewrite E0 in P1. specialize (P1 HP). specialize (P2 HP).
    unfold filtermap in *. generalize (filter_and _ _ P1 P2). apply filter_imp. intros y [Q1 Q2]. unfold glue. now destruct (Rlt_dec y a).
  - apply (continuous_ext_loc _ h); [|auto].
    apply (locally_interval _ x a p_infty); simpl; auto. intros y Hy _. rewrite glue_right; [auto|lra].
Qed.

(** Functions that agree on an interval have the same derivative, at the ends too. *)
Lemma agree_derive (f p : R -> R) lo hi x d d' : lo < hi -> lo <= x <= hi -> (forall z, lo <= z <= hi -> f z = p z) ->
  is_derive f x d -> is_derive p x d' -> d = d'.
Proof.
  intros Hlh Hx Hfp D1 D2. apply is_derive_Reals in D1. apply is_derive_Reals in D2.
  destruct (Req_dec d d') as [|Ne]; [auto|exfalso].
  assert (He : 0 < Rabs (d - d') / 2). { assert (0 < Rabs (d - d')) by (apply Rabs_pos_lt; lra). lra. }
  destruct (D1 _ He) as [d1 P1]. destruct (D2 _ He) as [d2 P2].
  assert (S : exists s, s <> 0 /\ Rabs s < d1 /\ Rabs s < d2 /\ lo <= x + s <= hi).
  { set (m := Rmin (Rmin d1 d2 / 2) ((hi - lo) / 2)).
    assert (B1 := Rmin_l (Rmin d1 d2 / 2) ((hi - lo) / 2)). assert (B2 := Rmin_r (Rmin d1 d2 / 2) ((hi - lo) / 2)). fold m in B1, B2.
    assert (B3 := Rmin_l d1 d2). assert (B4 := Rmin_r d1 d2). assert (B5 : 0 < Rmin d1 d2) by (apply Rmin_glb_lt; apply cond_pos).
    assert (B6 : 0 < m) by (apply Rmin_glb_lt; lra).
    destruct (Rle_dec x ((lo + hi) / 2)).
    - exists m. rewrite Rabs_right by lra. repeat split; lra.
    - exists (- m). rewrite Rabs_left by lra. repeat split; lra. }
  destruct S as [s [S0 [S1 [S2 S3]]]]. assert (Q1 := P1 s S0 S1). assert (Q2 := P2 s S0 S2).
  rewrite !Hfp in Q1 by lra. set (q := (p (x + s) - p x) / s) in *.
  assert (T := Rabs_triang (d - q) (q - d')). replace (d - q + (q - d')) with (d - d') in T by ring.
  rewrite (Rabs_minus_sym d q) in T. lra.
Qed.

Lemma cubic_derive c0 c1 c2 c3 x : is_derive (fun x => c0 + c1 * x + c2 * x ^ 2 + c3 * x ^ 3) x (c1 + 2 * c2 * x + 3 * c3 * x ^ 2).
Proof. auto_derive; auto. ring. Qed.
Lemma cubic_derive2 c1 c2 c3 x : is_derive (fun x => c1 + 2 * c2 * x + 3 * c3 * x ^ 2) x (2 * c2 + 6 * c3 * x).
Proof. auto_derive; auto. ring. Qed.
Lemma line_derive p s a x : is_derive (fun x => p + s * (x - a)) x s.
Proof. auto_derive; auto. ring. Qed.

Section Shape.
  Variables (datax : list R) (n : nat).
  Hypothesis Hn : (1 <= n)%nat.
  Let X k := nth k datax 0.
  Hypothesis Inc : forall k, (k < n)%nat -> X k < X (k + 1)%nat.

  Lemma knots_le i j : (i <= j <= n)%nat -> X i <= X j.
  Proof.
    intros H. replace j with (i + (j - i))%nat by lia. assert (Hd : (i + (j - i) <= n)%nat) by lia. revert Hd. generalize (j - i)%nat.
    induction n0 as [|d IH]; intros Hd; [rewrite Nat.add_0_r; lra|].
    assert (I := Inc (i + d)%nat ltac:(lia)). replace (i + d + 1)%nat with (i + S d)%nat in I by lia. assert (J := IH ltac:(lia)). lra.
  Qed.
  Lemma knots_lt i j : (i < j <= n)%nat -> X i < X j.
  Proof. intros H. assert (I := Inc i ltac:(lia)). assert (J := knots_le (i + 1) j ltac:(lia)). lra. Qed.

  (** the left straight line and the first k pieces *)
  Fixpoint upto (first : R -> R) (pc : nat -> R -> R) (k : nat) : R -> R :=
    match k with O => first | S j => glue (X j) (upto first pc j) (pc j) end.
  Definition whole (first : R -> R) (pc : nat -> R -> R) (last : R -> R) : R -> R := glue (X n) (upto first pc n) last.

  Lemma upto_piece first pc k x : (k < n)%nat -> X k <= x -> upto first pc (S k) x = pc k x.
  Proof. intros. cbn [upto]. now rewrite glue_right. Qed.
  Lemma upto_inside first pc : (forall k, (k < n - 1)%nat -> pc k (X (k + 1)%nat) = pc (k + 1)%nat (X (k + 1)%nat)) ->
    forall m k x, (k < m <= n)%nat -> X k <= x <= X (k + 1)%nat -> upto first pc m x = pc k x.
  Proof.
    intros J. induction m as [|m IH]; intros k x Hk Hx; [lia|]. destruct (Nat.eq_dec k m) as [->|Ne]; [apply upto_piece; lia || lra|].
    cbn [upto]. destruct (Rlt_dec x (X m)).
    - rewrite glue_left by auto. apply IH; [lia|auto].
    - rewrite glue_right by lra. assert (L := knots_le (k + 1) m ltac:(lia)).
      destruct (Nat.eq_dec m (k + 1)) as [->|Nm]; [|assert (L2 := knots_lt (k + 1) m ltac:(lia)); lra].
      replace x with (X (k + 1)%nat) by lra. symmetry. apply J. lia.
  Qed.
  Section Join.
    Variables (first last : R -> R) (pc : nat -> R -> R).
    Hypothesis J0 : forall k, (k < n - 1)%nat -> pc k (X (k + 1)%nat) = pc (k + 1)%nat (X (k + 1)%nat).
    Hypothesis JF : first (X 0%nat) = pc 0%nat (X 0%nat).
    Hypothesis JL : pc (n - 1)%nat (X n) = last (X n).
    Lemma upto_end m : (m < n)%nat -> upto first pc m (X m) = pc m (X m).
    Proof.
      intros H. destruct m as [|m]; [auto|]. rewrite upto_piece by (try lia; apply knots_le; lia).
      replace (S m) with (m + 1)%nat by lia. apply J0. lia.
    Qed.
    Lemma whole_inside k x : (k < n)%nat -> X k <= x <= X (k + 1)%nat -> whole first pc last x = pc k x.
    Proof.
      intros Hk Hx. unfold whole. assert (L := knots_le (k + 1) n ltac:(lia)). destruct (Rlt_dec x (X n)).
      - rewrite glue_left by auto. apply (upto_inside first pc J0 n k x); [lia|auto].
      - rewrite glue_right by lra. destruct (Nat.eq_dec (k + 1) n) as [E|Ne].
        + replace x with (X n) by (rewrite E in Hx; lra). replace k with (n - 1)%nat by lia. auto.
        + assert (L2 := knots_lt (k + 1) n ltac:(lia)). lra.
    Qed.
    Lemma whole_left x : x <= X 0%nat -> whole first pc last x = first x.
    Proof.
      intros Hx. assert (L0 := knots_lt 0 n ltac:(lia)). unfold whole. rewrite glue_left by lra.
      assert (G : forall m, (m <= n)%nat -> upto first pc m x = first x).
      { induction m as [|m IH]; intros Hm; [auto|]. cbn [upto]. assert (L := knots_le 0 m ltac:(lia)). destruct (Rlt_dec x (X m)).
        - rewrite glue_left by auto. apply IH. lia.
        - rewrite glue_right by lra. destruct (Nat.eq_dec m 0) as [->|]; [|assert (L2 := knots_lt 0 m ltac:(lia)); lra].
          replace x with (X 0%nat) by lra. auto. }
      apply G. lia.
    Qed.
    Lemma whole_right x : X n <= x -> whole first pc last x = last x.
    Proof. intros. unfold whole. now rewrite glue_right. Qed.
    Lemma end_value : upto first pc n (X n) = last (X n).
    Proof. rewrite <- JL. rewrite (upto_inside first pc J0 n (n - 1)%nat); [auto|lia|]. replace (n - 1 + 1)%nat with n by lia. split; [apply knots_le; lia|lra]. Qed.
  End Join.
  Section JoinDerive.
    Variables (first last first1 last1 : R -> R) (pc pc1 : nat -> R -> R).
    Hypothesis J0 : forall k, (k < n - 1)%nat -> pc k (X (k + 1)%nat) = pc (k + 1)%nat (X (k + 1)%nat).
    Hypothesis JF : first (X 0%nat) = pc 0%nat (X 0%nat).
    Hypothesis JL : pc (n - 1)%nat (X n) = last (X n).
    Hypothesis J01 : forall k, (k < n - 1)%nat -> pc1 k (X (k + 1)%nat) = pc1 (k + 1)%nat (X (k + 1)%nat).
    Hypothesis JF1 : first1 (X 0%nat) = pc1 0%nat (X 0%nat).
    Hypothesis JL1 : pc1 (n - 1)%nat (X n) = last1 (X n).
    Hypothesis Df : forall x, is_derive first x (first1 x).
    Hypothesis Dl : forall x, is_derive last x (last1 x).
    Hypothesis Dp : forall k x, (k < n)%nat -> is_derive (pc k) x (pc1 k x).
    Lemma whole_derive x : is_derive (whole first pc last) x (whole first1 pc1 last1 x).
    Proof.
      unfold whole. revert x. apply glue_derive; auto; try now apply end_value.
      assert (G : forall m, (m <= n)%nat -> forall x, is_derive (upto first pc m) x (upto first1 pc1 m x)).
      { induction m as [|m IH]; intros Hm; [auto|]. cbn [upto]. apply glue_derive.
        - apply upto_end; auto. - apply upto_end; auto. - apply IH. lia. - intros x. apply Dp. lia. }
      apply G. lia.
    Qed.
  End JoinDerive.
  Lemma whole_continuous first pc last : (forall k, (k < n - 1)%nat -> pc k (X (k + 1)%nat) = pc (k + 1)%nat (X (k + 1)%nat)) ->
    first (X 0%nat) = pc 0%nat (X 0%nat) -> pc (n - 1)%nat (X n) = last (X n) ->
    (forall x, continuous first x) -> (forall x, continuous last x) -> (forall k x, (k < n)%nat -> continuous (pc k) x) ->
    forall x, continuous (whole first pc last) x.
  Proof.
    intros J0 JF JL Cf Cl Cp. unfold whole. apply glue_continuous; auto; [now apply end_value|].
    assert (G : forall m, (m <= n)%nat -> forall x, continuous (upto first pc m) x).
    { induction m as [|m IH]; intros Hm; [auto|]. cbn [upto]. apply glue_continuous; auto; [apply upto_end; auto|apply IH; lia]. }
    apply G. lia.
  Qed.

  (** coefficients that satisfy the conditions give a natural spline *)
  Lemma natural_is_spline Y c : natural datax n Y c -> exists S, natural_spline n X Y S /\
    forall k x, (k < n)%nat -> X k <= x <= X (k + 1)%nat -> S x = piece c k x.
  Proof.
    intros [N1 [N2 [N3 [N4 N5]]]]. fold (X 0%nat) in N4. fold (X n) in N5.
    assert (N0 : forall k, (k < n - 1)%nat -> piece c k (X (k + 1)%nat) = piece c (k + 1) (X (k + 1)%nat)).
    { intros k Hk. destruct (N1 k ltac:(lia)) as [_ A]. destruct (N1 (k + 1)%nat ltac:(lia)) as [B _]. unfold X. now rewrite A, B. }
    set (F := fun x => piece c 0 (X 0%nat) + piece1 c 0 (X 0%nat) * (x - X 0%nat)).
    set (L := fun x => piece c (n - 1) (X n) + piece1 c (n - 1) (X n) * (x - X n)).
    exists (whole F (piece c) L). split.
    - exists (whole (fun _ => piece1 c 0 (X 0%nat)) (piece1 c) (fun _ => piece1 c (n - 1) (X n))), (whole (fun _ => 0) (piece2 c) (fun _ => 0)).
      split; [|split; [|split; [|split; [|split]]]].
      + intros x. apply whole_derive; auto; try (unfold F, L; ring); intros; [apply line_derive|apply line_derive|apply cubic_derive].
      + intros x. apply whole_derive; auto; intros; [apply dd_const|apply dd_const|apply cubic_derive2].
      + apply whole_continuous; auto; intros; try apply cconst. unfold piece2. auto with cont.
      + intros k Hk. destruct (Nat.eq_dec k n) as [->|Ne].
        * rewrite (whole_inside F L (piece c) N0 ltac:(unfold L; ring) (n - 1)%nat); [|lia|replace (n - 1 + 1)%nat with n by lia; split; [apply knots_le; lia|lra]].
          destruct (N1 (n - 1)%nat ltac:(lia)) as [_ A]. replace (n - 1 + 1)%nat with n in A by lia. exact A.
        * rewrite (whole_inside F L (piece c) N0 ltac:(unfold L; ring) k); [|lia|split; [lra|apply knots_le; lia]].
          apply N1. lia.
      + intros k Hk. exists (c (4 * k)%nat), (c (4 * k + 1)%nat), (c (4 * k + 2)%nat), (c (4 * k + 3)%nat). intros x Hx.
        rewrite (whole_inside F L (piece c) N0 ltac:(unfold L; ring) k) by auto. reflexivity.
      + intros x [Hx|Hx]; [rewrite whole_left by auto|rewrite whole_right by auto]; auto.
    - intros k x Hk Hx. apply whole_inside; auto. unfold L. ring.
  Qed.

  (** and a natural spline has such coefficients *)
  Lemma choose_coefs (P : nat -> R -> R -> R -> R -> Prop) m : (forall k, (k < m)%nat -> exists c0 c1 c2 c3, P k c0 c1 c2 c3) ->
    exists c : vec, forall k, (k < m)%nat -> P k (c (4 * k)%nat) (c (4 * k + 1)%nat) (c (4 * k + 2)%nat) (c (4 * k + 3)%nat).
  Proof.
    induction m as [|m IH]; intros H; [exists (fun _ => 0); intros; lia|].
    destruct IH as [c Hc]; [intros; apply H; lia|]. destruct (H m ltac:(lia)) as (c0 & c1 & c2 & c3 & Hm).
    exists (fun j => if (j <? 4 * m)%nat then c j else if (j =? 4 * m)%nat then c0 else if (j =? 4 * m + 1)%nat then c1 else if (j =? 4 * m + 2)%nat then c2 else c3).
    intros k Hk. destruct (Nat.eq_dec k m) as [->|Ne].
    - destruct (Nat.ltb_spec (4 * m) (4 * m)); [lia|]. destruct (Nat.ltb_spec (4 * m + 1) (4 * m)); [lia|].
      destruct (Nat.ltb_spec (4 * m + 2) (4 * m)); [lia|]. destruct (Nat.ltb_spec (4 * m + 3) (4 * m)); [lia|].
      rewrite !Nat.eqb_refl. destruct (Nat.eqb_spec (4 * m + 1) (4 * m)); [lia|]. destruct (Nat.eqb_spec (4 * m + 2) (4 * m)); [lia|].
      destruct (Nat.eqb_spec (4 * m + 2) (4 * m + 1)); [lia|]. destruct (Nat.eqb_spec (4 * m + 3) (4 * m)); [lia|].
      destruct (Nat.eqb_spec (4 * m + 3) (4 * m + 1)); [lia|]. destruct (Nat.eqb_spec (4 * m + 3) (4 * m + 2)); [lia|]. auto.
    - destruct (Nat.ltb_spec (4 * k) (4 * m)); [|lia]. destruct (Nat.ltb_spec (4 * k + 1) (4 * m)); [|lia].
      destruct (Nat.ltb_spec (4 * k + 2) (4 * m)); [|lia]. destruct (Nat.ltb_spec (4 * k + 3) (4 * m)); [|lia]. apply Hc. lia.
  Qed.
  Lemma spline_is_natural Y S : natural_spline n X Y S -> exists c, natural datax n Y c /\
    forall k x, (k < n)%nat -> X k <= x <= X (k + 1)%nat -> S x = piece c k x.
  Proof.
    intros (S1 & S2 & D1 & D2 & C2 & V & P & Z).
    destruct (choose_coefs (fun k c0 c1 c2 c3 => forall x, X k <= x <= X (k + 1)%nat -> S x = c0 + c1 * x + c2 * x ^ 2 + c3 * x ^ 3) n P) as [c Hc].
    assert (P0 : forall k x, (k < n)%nat -> X k <= x <= X (k + 1)%nat -> S x = piece c k x) by (intros; apply Hc; auto).
    assert (P1 : forall k x, (k < n)%nat -> X k <= x <= X (k + 1)%nat -> S1 x = piece1 c k x).
    { intros k x Hk Hx. apply (agree_derive S (piece c k) (X k) (X (k + 1)%nat) x); auto. apply cubic_derive. }
    assert (P2 : forall k x, (k < n)%nat -> X k <= x <= X (k + 1)%nat -> S2 x = piece2 c k x).
    { intros k x Hk Hx. apply (agree_derive S1 (piece1 c k) (X k) (X (k + 1)%nat) x); auto. apply cubic_derive2. }
    exists c. split; [|auto]. split; [|split; [|split; [|split]]].
    - intros k Hk. assert (I := Inc k Hk). fold (X k). fold (X (k + 1)%nat). rewrite <- !P0 by (auto; lra). split; apply V; lia.
    - intros k Hk. assert (I := Inc k ltac:(lia)). assert (I' := Inc (k + 1)%nat ltac:(lia)). fold (X (k + 1)%nat). rewrite <- !P1 by (try lia; lra). auto.
    - intros k Hk. assert (I := Inc k ltac:(lia)). assert (I' := Inc (k + 1)%nat ltac:(lia)). fold (X (k + 1)%nat). rewrite <- !P2 by (try lia; lra). auto.
    - assert (I := Inc 0%nat ltac:(lia)). fold (X 0%nat). rewrite <- P2 by (try lia; cbn [Nat.add] in *; lra). apply Z. left. lra.
    - assert (I := Inc (n - 1)%nat ltac:(lia)). fold (X n). replace (n - 1 + 1)%nat with n in I by lia. rewrite <- P2; [apply Z; right; lra|lia|].
      replace (n - 1 + 1)%nat with n by lia. lra.
  Qed.
  (** every point of the range lies between two knots *)
  Lemma find_piece x : X 0%nat <= x <= X n -> exists k, (k < n)%nat /\ X k <= x <= X (k + 1)%nat.
  Proof.
    assert (G : forall m, (1 <= m <= n)%nat -> X 0%nat <= x <= X m -> exists k, (k < m)%nat /\ X k <= x <= X (k + 1)%nat).
    { induction m as [|m IH]; intros Hm Hx; [lia|]. destruct (Rle_dec (X m) x).
      - exists m. split; [lia|]. replace (m + 1)%nat with (S m) by lia. lra.
      - destruct (Nat.eq_dec m 0) as [->|]; [lra|]. destruct IH as [k [Hk Hxk]]; [lia|lra|]. exists k. split; [lia|auto]. }
    intros Hx. apply G; [lia|auto].
  Qed.
  Lemma eval_from_spec coef x : (length datax = n + 1)%nat -> forall k knot, (knot + k = n)%nat ->
    (exists j, (knot <= j < n)%nat /\ X j <= x <= X (j + 1)%nat /\ eval_from datax coef x k knot = Ok (piece coef j x)) \/
    ((forall j, (knot <= j < n)%nat -> ~ (X j <= x <= X (j + 1)%nat)) /\ eval_from datax coef x k knot = Ok 0).
  Proof.
    intros HL. induction k as [|k IH]; intros knot E; cbn [eval_from]; [right; split; [intros; lia|auto]|].
    rewrite getitem_nth by lia. cbn [bind]. fold (X knot). destruct (Rle_dec (X knot) x) as [A|A].
    - rewrite !(Rleb_true (X knot) x) by auto. rewrite getitem_nth by lia. cbn [bind]. fold (X (knot + 1)%nat).
      destruct (Rle_dec x (X (knot + 1)%nat)) as [B|B].
      + rewrite !Rleb_true by auto. left. exists knot. split; [lia|]. split; [lra|]. unfold piece. f_equal. ring.
      + rewrite !(Rleb_false x) by lra. destruct (IH (S knot) ltac:(lia)) as [[j [Hj G]]|[Q1 Q2]]; [left; exists j; split; [lia|auto]|right]. split; [|auto].
        intros j Hj. destruct (Nat.eq_dec j knot) as [->|]; [lra|apply Q1; lia].
    - rewrite !(Rleb_false (X knot)) by lra. cbn [bind]. destruct (IH (S knot) ltac:(lia)) as [[j [Hj G]]|[Q1 Q2]]; [left; exists j; split; [lia|auto]|right]. split; [|auto].
      intros j Hj. destruct (Nat.eq_dec j knot) as [->|]; [lra|apply Q1; lia].
  Qed.
End Shape.
