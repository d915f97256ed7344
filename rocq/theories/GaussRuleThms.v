(** C150: Gauss and Gauss-Lobatto rules exist for every number of points, are unique, and the nodes the code finds are near the true ones. *)
From Coquelicot Require Import Coquelicot.
From Verif Require Import Py PyLemmas Calc Legendre Cheb DGModel DGSpec DGProofs FuncModel FuncProofs FuncLobatto GaussExist FuncThms.
Open Scope R_scope.

(* ---------------------------------------------------------------- C150 *)
Lemma sorted_nodup (l : list R) : (forall i, (S i < length l)%nat -> nth i l 0 < nth (S i) l 0) -> NoDup l.
Proof.
  intros H. assert (G : forall i j, (i < j)%nat -> (j < length l)%nat -> nth i l 0 < nth j l 0).
  { intros i j Hij Hj. induction j as [|j IH]; [lia|]. destruct (Nat.eq_dec i j) as [->|]; [apply H; lia|]. apply Rlt_trans with (nth j l 0); [apply IH; lia|apply H; lia]. }
  apply (NoDup_nth _ 0). intros i j Hi Hj E. destruct (Nat.lt_trichotomy i j) as [K|[K|K]]; auto; [specialize (G i j K Hj)|specialize (G j i K Hi)]; lra.
Qed.
Lemma nodup_map (g : nat -> R) l : (forall i j, In i l -> In j l -> g i = g j -> i = j) -> NoDup l -> NoDup (map g l).
Proof.
  intros H N. induction N as [|i l Hi N IH]; cbn [map]; constructor.
  - intros K. apply in_map_iff in K as (j & E & Hj). apply Hi. rewrite (H i j); auto; [now left|now right].
  - apply IH. intros a b Ha Hb. apply H; now right.
Qed.
Lemma nth_fst (q : list (R * R)) i : nth i (map fst q) 0 = fst (nth i q (0, 0)).
Proof. exact (map_nth fst q (0, 0) i). Qed.
(** for every number of points there is a rule with increasing nodes strictly inside (-1,1) and positive weights that sum to 2,
    exact for all polynomials of degree up to 2 m - 1 *)
Theorem C150_gauss_rule_exists : forall m, (1 <= m)%nat -> exists q : list (R * R),
  length q = m /\ (forall i, (S i < m)%nat -> fst (nth i q (0, 0)) < fst (nth (S i) q (0, 0))) /\
  (forall x w, In (x, w) q -> -1 < x < 1 /\ 0 < w /\ leg m x = 0) /\ rsum (map snd q) = 2 /\
  (forall k, (k <= 2 * m - 1)%nat -> is_RInt (fun z => z ^ k) (-1) 1 (rsum (map (fun p => snd p * fst p ^ k) q))).
Proof.
  intros m Hm. destruct (gauss_exists m Hm) as (ns & Nd & L & Z & Inc). exists (gauss_rule m ns).
  assert (Ex : exact_to (gauss_rule m ns) (2 * m - 1)) by (apply gauss_exact_to; auto; intros; now apply Z).
  assert (F : map fst (gauss_rule m ns) = ns) by (unfold gauss_rule; rewrite map_map; cbn [fst]; apply map_id).
  split; [unfold gauss_rule; now rewrite map_length|]. split; [|split; [|split]].
  - intros i Hi. rewrite <- !nth_fst, F. now apply Inc.
  - intros x w Hx. unfold gauss_rule in Hx. apply in_map_iff in Hx as (y & E & Hy). injection E as <- <-. destruct (Z _ Hy). repeat split; try tauto; try lra. now apply gw_pos.
  - pose proof (Ex 0%nat ltac:(lia)) as E0. unfold leg_exact, qsum in E0. assert (E2 : is_RInt (fun z : R => z ^ 0) (-1) 1 2) by (eapply int_eq; [apply (int_const 1)|ring]).
    apply (int_uniq2 _ _ _ _ _ E0) in E2. rewrite <- E2. f_equal. apply map_ext. intros; cbn; ring.
  - intros k Hk. exact (Ex k Hk).
Qed.
Print Assumptions C150_gauss_rule_exists.
(** and there is only one: the contract assumed of numpy's leggauss determines its result *)
Theorem C150_gauss_rule_unique : forall m q q', (1 <= m)%nat -> length q = m -> length q' = m ->
  (forall i, (S i < m)%nat -> fst (nth i q (0, 0)) < fst (nth (S i) q (0, 0))) -> (forall i, (S i < m)%nat -> fst (nth i q' (0, 0)) < fst (nth (S i) q' (0, 0))) ->
  (forall k, (k <= 2 * m - 1)%nat -> is_RInt (fun z => z ^ k) (-1) 1 (rsum (map (fun p => snd p * fst p ^ k) q))) ->
  (forall k, (k <= 2 * m - 1)%nat -> is_RInt (fun z => z ^ k) (-1) 1 (rsum (map (fun p => snd p * fst p ^ k) q'))) -> q = q'.
Proof.
  assert (G : forall m q, (1 <= m)%nat -> length q = m -> (forall i, (S i < m)%nat -> fst (nth i q (0, 0)) < fst (nth (S i) q (0, 0))) -> exact_to q (2 * m - 1) ->
    exists ns, (forall s, inside m s -> (forall i, (i < m)%nat -> leg m (s i) = 0) -> forall i, (i < m)%nat -> nth i ns 0 = s i) /\ length ns = m /\ q = gauss_rule m ns).
  { intros m q Hm L Inc Ex. destruct (rule_unique m q Hm L Ex) as (Nd & W). exists (map fst q). split; [|split; [now rewrite map_length|]].
    - intros s I Z i Hi. destruct m as [|n]; [lia|]. apply (zeros_unique n s (fun i => nth i (map fst q) 0) I); [intros; apply Z; lia| | |lia].
      + intros j Hj. rewrite !nth_fst. now apply Inc.
      + intros j Hj. rewrite nth_fst. destruct (nth j q (0, 0)) as (x, w) eqn:E. apply (W x w). rewrite <- E. apply nth_In. lia.
    - unfold gauss_rule. rewrite map_map. symmetry. erewrite map_ext_in; [apply map_id|]. intros (x, w) Hx. cbn [fst]. destruct (W x w Hx). congruence. }
  intros m q q' Hm L L' Inc Inc' Ex Ex'. destruct (G m q Hm L Inc Ex) as (ns & H & Hl & ->). destruct (G m q' Hm L' Inc' Ex') as (ns' & H' & Hl' & ->). f_equal.
  destruct m as [|n]; [lia|]. destruct (legendre_zeros n) as (s & I & Z & _). apply nth_ext with (d := 0) (d' := 0); [congruence|]. intros i Hi.
  rewrite (H s I) by (intros; try apply Z; lia). rewrite (H' s I) by (intros; try apply Z; lia). reflexivity.
Qed.
Print Assumptions C150_gauss_rule_unique.
Example C150_one_point : forall q, length q = 1%nat -> (forall k, (k <= 1)%nat -> is_RInt (fun z => z ^ k) (-1) 1 (rsum (map (fun p => snd p * fst p ^ k) q))) -> q = (0, 2) :: nil.
Proof.
  intros q L Ex. apply (C150_gauss_rule_unique 1); auto; try (intros; lia). intros k Hk. destruct k as [|[|k]]; try lia.
  - eapply int_eq; [apply (int_const 1)|cbn; ring].
  - apply (int_ext (leg 1)); [intro; rewrite leg_1; ring|]. eapply int_eq; [apply leg_int|cbn; ring].
Qed.

Lemma slope_iff n z : is_derive (leg n) z 0 <-> dleg n z = 0.
Proof.
  split; intros H; [|rewrite <- H; apply leg_derive]. pose proof (leg_derive n z) as D. apply is_derive_unique in D. apply is_derive_unique in H. congruence.
Qed.
Lemma true_nodes n : (3 <= n)%nat -> exists s c k, inside (n - 1) s /\ inside (n - 2) c /\ k <> 0 /\ (forall i, (i < n - 1)%nat -> leg (n - 1) (s i) = 0) /\
  (forall j, (j < n - 2)%nat -> s j < c j < s (S j)) /\ (forall z, dleg (n - 1) z = k * prodn (n - 2) (fun i => z - c i)).
Proof.
  intros Hn. destruct n as [|[|n]]; try lia. destruct (legendre_zeros n) as (s & I & Z & Sg). destruct (slope_zeros n s I Z Sg) as (c & k & Hc & Ic & Hk & Hf).
  replace (S (S n) - 1)%nat with (S n) by lia. replace (S (S n) - 2)%nat with n by lia. exists s, c, k. repeat split; try apply I; try apply Ic; try apply Hc; auto. intros; apply Z; lia.
Qed.
Lemma prod_zero_iff m k c z : k <> 0 -> k * prodn m (fun i => z - c i) = 0 <-> exists i, (i < m)%nat /\ z = c i.
Proof.
  intros Hk. split.
  - intros H. apply Rmult_integral in H as [|H]; [tauto|]. apply prodn_zero_inv in H as (i & Hi & E). exists i. split; auto. lra.
  - intros (i & Hi & ->). rewrite (prodn_zero m _ i Hi); ring.
Qed.
(** each bracket that the Lobatto routine takes from the (n-1)-point Gauss rule contains exactly one interior Lobatto node, and there are no others *)
Theorem C150_one_node_per_bracket : forall lg n, (3 <= n)%nat -> length (lg (n - 1)%nat) = (n - 1)%nat ->
  (forall i, (S i < n - 1)%nat -> fst (nth i (lg (n - 1)%nat) (0, 0)) < fst (nth (S i) (lg (n - 1)%nat) (0, 0))) ->
  (forall k, (k <= 2 * (n - 1) - 1)%nat -> is_RInt (fun z => z ^ k) (-1) 1 (rsum (map (fun p => snd p * fst p ^ k) (lg (n - 1)%nat)))) ->
  (forall i, (i < n - 2)%nat -> exists c, fst (nth i (lg (n - 1)%nat) (0, 0)) < c < fst (nth (S i) (lg (n - 1)%nat) (0, 0)) /\ is_derive (leg (n - 1)) c 0 /\
     forall c', fst (nth i (lg (n - 1)%nat) (0, 0)) < c' < fst (nth (S i) (lg (n - 1)%nat) (0, 0)) -> is_derive (leg (n - 1)) c' 0 -> c' = c) /\
  (forall z, is_derive (leg (n - 1)) z 0 -> exists i, (i < n - 2)%nat /\ fst (nth i (lg (n - 1)%nat) (0, 0)) < z < fst (nth (S i) (lg (n - 1)%nat) (0, 0))).
Proof.
  intros lg n Hn L Inc Ex. set (q := lg (n - 1)%nat) in *. destruct (rule_unique (n - 1) q ltac:(lia) L Ex) as (_ & W).
  destruct (true_nodes n Hn) as (s & c & k & I & Ic & Hk & Z & B & F).
  assert (N : forall i, (i < n - 1)%nat -> fst (nth i q (0, 0)) = s i).
  { intros i Hi. destruct n as [|[|n]]; try lia. replace (S (S n) - 1)%nat with (S n) in * by lia.
    apply (zeros_unique n s (fun i => fst (nth i q (0, 0))) I); [intros; apply Z; lia|intros; now apply Inc| |lia]. intros j Hj. destruct (nth j q (0, 0)) as (x, w) eqn:E. apply (W x w). rewrite <- E. apply nth_In. lia. }
  assert (D : forall z, is_derive (leg (n - 1)) z 0 <-> exists i, (i < n - 2)%nat /\ z = c i) by (intros z; rewrite slope_iff, F; now apply prod_zero_iff).
  split.
  - intros i Hi. rewrite (N i), (N (S i)) by lia. exists (c i). split; [now apply B|]. split; [apply D; eauto|]. intros c' Hc' H. apply D in H as (j & Hj & ->).
    pose proof (B j Hj) as Bj. destruct (Nat.lt_trichotomy j i) as [K|[->|K]]; auto; exfalso.
    + destruct (Nat.eq_dec (S j) i) as [<-|]; [lra|]. pose proof (inside_lt _ _ (S j) i I ltac:(lia) ltac:(lia)). lra.
    + destruct (Nat.eq_dec (S i) j) as [<-|]; [lra|]. pose proof (inside_lt _ _ (S i) j I ltac:(lia) ltac:(lia)). lra.
  - intros z Hz. apply D in Hz as (i & Hi & ->). exists i. split; auto. rewrite !N by lia. now apply B.
Qed.
Print Assumptions C150_one_node_per_bracket.
(** the interior nodes of the Gauss-Lobatto rule exist for every n: the hypothesis of C77_lobatto_exact can be met *)
Theorem C150_lobatto_nodes_exist : forall n, (3 <= n)%nat -> exists inner, NoDup inner /\ length inner = (n - 2)%nat /\
  (forall x, In x inner <-> is_derive (leg (n - 1)) x 0) /\ forall x, In x inner -> -1 < x < 1.
Proof.
  intros n Hn. destruct (true_nodes n Hn) as (s & c & k & I & Ic & Hk & Z & B & F). exists (map c (seq 0 (n - 2))). split; [|split; [|split]].
  - apply nodup_map; [|apply seq_NoDup]. intros i j Hi Hj E. apply in_seq in Hi, Hj.
    destruct (Nat.lt_trichotomy i j) as [K|[K|K]]; auto; [pose proof (inside_lt _ _ i j Ic K ltac:(lia))|pose proof (inside_lt _ _ j i Ic K ltac:(lia))]; lra.
  - now rewrite map_length, seq_length.
  - intros x. rewrite slope_iff, F, prod_zero_iff by auto. rewrite in_map_iff. split; [intros (i & E & H); apply in_seq in H; exists i; split; [lia|auto]|intros (i & H & E); exists i; split; [auto|apply in_seq; lia]].
  - intros x Hx. apply in_map_iff in Hx as (i & <- & H). apply in_seq in H. apply Ic. lia.
Qed.
Print Assumptions C150_lobatto_nodes_exist.

Lemma map_result_in {A B} (f : A -> result B) l : forall r y, map_result f l = Ok r -> In y r -> exists a, In a l /\ f a = Ok y.
Proof.
  induction l as [|x l IH]; intros r y H Hy; cbn in H; [injection H as <-; destruct Hy|].
  destruct (f x) as [b|] eqn:E; [|discriminate]. destruct (map_result f l) as [r'|] eqn:E'; [|discriminate]. injection H as <-. destruct Hy as [->|Hy]; [exists x; split; [left|]; auto|].
  destruct (IH r' y eq_refl Hy) as (a & Ha & Ea). exists a. split; [now right|auto].
Qed.
Lemma inner_near lg fuel n inner x : (3 <= n)%nat -> lobatto_roots lg fuel n = Ok inner -> In x inner -> exists c, is_derive (leg (n - 1)) c 0 /\ Rabs (x - c) <= INR (n - 1) / 10 ^ 14.
Proof.
  intros Hn Hr Hx. unfold lobatto_roots in Hr. destruct (map_result_in _ _ _ _ Hr Hx) as (i & _ & E). clear Hr Hx.
  set (br := if (1 <? n)%nat then map fst (lg (n - 1)%nat) else -1 :: 1 :: nil) in E.
  destruct (getitem br i) as [b0|]; cbn [bind] in E; [|discriminate]. destruct (getitem br (i + 1)) as [b1|]; cbn [bind] in E; [|discriminate].
  apply newton_spec in E as (y & v & d & Ev & Ed & Hd & -> & Ht). unfold off_ends in Ev, Ed. destruct (Reqb_spec (y ^ 2) 1) as [|Hy]; [discriminate|].
  injection Ev as <-. injection Ed as Ed. destruct (true_nodes n Hn) as (s & c & k & I & Ic & Hk & Z & B & F).
  assert (D2 : is_derive (dleg (n - 1)) y d) by (rewrite <- Ed; apply legendre_second_ok; [lia|auto]).
  rewrite legendre_deriv_ok in * by (lia || auto). replace (y - dleg (n - 1) y / d - y) with (- (dleg (n - 1) y / d)) in Ht by ring. rewrite Rabs_Ropp in Ht.
  destruct (newton_near (n - 2) k c y (dleg (n - 1)) d (/ 10 ^ 14) F Hk D2 Hd Ht) as (j & Hj & Near). exists (c j). split.
  - apply slope_iff. rewrite F. apply prod_zero_iff; eauto.
  - apply Rle_trans with (Rabs (y - c j) + Rabs (dleg (n - 1) y / d)).
    + replace (y - dleg (n - 1) y / d - c j) with ((y - c j) + - (dleg (n - 1) y / d)) by ring. eapply Rle_trans; [apply Rabs_triang|]. rewrite Rabs_Ropp. lra.
    + apply Rle_trans with (INR (n - 2) * / 10 ^ 14 + / 10 ^ 14); [lra|]. replace (n - 1)%nat with (S (n - 2)) by lia. rewrite S_INR. unfold Rdiv. lra.
Qed.
(** every node that quadrature('gauss_lobatto') returns lies within (n - 1) 1e-14 of a true Gauss-Lobatto node: an end point, or an interior zero of P'_{n-1}.
    This needs nothing of the brackets: the stopping test of the Newton iteration is enough, because the zeros are all real *)
Theorem C150_lobatto_nodes_accurate : forall lg fuel n q x w, (3 <= n)%nat -> quadrature_lobatto lg fuel n = Ok q -> In (x, w) q ->
  exists c, (c = -1 \/ c = 1 \/ -1 < c < 1 /\ is_derive (leg (n - 1)) c 0) /\ Rabs (x - c) <= INR (n - 1) / 10 ^ 14.
Proof.
  intros lg fuel n q x w Hn Hq Hx. assert (Hb : 0 <= INR (n - 1) / 10 ^ 14) by (apply Rmult_le_pos; [apply pos_INR|left; apply Rinv_0_lt_compat, pow_lt; lra]).
  destruct (lobatto_roots lg fuel n) as [inner|] eqn:Er; [|unfold quadrature_lobatto in Hq; rewrite Er in Hq; discriminate].
  destruct (lobatto_shape _ _ _ _ _ Hn Er Hq) as (_ & ->). unfold lob_rule in Hx. apply in_map_iff in Hx as (y & E & Hy). injection E as -> _.
  destruct Hy as [<-|Hy]; [exists (-1); split; [auto|rewrite Rminus_eq_0, Rabs_R0; auto]|]. apply in_app_or in Hy as [Hy|[<-|[]]]; [|exists 1; split; [auto|rewrite Rminus_eq_0, Rabs_R0; auto]].
  destruct (inner_near lg fuel n inner x Hn Er Hy) as (c & Hc & Hd). exists c. split; auto. right; right. split; auto.
  destruct (C150_lobatto_nodes_exist n Hn) as (ns & _ & _ & Hin & Hr). apply Hr, Hin, Hc.
Qed.
Print Assumptions C150_lobatto_nodes_accurate.
(** if moreover the returned interior nodes are more than twice that distance apart, none of the true nodes is missed *)
Theorem C150_no_node_missed : forall lg fuel n inner, (3 <= n)%nat -> lobatto_roots lg fuel n = Ok inner ->
  (forall i j, (i < j)%nat -> (j < length inner)%nat -> 2 * (INR (n - 1) / 10 ^ 14) < Rabs (nth i inner 0 - nth j inner 0)) ->
  forall c, is_derive (leg (n - 1)) c 0 -> exists x, In x inner /\ Rabs (x - c) <= INR (n - 1) / 10 ^ 14.
Proof.
  intros lg fuel n inner Hn Er Sep c Hc. set (e := INR (n - 1) / 10 ^ 14) in *.
  destruct (C150_lobatto_nodes_exist n Hn) as (ns & Nd & Hl & Hin & _).
  assert (Hlen : length inner = (n - 2)%nat) by (unfold lobatto_roots in Er; apply map_result_length in Er; now rewrite seq_length in Er).
  destruct (finite_pick (fun i y => In y ns /\ Rabs (nth i inner 0 - y) <= e) (n - 2)) as (g & Hg).
  { intros i Hi. destruct (inner_near lg fuel n inner (nth i inner 0) Hn Er ltac:(apply nth_In; lia)) as (y & Hy & Hd). exists y. split; auto. now apply Hin. }
  assert (NdG : NoDup (map g (seq 0 (n - 2)))).
  { apply nodup_map; [|apply seq_NoDup]. intros i j Hi Hj E. apply in_seq in Hi, Hj. destruct (Hg i ltac:(lia)) as (_ & Di). destruct (Hg j ltac:(lia)) as (_ & Dj).
    assert (T : Rabs (nth i inner 0 - nth j inner 0) <= 2 * e).
    { replace (nth i inner 0 - nth j inner 0) with ((nth i inner 0 - g i) + - (nth j inner 0 - g j)) by (rewrite E; ring). eapply Rle_trans; [apply Rabs_triang|]. rewrite Rabs_Ropp. lra. }
    destruct (Nat.lt_trichotomy i j) as [K|[K|K]]; auto; exfalso; [pose proof (Sep i j K ltac:(lia)); lra|]. pose proof (Sep j i K ltac:(lia)) as S'. rewrite Rabs_minus_sym in S'. lra. }
  assert (Inc : incl ns (map g (seq 0 (n - 2)))).
  { apply NoDup_length_incl; auto; [rewrite map_length, seq_length; lia|]. intros y Hy. apply in_map_iff in Hy as (i & <- & Hi). apply in_seq in Hi. apply Hg. lia. }
  apply Hin in Hc. apply Inc in Hc. apply in_map_iff in Hc as (i & <- & Hi). apply in_seq in Hi. exists (nth i inner 0). split; [apply nth_In; lia|apply Hg; lia].
Qed.
Print Assumptions C150_no_node_missed.
(** the three-point rule: all hypotheses can be met, and the node found is the exact one *)
Example C150_example : lobatto_roots (lg2 (1 / 2)) 1 3 = Ok (0 :: nil) /\ is_derive (leg 2) 0 0.
Proof. split; [apply simpson_roots|]. apply slope_iff. rewrite dleg_SS, dleg_0, leg_1. ring. Qed.
