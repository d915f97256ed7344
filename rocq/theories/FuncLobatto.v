(** Exactness of the Gauss-Lobatto rule when the inner nodes are the zeros of P'_{n-1}. *)
From Coquelicot Require Import Coquelicot.
From Verif Require Import Py PyLemmas Calc Legendre Cheb DGModel DGSpec DGProofs FuncModel FuncProofs.
Open Scope R_scope.

(* polynomials by Horner lists *)
Definition ph (l : list R) (x : R) : R := fold_right (fun c acc => c + x * acc) 0 l.
Fixpoint synth (l : list R) (r : R) : list R :=
  match l with nil => nil | c :: t => match t with nil => nil | _ => ph t r :: synth t r end end.
Lemma synth_len l r : length (synth l r) = (length l - 1)%nat.
Proof. induction l as [|c [|d t] IH]; [reflexivity|reflexivity|]. change (S (length (synth (d :: t) r)) = (S (length (d :: t)) - 1)%nat). rewrite IH. cbn [length]. lia. Qed.
Lemma synth_ok l r x : ph l x = (x - r) * ph (synth l r) x + ph l r.
Proof.
  induction l as [|c [|d t] IH]; [simpl; ring|simpl; ring|].
  change (ph (c :: d :: t) x) with (c + x * ph (d :: t) x). change (ph (c :: d :: t) r) with (c + r * ph (d :: t) r).
  change (ph (synth (c :: d :: t) r) x) with (ph (d :: t) r + x * ph (synth (d :: t) r) x). rewrite IH. ring.
Qed.
Lemma ph_roots roots : NoDup roots -> forall l, (length l <= length roots)%nat -> (forall r, In r roots -> ph l r = 0) -> forall x, ph l x = 0.
Proof.
  induction 1 as [|r roots Hr Hn IH]; intros l Hl Hz x.
  - destruct l; [reflexivity|cbn in Hl; lia].
  - pose proof (Hz r (or_introl eq_refl)) as Zr. rewrite (synth_ok l r), Zr.
    rewrite (IH (synth l r)); [ring|rewrite synth_len; cbn [length] in Hl; lia|].
    intros s Hs. pose proof (Hz s (or_intror Hs)) as Zs. rewrite (synth_ok l r s), Zr in Zs.
    assert (N : s - r <> 0) by (intro K; apply Hr; replace r with s by lra; auto).
    apply (Rmult_eq_reg_l (s - r)); auto. lra.
Qed.
(* closure *)
Fixpoint ladd (p q : list R) : list R :=
  match p, q with nil, _ => q | _, nil => p | a :: p', b :: q' => (a + b) :: ladd p' q' end.
Lemma ladd_ok p q x : ph (ladd p q) x = ph p x + ph q x.
Proof.
  revert q. induction p as [|a p IH]; intros [|b q]; try (simpl; ring).
  change (a + b + x * ph (ladd p q) x = (a + x * ph p x) + (b + x * ph q x)). rewrite IH. ring.
Qed.
Lemma ladd_len p q : length (ladd p q) = Nat.max (length p) (length q).
Proof. revert q. induction p as [|a p IH]; intros [|b q]; cbn [ladd length]; auto. now rewrite IH. Qed.
Definition lscal (k : R) (p : list R) : list R := map (fun c => k * c) p.
Lemma lscal_ok k p x : ph (lscal k p) x = k * ph p x.
Proof. induction p as [|a p IH]; [simpl; ring|]. change (k * a + x * ph (lscal k p) x = k * (a + x * ph p x)). rewrite IH. ring. Qed.
(** functions that are polynomials of degree at most d *)
Definition deg_le (d : nat) (v : R -> R) : Prop := exists l, (length l <= S d)%nat /\ forall x, v x = ph l x.
Lemma deg_ext d u v : (forall x, u x = v x) -> deg_le d u -> deg_le d v.
Proof. intros E (l & L & H). exists l. split; auto. intro. rewrite <- E. auto. Qed.
Lemma deg_mono d e v : (d <= e)%nat -> deg_le d v -> deg_le e v.
Proof. intros H (l & L & K). exists l. split; [lia|auto]. Qed.
Lemma deg_lin d u v p q : deg_le d u -> deg_le d v -> deg_le d (fun z => p * u z + q * v z).
Proof.
  intros (l & L & H) (m & L' & H'). exists (ladd (lscal p l) (lscal q m)). split.
  - rewrite ladd_len. unfold lscal. rewrite !map_length. lia.
  - intro x. rewrite ladd_ok, !lscal_ok, H, H'. reflexivity.
Qed.
Lemma deg_const d c : deg_le d (fun _ => c).
Proof. exists (c :: nil). split; [cbn; lia|]. intro; cbn. ring. Qed.
Lemma deg_x d v : deg_le d v -> deg_le (S d) (fun z => z * v z).
Proof. intros (l & L & H). exists (0 :: l). split; [cbn; lia|]. intro x. rewrite H. change (x * ph l x = 0 + x * ph l x). ring. Qed.
Lemma deg_leg n : deg_le n (leg n).
Proof.
  assert (G : forall n, deg_le n (leg n) /\ deg_le (S n) (leg (S n))).
  { clear n. induction n as [|n [I1 I2]].
    - split; [apply (deg_ext _ (fun _ => 1)); [intro; now rewrite leg_0|apply deg_const]|].
      apply (deg_ext _ (fun z => z * leg 0 z)); [intro; rewrite leg_0, leg_1; ring|]. apply deg_x.
      apply (deg_ext _ (fun _ => 1)); [intro; now rewrite leg_0|apply deg_const].
    - split; auto. pose proof (pos_INR n).
      apply (deg_ext _ (fun z => (2 * INR n + 3) / (INR n + 2) * (z * leg (S n) z) + - (INR n + 1) / (INR n + 2) * leg n z)).
      + intro z. rewrite leg_SS. field. lra.
      + apply deg_lin; [now apply deg_x|apply (deg_mono n); auto]. }
  apply G.
Qed.
Lemma deg_sumn d n (v : nat -> R -> R) : (forall i, (i < n)%nat -> deg_le d (v i)) -> deg_le d (fun z => sumn n (fun i => v i z)).
Proof.
  induction n as [|n IH]; intro H; cbn [sumn]; [apply deg_const|].
  apply (deg_ext _ (fun z => 1 * sumn n (fun i => v i z) + 1 * v n z)); [intro; ring|]. apply deg_lin; [apply IH; intros; apply H; lia|apply H; lia].
Qed.

(* Christoffel-Darboux *)
Lemma CD m x y : (x - y) * sumn m (fun k => (2 * INR k + 1) * leg k x * leg k y) =
  INR m * (leg m x * leg (m - 1) y - leg (m - 1) x * leg m y).
Proof.
  destruct m as [|m]; [simpl; ring|]. replace (S m - 1)%nat with m by lia.
  induction m as [|m IH].
  - cbn [sumn]. rewrite !leg_0, !leg_1. simpl (INR 0). simpl (INR 1). ring.
  - remember (S m) as m1. cbn [sumn]. rewrite Rmult_plus_distr_l. rewrite IH. rewrite Heqm1. rewrite !leg_SS, !S_INR. pose proof (pos_INR m). field. lra.
Qed.
Lemma CD_diag m x : (1 <= m)%nat -> sumn m (fun k => (2 * INR k + 1) * leg k x * leg k x) = INR m * (dleg m x * leg (m - 1) x - dleg (m - 1) x * leg m x).
Proof.
  intro Hm. destruct m as [|m]; [lia|]. replace (S m - 1)%nat with m by lia. clear Hm.
  induction m as [|m IH].
  - cbn [sumn]. rewrite leg_0, leg_1, dleg_0, dleg_1. simpl (INR 0). simpl (INR 1). ring.
  - remember (S m) as m1. cbn [sumn]. rewrite IH. rewrite Heqm1. rewrite dleg_SS, leg_SS, !S_INR. pose proof (pos_INR m).
    pose proof (leg_C m x) as C. pose proof (leg_B m x) as B. pose proof (leg_D m x) as D.
    replace (dleg m x) with (x * dleg (S m) x - (INR m + 1) * leg (S m) x) by lra.
    field. lra.
Qed.

Section Lobatto.
Variable m : nat.
Hypothesis Hm : (1 <= m)%nat.
(** the zeros of (x^2-1) P_m' *)
Definition lob_node (x : R) : Prop := leg (m - 1) x = x * leg m x.
Definition KK (x y : R) : R := sumn m (fun k => (2 * INR k + 1) * leg k x * leg k y) + INR m * (leg m x * leg m y).
Definition lw (x : R) : R := 2 / (INR (m + 1) * INR m) / leg m x ^ 2.
Lemma KK_off x y : lob_node x -> lob_node y -> x <> y -> KK x y = 0.
Proof.
  intros Hx Hy Hn. pose proof (CD m x y) as E. rewrite Hx, Hy in E. unfold KK.
  apply (Rmult_eq_reg_l (x - y)); [|lra]. rewrite Rmult_plus_distr_l, E. ring.
Qed.
Lemma KK_diag x : lob_node x -> KK x x = INR m * (INR m + 1) * leg m x ^ 2.
Proof.
  intros Hx. unfold KK. rewrite CD_diag by auto. rewrite Hx.
  assert (C : x * dleg m x - dleg (m - 1) x = INR m * leg m x).
  { clear - Hm. destruct m as [|k]; [lia|]. replace (S k - 1)%nat with k by lia. rewrite leg_C, S_INR. ring. }
  replace (dleg m x * (x * leg m x) - dleg (m - 1) x * leg m x) with ((x * dleg m x - dleg (m - 1) x) * leg m x) by ring.
  rewrite C. ring.
Qed.
Lemma leg_nz x : lob_node x -> leg m x <> 0.
Proof.
  intros Hx K. pose proof (KK_diag x Hx) as D. rewrite K in D. unfold KK in D. rewrite K in D.
  assert (P : 0 < sumn m (fun k => (2 * INR k + 1) * leg k x * leg k x)).
  { clear - Hm. induction m as [|k IH]; [lia|]. cbn [sumn]. destruct k as [|k].
    - simpl. rewrite leg_0. lra.
    - specialize (IH ltac:(lia)). pose proof (pos_INR (S k)). pose proof (Rle_0_sqr (leg (S k) x)). unfold Rsqr in *. nra. }
  lra.
Qed.
Lemma KK_lw x : lob_node x -> KK x x * lw x = 2.
Proof.
  intros Hx. rewrite KK_diag by auto. unfold lw. rewrite plus_INR. simpl (INR 1). pose proof (leg_nz x Hx).
  assert (0 < INR m) by (apply lt_0_INR; lia). field. repeat split; lra.
Qed.
Lemma lw_pos x : lob_node x -> 0 < lw x.
Proof.
  intros Hx. pose proof (leg_nz x Hx). assert (0 < INR m) by (apply lt_0_INR; lia). unfold lw. rewrite plus_INR. simpl (INR 1).
  apply Rdiv_lt_0_compat; [apply Rdiv_lt_0_compat; [lra|apply Rmult_lt_0_compat; lra]|]. assert (0 < Rsqr (leg m x)) by (now apply Rsqr_pos_lt). unfold Rsqr in *. lra.
Qed.
Lemma KK_deg y : deg_le m (KK y).
Proof.
  unfold KK. apply (deg_ext _ (fun z => 1 * sumn m (fun k => (2 * INR k + 1) * leg k y * leg k z) + INR m * leg m y * leg m z)); [intro; ring|].
  apply deg_lin; [|apply deg_leg].
  apply deg_sumn. intros i Hi. apply (deg_ext _ (fun z => (2 * INR i + 1) * leg i y * leg i z + 0 * leg i z)); [intro; ring|].
  apply deg_lin; apply (deg_mono i); try lia; apply deg_leg.
Qed.
Lemma KK_int y : is_RInt (KK y) (-1) 1 2.
Proof.
  unfold KK. 
  assert (L : forall k, is_RInt (leg k) (-1) 1 (if (k =? 0)%nat then 2 else 0)).
  { intro k. apply (int_ext (fun z => leg 0 z * leg k z)); [intro; rewrite leg_0; ring|]. eapply int_eq; [apply I2_is|]. rewrite I2_val.
    destruct k; simpl; [field|reflexivity]. }
  assert (S : forall n, is_RInt (fun z => sumn n (fun k => (2 * INR k + 1) * leg k y * leg k z)) (-1) 1 (if (n =? 0)%nat then 0 else 2)).
  { induction n as [|n IH]; [cbn [sumn Nat.eqb]; eapply int_eq; [apply int_const|ring]|]. cbn [sumn]. eapply int_eq; [apply int_plus; [exact IH|apply int_scal; apply L]|].
    destruct n; simpl; [rewrite leg_0; ring|ring]. }
  eapply int_eq; [apply int_plus; [apply S|apply int_scal; apply int_scal; apply L]|]. cbv beta.
  destruct (Nat.eqb_spec m 0); [lia|]. ring.
Qed.

Variable ns : list R.
Hypothesis Hnd : NoDup ns.
Hypothesis Hlen : length ns = (m + 1)%nat.
Hypothesis Hnode : forall x, In x ns -> lob_node x.
Definition lob_rule : list (R * R) := map (fun x => (x, lw x)) ns.
Lemma qsum_lob v : qsum lob_rule v = rsum (map (fun y => lw y * v y) ns).
Proof. unfold qsum, lob_rule. rewrite map_map. reflexivity. Qed.
Definition interp (v : R -> R) (l : list R) (x : R) : R := rsum (map (fun y => v y * (lw y / 2) * KK y x) l).
Lemma interp_out v l x : (forall y, In y l -> lob_node y) -> lob_node x -> ~ In x l -> interp v l x = 0.
Proof.
  intros Hl Hx Hn. induction l as [|y l IH]; [reflexivity|]. unfold interp in *. cbn [map rsum fold_right].
  unfold rsum in IH. rewrite IH; [|intros; apply Hl; right; auto|intro; apply Hn; right; auto].
  rewrite KK_off; [ring|apply Hl; left; auto|auto|intro; apply Hn; left; auto].
Qed.
Lemma interp_in v l x : NoDup l -> (forall y, In y l -> lob_node y) -> In x l -> interp v l x = v x.
Proof.
  intros Hd Hl Hx. induction Hd as [|y l Hy Hd IH]; [destruct Hx|]. unfold interp. cbn [map rsum fold_right]. fold (rsum (map (fun y => v y * (lw y / 2) * KK y x) l)).
  fold (interp v l x). destruct Hx as [->|Hx].
  - rewrite interp_out; [|intros; apply Hl; right; auto|apply Hl; left; auto|auto]. 
    pose proof (KK_lw x (Hl x (or_introl eq_refl))) as E. replace (v x * (lw x / 2) * KK x x) with (v x * (KK x x * lw x) / 2) by field. rewrite E. field.
  - rewrite IH; auto; [|intros; apply Hl; right; auto]. rewrite KK_off; [ring|apply Hl; left; auto|apply Hl; right; auto|intros ->; contradiction].
Qed.
Lemma interp_deg v l : deg_le m (interp v l).
Proof.
  induction l as [|y l IH]; [apply (deg_ext _ (fun _ => 0)); [reflexivity|apply deg_const]|]. unfold interp. cbn [map rsum fold_right].
  apply (deg_ext _ (fun x => v y * (lw y / 2) * KK y x + 1 * interp v l x)); [intro; unfold interp, rsum; ring|]. apply deg_lin; [apply KK_deg|auto].
Qed.
Lemma interp_int v l : is_RInt (interp v l) (-1) 1 (rsum (map (fun y => lw y * v y) l)).
Proof.
  induction l as [|y l IH]; [apply (int_ext (fun _ => 0)); [reflexivity|]; eapply int_eq; [apply int_const|simpl; ring]|]. unfold interp. cbn [map rsum fold_right].
  eapply int_eq; [apply int_plus; [apply int_scal; apply KK_int|exact IH]|]. unfold rsum. field.
Qed.
Lemma interp_exact v : deg_le m v -> forall x, interp v ns x = v x.
Proof.
  intros Hv x. assert (D : deg_le m (fun z => 1 * interp v ns z + (-1) * v z)) by (apply deg_lin; [apply interp_deg|auto]).
  destruct D as (l & L & E). assert (Z : ph l x = 0).
  { apply (ph_roots ns Hnd l); [lia|]. intros r Hr. rewrite <- E. rewrite interp_in by auto. ring. }
  rewrite <- E in Z. lra.
Qed.
Lemma lob_low v : deg_le m v -> leg_exact lob_rule v.
Proof.
  intros Hv. unfold leg_exact. rewrite qsum_lob. eapply int_ext; [|apply interp_int]. intro; now apply interp_exact.
Qed.
(* orthogonality to low powers *)
Lemma leg_x_rec j z : z * leg (S j) z = (INR j + 2) / (2 * INR j + 3) * leg (S (S j)) z + (INR j + 1) / (2 * INR j + 3) * leg j z.
Proof. rewrite leg_SS. pose proof (pos_INR j). field. split; lra. Qed.
Lemma x_orth k : forall j, (k < j)%nat -> is_RInt (fun z => z ^ k * leg j z) (-1) 1 0.
Proof.
  induction k as [|k IH]; intros j Hj.
  - apply (int_ext (fun z => leg 0 z * leg j z)); [intro; rewrite leg_0; simpl; ring|]. eapply int_eq; [apply I2_is|]. rewrite I2_val. destruct (Nat.eqb_spec 0 j); [lia|reflexivity].
  - destruct j as [|j]; [lia|].
    apply (int_ext (fun z => (INR j + 2) / (2 * INR j + 3) * (z ^ k * leg (S (S j)) z) + (INR j + 1) / (2 * INR j + 3) * (z ^ k * leg j z))).
    + intro z. pose proof (leg_x_rec j z) as E. transitivity (z ^ k * (z * leg (S j) z)); [rewrite E|cbn [pow]]; ring.
    + eapply int_eq; [apply int_plus; apply int_scal; apply IH; lia|]. ring.
Qed.
(* (x^2-1) P_m' is proportional to P_{m+1} - P_{m-1}; it vanishes at the nodes *)
Lemma lob_diff x : lob_node x -> leg (m + 1) x = leg (m - 1) x.
Proof.
  intros Hx. unfold lob_node in Hx. revert Hx. clear - Hm. destruct m as [|k]; [lia|]. replace (S k - 1)%nat with k by lia. replace (S k + 1)%nat with (S (S k)) by lia.
  intros Hx. rewrite leg_SS, Hx. pose proof (pos_INR k). field. lra.
Qed.
Lemma lob_W k : (k + 2 <= m)%nat -> leg_exact lob_rule (fun z => z ^ k * leg (m + 1) z + (-1) * (z ^ k * leg (m - 1) z)).
Proof.
  intros Hk. unfold leg_exact. replace (qsum lob_rule (fun z => z ^ k * leg (m + 1) z + -1 * (z ^ k * leg (m - 1) z))) with (0 + -1 * 0).
  - apply int_plus; [apply x_orth; lia|apply int_scal; apply x_orth; lia].
  - rewrite qsum_lob. revert Hnode. clear - Hm. induction ns as [|y l IH]; intro H; [simpl; ring|]. cbn [map rsum fold_right].
    unfold rsum in IH. rewrite <- IH by (intros; apply H; right; auto). rewrite lob_diff by (apply H; left; auto). ring.
Qed.
Lemma lob_xleg k : forall j, (j <= m + 1)%nat -> (k + j <= 2 * m - 1)%nat -> leg_exact lob_rule (fun z => z ^ k * leg j z).
Proof.
  assert (TOP : forall k, (k + 2 <= m)%nat -> leg_exact lob_rule (fun z => z ^ k * leg (m - 1) z) -> leg_exact lob_rule (fun z => z ^ k * leg (m + 1) z)).
  { intros q Hq H. apply (lexact_ext _ (fun z => 1 * (z ^ q * leg (m + 1) z + (-1) * (z ^ q * leg (m - 1) z)) + 1 * (z ^ q * leg (m - 1) z))); [intro; ring|].
    apply lexact_lin; [now apply lob_W|auto]. }
  induction k as [|k IH]; intros j Hj Hd.
  - assert (LOW : forall i, (i <= m)%nat -> leg_exact lob_rule (fun z => z ^ 0 * leg i z)).
    { intros i Hi. apply lob_low. apply (deg_ext _ (leg i)); [intro; simpl; ring|]. apply (deg_mono i); auto. apply deg_leg. }
    destruct (Nat.eq_dec j (m + 1)) as [->|]; [apply TOP; [lia|apply LOW; lia]|apply LOW; lia].
  - assert (MID : forall i, (i <= m)%nat -> (S k + i <= 2 * m - 1)%nat -> leg_exact lob_rule (fun z => z ^ S k * leg i z)).
    { intros i Hi Hs. destruct i as [|i].
      - apply (lexact_ext _ (fun z => z ^ k * leg 1 z)); [intro; rewrite leg_0, leg_1; simpl; ring|]. apply IH; lia.
      - apply (lexact_ext _ (fun z => (INR i + 2) / (2 * INR i + 3) * (z ^ k * leg (S (S i)) z) + (INR i + 1) / (2 * INR i + 3) * (z ^ k * leg i z))).
        + intro z. pose proof (leg_x_rec i z) as E. transitivity (z ^ k * (z * leg (S i) z)); [rewrite E|cbn [pow]]; ring.
        + apply lexact_lin; apply IH; lia. }
    destruct (Nat.eq_dec j (m + 1)) as [->|]; [apply TOP; [lia|apply MID; lia]|apply MID; lia].
Qed.
Lemma lob_exact_to : exact_to lob_rule (2 * m - 1).
Proof.
  intros k Hk. apply (lexact_ext _ (fun z => z ^ k * leg 0 z)); [intro; rewrite leg_0; ring|]. apply lob_xleg; lia.
Qed.
End Lobatto.

(** the rule as functions.py builds it *)
Lemma map_result_length {A B} (f : A -> result B) l : forall r, map_result f l = Ok r -> length r = length l.
Proof.
  induction l as [|x l IH]; intros r H; cbn in H; [now injection H as <-|].
  destruct (f x); [|discriminate]. destruct (map_result f l) eqn:E; [|discriminate]. injection H as <-. simpl. f_equal. now apply IH.
Qed.
Lemma leg_sq1 m : leg m 1 ^ 2 = 1 /\ leg m (-1) ^ 2 = 1.
Proof.
  rewrite leg_1_val, leg_m1_val. split; [ring|]. rewrite <- pow_mult, Nat.mul_comm, pow_1_even. reflexivity.
Qed.
Lemma lob_ends m : (1 <= m)%nat -> lob_node m 1 /\ lob_node m (-1).
Proof.
  intro Hm. unfold lob_node. destruct m as [|k]; [lia|]. replace (S k - 1)%nat with k by lia. rewrite !leg_1_val, !leg_m1_val. cbn [pow]. split; ring.
Qed.
Lemma lob_inner m x : (1 <= m)%nat -> x ^ 2 <> 1 -> dleg m x = 0 -> lob_node m x.
Proof.
  intros Hm Hx Z. pose proof (legendre_deriv_ok m x Hm Hx) as E. rewrite Z in E. unfold eval_legendre_deriv in E.
  assert (0 < INR m) by (apply lt_0_INR; lia). unfold lob_node.
  assert (K : (x * leg m x - leg (m - 1) x) = 0).
  { apply (Rmult_eq_reg_r (/ ((x ^ 2 - 1) / INR m))); [rewrite Rmult_0_l; exact E|]. apply Rinv_neq_0_compat. unfold Rdiv. apply Rmult_integral_contrapositive. split; [lra|apply Rinv_neq_0_compat; lra]. }
  lra.
Qed.
Definition good_roots (n : nat) (inner : list R) : Prop :=
  NoDup inner /\ (forall x, In x inner -> -1 < x < 1 /\ dleg (n - 1) x = 0).
Lemma lobatto_shape lg fuel n inner q : (3 <= n)%nat -> lobatto_roots lg fuel n = Ok inner -> quadrature_lobatto lg fuel n = Ok q ->
  length inner = (n - 2)%nat /\ q = lob_rule (n - 1) (-1 :: inner ++ 1 :: nil).
Proof.
  intros Hn Hi Hq. split.
  - apply map_result_length in Hi. now rewrite seq_length in Hi.
  - unfold quadrature_lobatto in Hq. rewrite Hi in Hq. cbn [bind] in Hq. destruct n as [|[|n]]; try lia.
    destruct (Nat.ltb_spec 2 (S (S n))); [|lia]. injection Hq as <-. unfold lob_rule. cbn [map]. rewrite map_app. cbn [map]. unfold lw.
    replace (S (S n) - 1 + 1)%nat with (S (S n)) by lia. destruct (leg_sq1 (S (S n) - 1)) as [E1 E2]. rewrite E1, E2.
    rewrite !(Rdiv_1 (2 / (INR (S (S n)) * INR (S (S n) - 1)))). reflexivity.
Qed.
Lemma lobatto_exact lg fuel n inner q : (3 <= n)%nat -> lobatto_roots lg fuel n = Ok inner -> quadrature_lobatto lg fuel n = Ok q -> good_roots n inner ->
  length q = n /\ exact_to q (2 * n - 3) /\ (forall x w, In (x, w) q -> 0 < w /\ -1 <= x <= 1) /\ rsum (map snd q) = 2.
Proof.
  intros Hn Hi Hq [Hd Hg]. destruct (lobatto_shape _ _ _ _ _ Hn Hi Hq) as [L ->].
  assert (ND : NoDup (-1 :: inner ++ 1 :: nil)).
  { constructor.
    - rewrite in_app_iff. intros [K|[K|[]]]; [apply Hg in K; lra|lra].
    - apply (Permutation.Permutation_NoDup (l := 1 :: inner)); [apply Permutation.Permutation_cons_append|]. constructor; auto. intro K. apply Hg in K. lra. }
  assert (LN : length (-1 :: inner ++ 1 :: nil) = (n - 1 + 1)%nat) by (cbn [length]; rewrite app_length; cbn [length]; lia).
  assert (NO : forall x, In x (-1 :: inner ++ 1 :: nil) -> lob_node (n - 1) x).
  { intros x [<-|K]; [apply lob_ends; lia|]. apply in_app_iff in K. destruct K as [K|[<-|[]]]; [|apply lob_ends; lia].
    apply Hg in K. apply lob_inner; [lia| |tauto]. nra. }
  pose proof (lob_exact_to (n - 1) ltac:(lia) _ ND LN NO) as EX.
  split; [unfold lob_rule; rewrite map_length, LN; lia|]. split; [intros k Hk; apply EX; lia|]. split.
  - intros x w K. unfold lob_rule in K. apply in_map_iff in K. destruct K as (y & [= <- <-] & K). split; [apply lw_pos; [lia|now apply NO]|].
    destruct K as [<-|K]; [lra|]. apply in_app_iff in K. destruct K as [K|[<-|[]]]; [apply Hg in K; lra|lra].
  - pose proof (EX 0%nat ltac:(lia)) as E0. unfold leg_exact in E0.
    assert (Q : qsum (lob_rule (n - 1) (-1 :: inner ++ 1 :: nil)) (fun z => z ^ 0) = rsum (map snd (lob_rule (n - 1) (-1 :: inner ++ 1 :: nil)))).
    { unfold qsum. f_equal. apply map_ext. intro; simpl; ring. }
    rewrite Q in E0. apply (int_uniq2 _ _ _ _ _ E0). apply (int_ext (fun _ => 1)); [intro; simpl; ring|]. eapply int_eq; [apply int_const|ring].
Qed.
