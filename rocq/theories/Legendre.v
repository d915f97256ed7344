(** Legendre polynomials by the three-term (Bonnet) recurrence, and the integrals the method needs.
    This is mathematics only; scipy's eval_legendre is assumed to compute [leg]. *)
From Verif Require Export Calc.
Open Scope R_scope.

Fixpoint legp (n : nat) (z : R) : R * R :=
  match n with
  | O => (1, z)
  | S m => let '(p, q) := legp m z in
           (q, ((2 * INR m + 3) * z * q - (INR m + 1) * p) / (INR m + 2))
  end.
(** P_n(z) *)
Definition leg (n : nat) (z : R) : R := fst (legp n z).

Fixpoint dlegp (n : nat) (z : R) : R * R :=
  match n with
  | O => (0, 1)
  | S m => let '(p, q) := dlegp m z in (q, p + (2 * INR m + 3) * leg (S m) z)
  end.
Definition dleg (n : nat) (z : R) : R := fst (dlegp n z).

Lemma leg_0 z : leg 0 z = 1. Proof. reflexivity. Qed.
Lemma leg_1 z : leg 1 z = z. Proof. reflexivity. Qed.
Lemma legp_snd n z : snd (legp n z) = leg (S n) z.
Proof. unfold leg. cbn [legp]. destruct (legp n z). reflexivity. Qed.
Lemma leg_SS n z : leg (S (S n)) z = ((2 * INR n + 3) * z * leg (S n) z - (INR n + 1) * leg n z) / (INR n + 2).
Proof. rewrite <- (legp_snd (S n)). cbn [legp]. rewrite <- legp_snd. unfold leg. destruct (legp n z). reflexivity. Qed.
Lemma dleg_0 z : dleg 0 z = 0. Proof. reflexivity. Qed.
Lemma dleg_1 z : dleg 1 z = 1. Proof. reflexivity. Qed.
Lemma dlegp_snd n z : snd (dlegp n z) = dleg (S n) z.
Proof. unfold dleg. cbn [dlegp]. destruct (dlegp n z). reflexivity. Qed.
Lemma dleg_SS n z : dleg (S (S n)) z = dleg n z + (2 * INR n + 3) * leg (S n) z.
Proof. rewrite <- (dlegp_snd (S n)). cbn [dlegp]. unfold dleg. destruct (dlegp n z). reflexivity. Qed.

Global Opaque leg dleg.

Lemma INR_ge0 n : 0 <= INR n. Proof. apply pos_INR. Qed.

Lemma leg_facts n :
  (forall z, is_derive (leg n) z (dleg n z)) /\ (forall z, is_derive (leg (S n)) z (dleg (S n) z)) /\
  (forall z, z * dleg (S n) z - dleg n z = (INR n + 1) * leg (S n) z) /\
  (forall z, dleg (S n) z = z * dleg n z + (INR n + 1) * leg n z).
Proof.
  induction n as [|n (D0 & D1 & C & B)].
  - refine (conj _ (conj _ (conj _ _))); intro z.
    + apply (is_derive_ext (fun _ => 1)); [intro; now rewrite leg_0|]. rewrite dleg_0. auto_derive; auto.
    + apply (is_derive_ext (fun z => z)); [intro; now rewrite leg_1|]. rewrite dleg_1. auto_derive; auto.
    + rewrite dleg_0, dleg_1, leg_1. simpl. ring.
    + rewrite dleg_0, dleg_1, leg_0. simpl. ring.
  - pose proof (INR_ge0 n) as Hn.
    assert (C' : forall z, z * dleg (S (S n)) z - dleg (S n) z = (INR (S n) + 1) * leg (S (S n)) z).
    { intro z. rewrite dleg_SS, leg_SS, S_INR. specialize (B z). rewrite B. field. lra. }
    refine (conj _ (conj _ (conj _ _))); intro z; auto.
    + apply (is_derive_ext (fun z => ((2 * INR n + 3) * z * leg (S n) z - (INR n + 1) * leg n z) / (INR n + 2))).
      { intro u. now rewrite leg_SS. }
      specialize (C z).
      replace (dleg (S (S n)) z) with
        (((2 * INR n + 3) * (leg (S n) z + z * dleg (S n) z) - (INR n + 1) * dleg n z) / (INR n + 2)).
      2:{ rewrite dleg_SS. replace (dleg n z) with (z * dleg (S n) z - (INR n + 1) * leg (S n) z) by (rewrite <- C; ring). field. lra. }
      eapply dd_eq.
      * apply dd_divc. apply dd_minus; [|apply dd_scal, D0]. apply (dd_mult (fun z => (2 * INR n + 3) * z)); [|apply D1]. apply dd_scal, dd_id.
      * field. lra.
    + rewrite dleg_SS, S_INR. specialize (C z). lra.
Qed.
Lemma leg_derive n z : is_derive (leg n) z (dleg n z).
Proof. exact (proj1 (leg_facts n) z). Qed.
Lemma leg_C n z : z * dleg (S n) z - dleg n z = (INR n + 1) * leg (S n) z.
Proof. apply leg_facts. Qed.
Lemma leg_B n z : dleg (S n) z = z * dleg n z + (INR n + 1) * leg n z.
Proof. apply leg_facts. Qed.
(** (z^2 - 1) P_{n+1}' = (n+1) (z P_{n+1} - P_n) *)
Lemma leg_D n z : (z * z - 1) * dleg (S n) z = (INR n + 1) * (z * leg (S n) z - leg n z).
Proof.
  pose proof (leg_C n z) as C. pose proof (leg_B n z) as B.
  transitivity (z * (z * dleg (S n) z) - dleg (S n) z); [ring|].
  replace (z * dleg (S n) z) with (dleg n z + (INR n + 1) * leg (S n) z) by lra. rewrite B. ring.
Qed.

Lemma leg_at_1 n : leg n 1 = 1 /\ leg (S n) 1 = 1.
Proof.
  induction n as [|n [H0 H1]]; [split; [apply leg_0|apply leg_1]|]. split; auto. rewrite leg_SS, H0, H1.
  pose proof (INR_ge0 n). field. lra.
Qed.
Lemma leg_1_val n : leg n 1 = 1. Proof. apply leg_at_1. Qed.
Lemma leg_at_m1 n : leg n (-1) = (-1) ^ n /\ leg (S n) (-1) = (-1) ^ (S n).
Proof.
  induction n as [|n [H0 H1]]; [split; [rewrite leg_0; reflexivity|rewrite leg_1; simpl; ring]|]. split; auto.
  rewrite leg_SS, H0, H1. pose proof (INR_ge0 n). simpl. field. lra.
Qed.
Lemma leg_m1_val n : leg n (-1) = (-1) ^ n. Proof. apply leg_at_m1. Qed.

(** second derivative through the Legendre equation *)
Lemma dleg_ex n z : ex_derive (dleg n) z.
Proof.
  assert (H : forall n, (forall z, ex_derive (dleg n) z) /\ (forall z, ex_derive (dleg (S n)) z)).
  { clear. induction n as [|n [H0 H1]].
    - split; intro z; [apply (ex_derive_ext (fun _ => 0)); [intro; now rewrite dleg_0|]|apply (ex_derive_ext (fun _ => 1)); [intro; now rewrite dleg_1|]]; apply ex_derive_const.
    - split; auto. intro z. apply (ex_derive_ext (fun z => dleg n z + (2 * INR n + 3) * leg (S n) z)).
      { intro; now rewrite dleg_SS. }
      apply (ex_derive_plus (dleg n) (fun z => (2 * INR n + 3) * leg (S n) z)); auto.
      apply ex_derive_scal. exists (dleg (S n) z). apply leg_derive. }
  exact (proj1 (H n) z).
Qed.
Definition ddleg n z := Derive (dleg n) z.
Lemma dleg_derive n z : is_derive (dleg n) z (ddleg n z).
Proof. apply Derive_correct, dleg_ex. Qed.

Lemma leg_cont n z : continuous (leg n) z.
Proof. apply (cont_of_derive _ (dleg n)). apply leg_derive. Qed.
Lemma dleg_cont n z : continuous (dleg n) z.
Proof. apply (cont_of_derive _ (ddleg n)). apply dleg_derive. Qed.

Lemma legendre_eq n z : (1 - z * z) * ddleg n z - 2 * z * dleg n z + INR n * (INR n + 1) * leg n z = 0.
Proof.
  destruct n as [|n].
  - unfold ddleg. rewrite (Derive_ext _ (fun _ => 0)) by (intro; apply dleg_0). rewrite Derive_const, dleg_0. simpl. ring.
  - assert (E : is_derive (fun z => (z * z - 1) * dleg (S n) z) z ((INR n + 1) * (leg (S n) z + z * dleg (S n) z - dleg n z))).
    { apply (is_derive_ext (fun z => (INR n + 1) * (z * leg (S n) z - leg n z))).
      { intro u. now rewrite leg_D. }
      apply (dd_scal (fun z => z * leg (S n) z - leg n z)). eapply dd_eq; [apply dd_minus; [apply (dd_mult (fun z => z)); [apply dd_id|]|]; apply leg_derive|]. cbv beta. ring. }
    assert (E2 : is_derive (fun z => (z * z - 1) * dleg (S n) z) z (2 * z * dleg (S n) z + (z * z - 1) * ddleg (S n) z)).
    { eapply dd_eq; [apply (dd_mult (fun z => z * z - 1)); [apply dd_minus; [apply (dd_mult (fun z => z)); apply dd_id|apply dd_const]|apply dleg_derive]|]. cbv beta. ring. }
    assert (X : (INR n + 1) * (leg (S n) z + z * dleg (S n) z - dleg n z) = 2 * z * dleg (S n) z + (z * z - 1) * ddleg (S n) z).
    { rewrite <- (is_derive_unique _ _ _ E). now apply is_derive_unique. }
    pose proof (leg_C n z) as C. rewrite S_INR.
    replace (leg (S n) z + z * dleg (S n) z - dleg n z) with ((INR n + 2) * leg (S n) z) in X by lra. lra.
Qed.

(* ------------------------------------------------------------------ integrals on [-1,1] *)
Global Hint Resolve leg_cont dleg_cont : cont.

Definition I2 (i j : nat) : R := RInt (fun z => leg i z * leg j z) (-1) 1.
Lemma I2_is i j : is_RInt (fun z => leg i z * leg j z) (-1) 1 (I2 i j).
Proof. apply int_val. auto with cont. Qed.

Lemma orth i j : i <> j -> I2 i j = 0.
Proof.
  intro Hij.
  pose (W := fun z => (1 - z * z) * (dleg i z * leg j z - leg i z * dleg j z)).
  assert (HW : forall z, is_derive W z ((INR j * (INR j + 1) - INR i * (INR i + 1)) * (leg i z * leg j z))).
  { intro z. unfold W. eapply dd_eq.
    - apply (dd_mult (fun z => 1 - z * z)); [apply dd_minus; [apply dd_const|apply (dd_mult (fun z => z)); apply dd_id]|].
      apply dd_minus; [apply (dd_mult (dleg i)); [apply dleg_derive|apply leg_derive]|apply (dd_mult (leg i)); [apply leg_derive|apply dleg_derive]].
    - cbv beta. pose proof (legendre_eq i z). pose proof (legendre_eq j z).
      assert (E1 : (1 - z * z) * ddleg i z = 2 * z * dleg i z - INR i * (INR i + 1) * leg i z) by lra.
      assert (E2 : (1 - z * z) * ddleg j z = 2 * z * dleg j z - INR j * (INR j + 1) * leg j z) by lra.
      transitivity (- (2 * z) * (dleg i z * leg j z - leg i z * dleg j z) + ((1 - z * z) * ddleg i z) * leg j z - leg i z * ((1 - z * z) * ddleg j z)); [ring|].
      rewrite E1, E2. ring. }
  assert (K : is_RInt (fun z => (INR j * (INR j + 1) - INR i * (INR i + 1)) * (leg i z * leg j z)) (-1) 1 (W 1 - W (-1))).
  { apply int_ftc; auto. intros. auto with cont. }
  assert (W 1 - W (-1) = 0) as W0 by (unfold W; ring).
  rewrite W0 in K.
  pose proof (int_uniq2 _ _ _ _ _ (int_scal _ (INR j * (INR j + 1) - INR i * (INR i + 1)) _ _ _ (I2_is i j)) K) as K'. clear K; rename K' into K.
  apply Rmult_integral in K as [K|K]; auto. exfalso.
  assert (INR i <> INR j) by (intro C; apply Hij, INR_eq; auto).
  pose proof (INR_ge0 i). pose proof (INR_ge0 j).
  assert ((INR j - INR i) * (INR j + INR i + 1) = 0) as Z by lra.
  apply Rmult_integral in Z as [Z|Z]; lra.
Qed.

Definition D1 (i j : nat) : R := RInt (fun z => dleg i z * leg j z) (-1) 1.
Lemma D1_is i j : is_RInt (fun z => dleg i z * leg j z) (-1) 1 (D1 i j).
Proof. apply int_val. auto with cont. Qed.
Lemma D1_0 j : D1 0 j = 0.
Proof. unfold D1. apply int_uniq. apply (int_ext (fun _ => 0)); [intros; rewrite dleg_0; ring|]. eapply int_eq; [apply int_const|ring]. Qed.
Lemma D1_1 j : D1 1 j = I2 0 j.
Proof. unfold D1 at 1. apply int_uniq. apply (int_ext (fun z => leg 0 z * leg j z)); [|apply I2_is]. intros. rewrite dleg_1, leg_0. ring. Qed.
Lemma D1_SS i j : D1 (S (S i)) j = D1 i j + (2 * INR i + 3) * I2 (S i) j.
Proof.
  unfold D1 at 1. apply int_uniq. apply (int_ext (fun z => dleg i z * leg j z + (2 * INR i + 3) * (leg (S i) z * leg j z))).
  - intro. rewrite dleg_SS. ring.
  - apply int_plus; [apply D1_is|apply int_scal, I2_is].
Qed.
Lemma D1_low i j : (i <= j)%nat -> D1 i j = 0.
Proof.
  revert j. assert (H : forall i, (forall j, (i <= j)%nat -> D1 i j = 0) /\ (forall j, (S i <= j)%nat -> D1 (S i) j = 0)).
  { clear i. induction i as [|i [H0 H1]].
    - split; intros j Hj; [apply D1_0|]. rewrite D1_1, orth; auto. lia.
    - split; auto. intros j Hj. rewrite D1_SS, H0, orth by lia. ring. }
  exact (proj1 (H i)).
Qed.
Lemma norm2 n : I2 n n = 2 / (2 * INR n + 1).
Proof.
  destruct n as [|n].
  - unfold I2. apply int_uniq. apply (int_ext (fun _ => 1)); [intros; rewrite leg_0; ring|]. eapply int_eq; [apply int_const|simpl; field].
  - pose proof (INR_ge0 n) as Hn.
    (* int z P P' = 1 - I/2, and (n+1) P = z P' - P_n' *)
    pose (F := fun z => z * (leg (S n) z * leg (S n) z)).
    assert (HF : forall z, is_derive F z (leg (S n) z * leg (S n) z + 2 * (z * dleg (S n) z * leg (S n) z))).
    { intro z. unfold F. eapply dd_eq; [apply (dd_mult (fun z => z)); [apply dd_id|apply (dd_mult (leg (S n))); apply leg_derive]|]. cbv beta. ring. }
    assert (K : is_RInt (fun z => leg (S n) z * leg (S n) z + 2 * (z * dleg (S n) z * leg (S n) z)) (-1) 1 (F 1 - F (-1))).
    { apply int_ftc; auto. intros. auto 8 with cont. }
    assert (F1 : F 1 - F (-1) = 2).
    { unfold F. rewrite leg_1_val, leg_m1_val. rewrite <- Rpow_mult_distr. replace (-1 * -1) with 1 by ring. rewrite pow1. ring. }
    rewrite F1 in K.
    assert (K2 : is_RInt (fun z => leg (S n) z * leg (S n) z + 2 * (z * dleg (S n) z * leg (S n) z)) (-1) 1
                  ((2 * INR n + 3) * I2 (S n) (S n) + 2 * D1 n (S n))).
    { apply (int_ext (fun z => (2 * INR n + 3) * (leg (S n) z * leg (S n) z) + 2 * (dleg n z * leg (S n) z))).
      - intro z. pose proof (leg_C n z) as C. replace (z * dleg (S n) z) with (dleg n z + (INR n + 1) * leg (S n) z) by lra. ring.
      - apply int_plus; apply int_scal; [apply I2_is|apply D1_is]. }
    pose proof (int_uniq2 _ _ _ _ _ K K2) as K3. rewrite D1_low in K3 by lia. rewrite S_INR.
    apply (Rmult_eq_reg_l (2 * INR n + 3)); [|lra]. transitivity 2; [lra|]. field. lra.
Qed.
Lemma I2_val i j : I2 i j = if (i =? j)%nat then 2 / (2 * INR i + 1) else 0.
Proof. destruct (Nat.eqb_spec i j) as [->|H]; [apply norm2|now apply orth]. Qed.

(** int P_i' P_j = 2 if i > j and i + j odd, else 0 *)
Lemma D1_val i j : D1 i j = if (j <? i)%nat && Nat.odd (i + j) then 2 else 0.
Proof.
  revert j. assert (H : forall i, (forall j, D1 i j = if (j <? i)%nat && Nat.odd (i + j) then 2 else 0) /\
     (forall j, D1 (S i) j = if (j <? S i)%nat && Nat.odd (S i + j) then 2 else 0)).
  { clear i. induction i as [|i [H0 H1]].
    - split; intro j; [now rewrite D1_0|]. rewrite D1_1, I2_val. destruct j as [|j].
      + simpl. field.
      + cbn [Nat.eqb]. destruct (Nat.ltb_spec (S j) 1); [lia|]. reflexivity.
    - split; auto. intro j. rewrite D1_SS, H0, I2_val.
      replace (Nat.odd (S (S i) + j)) with (Nat.odd (i + j)) by (cbn; reflexivity).
      destruct (Nat.ltb_spec j i); destruct (Nat.ltb_spec j (S (S i))); try lia; destruct (Nat.eqb_spec (S i) j); try lia; cbn [andb].
      + ring.
      + subst j. replace (i + S i)%nat with (S (2 * i)) by lia. rewrite Nat.odd_succ, Nat.even_mul. cbn [Nat.even orb].
        rewrite S_INR. pose proof (INR_ge0 i). field. lra.
      + assert (j = i) as -> by lia. replace (i + i)%nat with (2 * i)%nat by lia. rewrite Nat.odd_mul. cbn [Nat.odd Nat.even negb andb]. ring.
      + ring. }
  exact (proj1 (H i)).
Qed.
(** int z P_i' P_j = i I_ij + [int P_{i-1}' P_j] *)
Lemma E1_val i j : RInt (fun z => z * dleg i z * leg j z) (-1) 1 =
  if (i =? j)%nat then 2 * INR i / (2 * INR i + 1) else if (j <? i)%nat && Nat.even (i + j) then 2 else 0.
Proof.
  destruct i as [|i].
  - apply int_uniq. apply (int_ext (fun _ => 0)); [intros; rewrite dleg_0; ring|]. eapply int_eq; [apply int_const|].
    destruct j; cbn [Nat.eqb Nat.ltb Nat.leb andb]; simpl; field.
  - apply int_uniq. apply (int_ext (fun z => (INR i + 1) * (leg (S i) z * leg j z) + dleg i z * leg j z)).
    + intro z. pose proof (leg_C i z). replace (z * dleg (S i) z) with (dleg i z + (INR i + 1) * leg (S i) z) by lra. ring.
    + eapply int_eq; [apply int_plus; [apply int_scal, I2_is|apply D1_is]|].
      rewrite I2_val, D1_val. pose proof (INR_ge0 i).
      cbn [plus Nat.add]. rewrite Nat.even_succ.
      destruct (Nat.eqb_spec (S i) j).
      * destruct (Nat.ltb_spec j i); [lia|]. cbn [andb]. rewrite S_INR. field. lra.
      * destruct (Nat.ltb_spec j i); destruct (Nat.ltb_spec j (S i)); try lia; cbn [andb].
        1: destruct (Nat.odd (i + j)); ring. 2: ring.
        assert (j = i) as -> by lia. replace (i + i)%nat with (2 * i)%nat by lia. rewrite Nat.odd_mul. cbn [Nat.odd Nat.even negb andb]. ring.
Qed.
