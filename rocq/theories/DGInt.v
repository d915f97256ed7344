(** Integrals of the slab basis: orthonormality, stiffness and mesh-motion matrices, cell contents. *)
From Verif Require Import Py PyLemmas Legendre Cheb DGModel DGSpec DGProofs.

Lemma int_ref (f : R -> R) a b l : a < b -> is_RInt f (-1) 1 l ->
  is_RInt (fun x => f (refz x a b)) a b ((b - a) / 2 * l).
Proof.
  intros Hab H. apply (int_ext (fun x => (b - a) / 2 * (2 / (b - a) * f (2 / (b - a) * x + - (a + b) / (b - a))))).
  - intro x. unfold refz. replace ((2 * x - a - b) / (b - a)) with (2 / (b - a) * x + - (a + b) / (b - a)) by (field; lra). field. lra.
  - apply int_scal. apply (int_affine f). eapply is_RInt_ext; [|].
    2:{ replace (2 / (b - a) * a + - (a + b) / (b - a)) with (-1) by (field; lra).
        replace (2 / (b - a) * b + - (a + b) / (b - a)) with 1 by (field; lra). exact H. }
    auto.
Qed.

Lemma sq2 i h : 0 < h -> sqrt ((2 * INR i + 1) / h) * sqrt ((2 * INR i + 1) / h) = (2 * INR i + 1) / h.
Proof.
  intros. apply sqrt_sqrt. pose proof (INR2_pos i). apply Rlt_le, Rdiv_lt_0_compat; auto.
Qed.
Lemma sqq i j h : 0 < h -> sqrt ((2 * INR i + 1) / h) * sqrt ((2 * INR j + 1) / h) = sqrt (2 * INR i + 1) * sqrt (2 * INR j + 1) / h.
Proof.
  intros. rewrite !sqrt_quot by auto. assert (0 < sqrt h) by (apply sqrt_lt_R0; auto).
  rewrite <- (sqrt_sqrt h) at 3 by lra. field. lra.
Qed.

Lemma orthonormal i j a b : a < b ->
  is_RInt (fun x => basis Slab i x a b * basis Slab j x a b) a b (if (i =? j)%nat then 1 else 0).
Proof.
  intros H. apply (int_ext (fun x => (sqrt ((2 * INR i + 1) / (b - a)) * sqrt ((2 * INR j + 1) / (b - a))) * (leg i (refz x a b) * leg j (refz x a b)))).
  { intro x. unfold basis. ring. }
  eapply int_eq; [apply int_scal; apply (int_ref (fun z => leg i z * leg j z)); [auto|apply I2_is]|].
  rewrite I2_val. destruct (Nat.eqb_spec i j) as [->|]; [|ring].
  rewrite sq2 by lra. pose proof (INR2_pos j). field. split; lra.
Qed.

Lemma refz_derive x a b : a < b -> is_derive (fun y => refz y a b) x (2 / (b - a)).
Proof.
  intros. unfold refz. eapply dd_eq; [apply dd_divc; apply dd_minus; [apply dd_minus; [apply dd_scal, dd_id|apply dd_const]|apply dd_const]|].
  field. lra.
Qed.
Lemma basis_dx i x a b : a < b ->
  is_derive (fun y => basis Slab i y a b) x (sqrt ((2 * INR i + 1) / (b - a)) * (2 / (b - a) * dleg i (refz x a b))).
Proof.
  intros. unfold basis. apply dd_scal. apply (dd_comp (leg i) (fun y => refz y a b)); [apply leg_derive|now apply refz_derive].
Qed.
Lemma odd_of_mod i j : negb ((i + j) mod 2 =? 0)%nat = Nat.odd (i + j).
Proof. rewrite mod2_even, <- Nat.negb_even. reflexivity. Qed.

Lemma stiffness i j a b : a < b ->
  is_RInt (fun x => Derive (fun y => basis Slab i y a b) x * basis Slab j x a b) a b (L_slab a b i j).
Proof.
  intros H. apply (int_ext (fun x => (sqrt ((2 * INR i + 1) / (b - a)) * sqrt ((2 * INR j + 1) / (b - a)) * (2 / (b - a))) * (dleg i (refz x a b) * leg j (refz x a b)))).
  { intro x. replace (Derive (fun y => basis Slab i y a b) x) with (sqrt ((2 * INR i + 1) / (b - a)) * (2 / (b - a) * dleg i (refz x a b))) by (symmetry; apply is_derive_unique, basis_dx; auto). unfold basis. ring. }
  eapply int_eq; [apply int_scal; apply (int_ref (fun z => dleg i z * leg j z)); [auto|apply D1_is]|].
  rewrite sqq, D1_val by lra. unfold L_slab, L_const. rewrite odd_of_mod.
  destruct ((j <? i)%nat && Nat.odd (i + j)); field; lra.
Qed.

Section Moving.
Variables (a b : R -> R) (t a' b' : R).
Hypothesis Ha : is_derive a t a'.
Hypothesis Hb : is_derive b t b'.
Hypothesis Hab : a t < b t.
Let h := b t - a t.

Lemma h_derive : is_derive (fun s => b s - a s) t (b' - a').
Proof. now apply dd_minus. Qed.
Lemma refz_dt x : is_derive (fun s => refz x (a s) (b s)) t (- (a' + b') / h - refz x (a t) (b t) * ((b' - a') / h)).
Proof.
  unfold refz. eapply dd_eq.
  - apply (dd_div (fun s => 2 * x - a s - b s) (fun s => b s - a s)); [apply dd_minus; [apply dd_minus; [apply dd_const|exact Ha]|exact Hb]|apply h_derive|lra].
  - cbv beta. unfold h. field. lra.
Qed.
Lemma coef_dt i : is_derive (fun s => sqrt ((2 * INR i + 1) / (b s - a s))) t (- (1 / 2) * ((b' - a') / h) * sqrt ((2 * INR i + 1) / h)).
Proof.
  pose proof (INR2_pos i) as Hi. assert (0 < h) by (unfold h; lra).
  assert (Hq : 0 < (2 * INR i + 1) / h) by (apply Rdiv_lt_0_compat; auto).
  eapply dd_eq.
  - apply (dd_sqrt (fun s => (2 * INR i + 1) / (b s - a s))); [|exact Hq].
    apply (dd_div (fun _ => 2 * INR i + 1) (fun s => b s - a s)); [apply dd_const|apply h_derive|lra].
  - cbv beta. fold h. pose proof (sqrt_lt_R0 _ Hq) as S0. pose proof (sqrt_sqrt _ (Rlt_le _ _ Hq)) as S1.
    apply (Rmult_eq_reg_r (2 * sqrt ((2 * INR i + 1) / h))); [|lra].
    transitivity ((0 * h - (2 * INR i + 1) * (b' - a')) / (h * h)); [field; split; lra|].
    transitivity (- ((b' - a') / h) * (sqrt ((2 * INR i + 1) / h) * sqrt ((2 * INR i + 1) / h))); [|field; lra].
    rewrite S1. field. lra.
Qed.
Lemma basis_dt i x : is_derive (fun s => basis Slab i x (a s) (b s)) t
  (sqrt ((2 * INR i + 1) / h) * (- (1 / 2) * ((b' - a') / h) * leg i (refz x (a t) (b t))
     + (- (a' + b') / h - refz x (a t) (b t) * ((b' - a') / h)) * dleg i (refz x (a t) (b t)))).
Proof.
  unfold basis. eapply dd_eq.
  - apply (dd_mult (fun s => sqrt ((2 * INR i + 1) / (b s - a s))) (fun s => leg i (refz x (a s) (b s)))); [apply coef_dt|].
    apply (dd_comp (leg i) (fun s => refz x (a s) (b s))); [apply leg_derive|apply refz_dt].
  - cbv beta. fold h. ring.
Qed.
Lemma motion i j :
  is_RInt (fun x => Derive (fun s => basis Slab i x (a s) (b s)) t * basis Slab j x (a t) (b t)) (a t) (b t)
    (G_slab (a t) (b t) a' b' i j).
Proof.
  assert (Hh : 0 < h) by (unfold h; lra).
  pose (k := sqrt ((2 * INR i + 1) / h) * sqrt ((2 * INR j + 1) / h)).
  pose (F := fun z => k * ((- (1 / 2) * ((b' - a') / h)) * (leg i z * leg j z) + (- (a' + b') / h) * (dleg i z * leg j z)
               + (- ((b' - a') / h)) * (z * dleg i z * leg j z))).
  apply (int_ext (fun x => F (refz x (a t) (b t)))).
  { intro x. erewrite (is_derive_unique (fun s : R => basis Slab i x (a s) (b s)) t) by (apply basis_dt). unfold F, k, basis. fold h. ring. }
  eapply int_eq.
  - apply int_ref; [auto|]. unfold F. apply int_scal. apply int_plus; [apply int_plus|].
    + apply int_scal, I2_is.
    + apply int_scal, D1_is.
    + apply int_scal. apply int_val. auto 6 with cont.
  - rewrite E1_val, I2_val, D1_val. fold h. unfold k. rewrite sqq by auto. unfold G_slab. cbv zeta. fold h.
    rewrite mod2_even.
    pose proof (INR2_pos i). pose proof (INR2_pos j).
    destruct (Nat.eqb_spec i j) as [->|Hij].
    + rewrite Nat.ltb_irrefl. cbn [andb]. rewrite sqrt_sqrt by lra. field. lra.
    + destruct (j <? i)%nat; cbn [andb]; [|field; lra].
      rewrite <- Nat.negb_even. destruct (Nat.even (i + j)); cbn [negb]; field; lra.
Qed.
End Moving.

(** content of a cell *)
Lemma basis0 x a b : a < b -> basis Slab 0 x a b = 1 / sqrt (b - a).
Proof. intros. unfold basis. rewrite leg_0, sqrt_quot by lra. simpl. replace (2 * 0 + 1) with 1 by ring. rewrite sqrt_1. ring. Qed.
Lemma int_basis j a b : a < b -> is_RInt (fun x => basis Slab j x a b) a b (if (j =? 0)%nat then sqrt (b - a) else 0).
Proof.
  intros H. assert (0 < sqrt (b - a)) by (apply sqrt_lt_R0; lra).
  apply (int_ext (fun x => sqrt (b - a) * (basis Slab j x a b * basis Slab 0 x a b))).
  - intro x. rewrite basis0 by auto. field. lra.
  - eapply int_eq; [apply int_scal, orthonormal; auto|]. destruct (j =? 0)%nat; ring.
Qed.
Lemma int_sumn n (f : nat -> R -> R) (l : nat -> R) a b : (forall j, (j < n)%nat -> is_RInt (f j) a b (l j)) ->
  is_RInt (fun x => sumn n (fun j => f j x)) a b (sumn n l).
Proof.
  induction n as [|n IH]; intros H; cbn [sumn].
  - eapply int_eq; [apply int_const|ring].
  - apply int_plus; [apply IH; intros; apply H; lia|apply H; lia].
Qed.
Lemma sumn_delta n f k : (k < n)%nat -> sumn n (fun j => f j * (if (j =? k)%nat then 1 else 0)) = f k.
Proof.
  intros. rewrite (sumn_single n _ k); auto.
  - rewrite Nat.eqb_refl. ring.
  - intros i _ Hi. apply Nat.eqb_neq in Hi. rewrite Hi. ring.
Qed.
Lemma int_field M u a b : a < b -> is_RInt (field Slab M u a b) a b (sqrt (b - a) * u 0%nat).
Proof.
  intros H. unfold field. eapply int_eq.
  - apply (int_sumn (M + 1) (fun j x => u j * basis Slab j x a b)). intros j _. apply int_scal, int_basis; auto.
  - rewrite (sumn_single _ _ 0%nat); [rewrite Nat.eqb_refl; ring|lia|].
    intros i _ Hi. apply Nat.eqb_neq in Hi. rewrite Hi. ring.
Qed.
(** the projection of an expansion returns its coefficients *)
Lemma project_field M u a b i : a < b -> (i <= M)%nat ->
  is_RInt (fun x => field Slab M u a b x * basis Slab i x a b) a b (u i).
Proof.
  intros H Hi. apply (int_ext (fun x => sumn (M + 1) (fun j => u j * (basis Slab j x a b * basis Slab i x a b)))).
  - intro x. unfold field. rewrite <- sumn_scal_r. apply sumn_ext. intros; ring.
  - eapply int_eq; [apply (int_sumn (M + 1) (fun j x => u j * (basis Slab j x a b * basis Slab i x a b))); intros; apply int_scal, orthonormal; auto|].
    apply sumn_delta. lia.
Qed.
