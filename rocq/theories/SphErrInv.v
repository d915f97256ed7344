(** Polynomials on an interval: values against square integrals, with and without the weight r^2. *)
From Coq Require Import ZArith QArith Qreals.
From Coquelicot Require Import Coquelicot.
From Verif Require Import Py PyLemmas Calc Legendre Cheb DGModel DGSpec DGProofs DGInt DGBalance FuncLobatto MatModel RhsModel RhsProofs
  SpherePoly SphereProofs SphereBal PosDef SphMass StabSpec StabProofs ErrSpec ErrLeib ErrProofs ErrApprox SphErrSpec SphErrProj.
Open Scope R_scope.

(** ** Legendre polynomials are at most 1 *)
Lemma leg_energy n z : is_derive (fun z => INR n * (INR n + 1) * leg n z ^ 2 + (1 - z * z) * dleg n z ^ 2) z (2 * z * dleg n z ^ 2).
Proof.
  pose proof (legendre_eq n z) as L.
  eapply dd_eq.
  - apply dd_plus.
    + apply dd_scal. apply (dd_ext (fun z => leg n z * leg n z)); [intros; ring|]. apply dd_mult; apply leg_derive.
    + apply dd_mult; [apply dd_minus; [apply dd_const|apply dd_mult; apply dd_id]|]. apply (dd_ext (fun z => dleg n z * dleg n z)); [intros; ring|]. apply dd_mult; apply dleg_derive.
  - cbv beta. replace ((1 - z * z) * (ddleg n z * dleg n z + dleg n z * ddleg n z)) with (2 * dleg n z * ((1 - z * z) * ddleg n z)) by ring.
    replace ((1 - z * z) * ddleg n z) with (2 * z * dleg n z - INR n * (INR n + 1) * leg n z) by lra. ring.
Qed.
Lemma leg_le1 n z : -1 <= z <= 1 -> leg n z ^ 2 <= 1.
Proof.
  intros Hz. destruct n as [|n]; [rewrite leg_0; lra|].
  set (m := S n). assert (P : 0 < INR m * (INR m + 1)) by (pose proof (lt_0_INR m ltac:(lia)); nra).
  pose (F := fun z => INR m * (INR m + 1) * leg m z ^ 2 + (1 - z * z) * dleg m z ^ 2).
  assert (B : F z <= INR m * (INR m + 1)).
  { destruct (Rle_dec 0 z) as [Z|Z].
    - assert (F z <= F 1).
      { destruct (Req_dec z 1) as [->|N]; [lra|].
        destruct (MVT_gen F z 1 (fun z => 2 * z * dleg m z ^ 2)) as (x & Hx & Ex).
        - intros x _. apply leg_energy.
        - intros x _. apply continuity_pt_filterlim. apply (cont_of_derive F (fun z => 2 * z * dleg m z ^ 2)). intros; apply leg_energy.
        - rewrite Rmin_left, Rmax_right in Hx by lra.
          assert (0 <= 2 * x * dleg m x ^ 2 * (1 - z)) by (apply Rmult_le_pos; [apply Rmult_le_pos; [lra|apply pow2_ge_0]|lra]). lra. }
      apply (Rle_trans _ _ _ H). unfold F. rewrite leg_1_val. lra.
    - assert (F z <= F (-1)).
      { destruct (Req_dec z (-1)) as [->|N]; [lra|].
        destruct (MVT_gen F (-1) z (fun z => 2 * z * dleg m z ^ 2)) as (x & Hx & Ex).
        - intros x _. apply leg_energy.
        - intros x _. apply continuity_pt_filterlim. apply (cont_of_derive F (fun z => 2 * z * dleg m z ^ 2)). intros; apply leg_energy.
        - rewrite Rmin_left, Rmax_right in Hx by lra.
          assert (2 * x * dleg m x ^ 2 * (z - -1) <= 0) by (pose proof (pow2_ge_0 (dleg m x)); assert (0 <= dleg m x ^ 2 * (z - -1)) by (apply Rmult_le_pos; lra); nra). lra. }
      apply (Rle_trans _ _ _ H). unfold F. rewrite leg_m1_val.
      replace (((-1) ^ m) ^ 2) with 1; [lra|]. rewrite <- pow_mult, Nat.mul_comm, pow_mult. replace ((-1) ^ 2) with 1 by ring. now rewrite pow1. }
  unfold F in B. assert (0 <= (1 - z * z) * dleg m z ^ 2) by (apply Rmult_le_pos; [nra|apply pow2_ge_0]).
  apply Rmult_le_reg_l with (INR m * (INR m + 1)); [exact P|]. lra.
Qed.
Lemma cs_sum n (u v : nat -> R) : sumn n (fun i => u i * v i) ^ 2 <= sumn n (fun i => u i ^ 2) * sumn n (fun i => v i ^ 2).
Proof.
  induction n as [|n IH]; cbn [sumn]; [lra|].
  assert (A : 0 <= sumn n (fun i => u i ^ 2)) by (apply sumn_nonneg; intros; apply pow2_ge_0).
  assert (B : 0 <= sumn n (fun i => v i ^ 2)) by (apply sumn_nonneg; intros; apply pow2_ge_0).
  revert IH A B. generalize (sumn n (fun i => u i * v i)) (sumn n (fun i => u i ^ 2)) (sumn n (fun i => v i ^ 2)) (u n) (v n). intros C A B p q H HA HB.
  assert (K : 2 * C * (p * q) <= A * q ^ 2 + B * p ^ 2).
  { apply Rsqr_incr_0_var; [|assert (0 <= A * q ^ 2) by (apply Rmult_le_pos; [auto|apply pow2_ge_0]); assert (0 <= B * p ^ 2) by (apply Rmult_le_pos; [auto|apply pow2_ge_0]); lra].
    unfold Rsqr. assert (X : C ^ 2 * (p * q) ^ 2 <= A * B * (p * q) ^ 2) by (apply Rmult_le_compat_r; [apply pow2_ge_0|auto]).
    pose proof (pow2_ge_0 (A * q ^ 2 - B * p ^ 2)). nra. }
  nra.
Qed.
Lemma odd_sum M : sumn (M + 1) (fun j => 2 * INR j + 1) = (INR M + 1) ^ 2.
Proof. induction M as [|M IH]; [cbn; ring|]. cbn [Nat.add sumn]. rewrite IH, Nat.add_1_r, S_INR. ring. Qed.

Section Inv.
Variables (M : nat) (a b : R) (p : R -> R).
Hypothesis Hab : a < b.
Hypothesis Hp : deg_le M p.
Let h := b - a.
Let N2 := RInt (fun x => p x ^ 2) a b.
Lemma poly_slab : exists u, forall x, p x = field Slab M u a b x.
Proof.
  destruct (span_field M (fun z => p ((b - a) / 2 * z + (a + b) / 2)) a b Hab) as (u & Hu); [now apply deg_affine|].
  exists u. intros x. rewrite <- Hu. f_equal. unfold refz. field. lra.
Qed.
Lemma poly_cont x : continuous p x.
Proof.
  destruct Hp as (l & _ & H). apply (continuous_ext (ph l)); [intros; now rewrite H|]. clear H. induction l as [|c l IH]; [apply cconst|].
  apply (continuous_ext (fun x => c + x * ph l x)); [reflexivity|]. apply cplus; [apply cconst|apply cmult; [apply cid|exact IH]].
Qed.
Lemma p2_is : is_RInt (fun x => p x ^ 2) a b N2.
Proof. apply int_val. intros x. apply cpow, poly_cont. Qed.
(** a value is bounded by the square integral *)
Lemma poly_sup x : a <= x <= b -> p x ^ 2 <= (INR M + 1) ^ 2 / h * N2.
Proof.
  intros Hx. assert (Hh : 0 < h) by (unfold h; lra). destruct poly_slab as (u & Hu).
  assert (E2 : N2 = sumn (M + 1) (fun j => u j ^ 2)).
  { unfold N2. apply int_uniq. apply (int_ext (fun x => sumn (M + 1) (fun j => u j * (field Slab M u a b x * basis Slab j x a b)))).
    { intros y. rewrite Hu. transitivity (field Slab M u a b y * field Slab M u a b y); [|ring]. unfold field at 3. rewrite <- sumn_scal. apply sumn_ext. intros; ring. }
    apply int_sumn. intros j Hj. eapply int_eq; [apply int_scal, project_field; [exact Hab|lia]|ring]. }
  rewrite E2, Hu. unfold field. eapply Rle_trans; [apply cs_sum|].
  rewrite (Rmult_comm (_ / h)). apply Rmult_le_compat_l; [apply sumn_nonneg; intros; apply pow2_ge_0|].
  rewrite <- odd_sum. unfold Rdiv. rewrite <- sumn_scal_r. apply sumn_le. intros j Hj. unfold basis. fold h.
  assert (P : 0 <= (2 * INR j + 1) / h) by (pose proof (INR2_pos j); apply Rlt_le, Rdiv_lt_0_compat; lra).
  replace ((sqrt ((2 * INR j + 1) / h) * leg j (refz x a b)) ^ 2) with ((sqrt ((2 * INR j + 1) / h) * sqrt ((2 * INR j + 1) / h)) * leg j (refz x a b) ^ 2) by ring.
  rewrite sqrt_sqrt by auto. change ((2 * INR j + 1) * / h) with ((2 * INR j + 1) / h). rewrite <- (Rmult_1_r ((2 * INR j + 1) / h)) at 2. apply Rmult_le_compat_l; [auto|]. apply leg_le1.
  unfold refz. fold h. split; [apply Rmult_le_reg_r with h; auto; unfold Rdiv; rewrite Rmult_assoc, Rinv_l by lra; unfold h in *; lra|
    apply Rmult_le_reg_r with h; auto; unfold Rdiv; rewrite Rmult_assoc, Rinv_l by lra; unfold h in *; lra].
Qed.
Hypothesis Ha : 0 <= a.
Let dlt := h / (2 * (INR M + 1) ^ 2).
Let W2 := RInt (fun x => x ^ 2 * p x ^ 2) a b.
Lemma w2_is : is_RInt (fun x => x ^ 2 * p x ^ 2) a b W2.
Proof. apply int_val. intros x. apply cmult; [apply cpow, cid|apply cpow, poly_cont]. Qed.
Lemma M1_pos : 1 <= (INR M + 1) ^ 2. Proof. pose proof (pos_INR M). nra. Qed.
Lemma dlt_pos : 0 < dlt /\ dlt < h.
Proof.
  assert (Hh : 0 < h) by (unfold h; lra). pose proof M1_pos. unfold dlt. split; [apply Rdiv_lt_0_compat; lra|].
  apply Rmult_lt_reg_r with (2 * (INR M + 1) ^ 2); [lra|]. unfold Rdiv. rewrite Rmult_assoc, Rinv_l by lra. nra.
Qed.
(** the weight costs a factor that does not depend on the polynomial *)
Lemma poly_weight : N2 <= 2 / (a + dlt) ^ 2 * W2.
Proof.
  assert (Hh : 0 < h) by (unfold h; lra). pose proof dlt_pos as [D0 D1]. pose proof M1_pos as MP.
  set (m := a + dlt). assert (Hm : 0 < m /\ a < m < b) by (unfold m, h in *; lra).
  assert (C2 : forall x, continuous (fun x => p x ^ 2) x) by (intros; apply cpow, poly_cont).
  assert (CW : forall x, continuous (fun x => x ^ 2 * p x ^ 2) x) by (intros; apply cmult; [apply cpow, cid|apply C2]).
  pose proof (int_val _ a m C2) as I1. pose proof (int_val _ m b C2) as I2.
  pose proof (int_val _ a m CW) as J1. pose proof (int_val _ m b CW) as J2.
  assert (EN : N2 = RInt (fun x => p x ^ 2) a m + RInt (fun x => p x ^ 2) m b) by (apply (int_uniq2 _ _ _ _ _ p2_is); exact (is_RInt_Chasles (V := R_NormedModule) _ _ _ _ _ _ I1 I2)).
  assert (EW : W2 = RInt (fun x => x ^ 2 * p x ^ 2) a m + RInt (fun x => x ^ 2 * p x ^ 2) m b) by (apply (int_uniq2 _ _ _ _ _ w2_is); exact (is_RInt_Chasles (V := R_NormedModule) _ _ _ _ _ _ J1 J2)).
  assert (B1 : RInt (fun x => p x ^ 2) a m <= 1 / 2 * N2).
  { assert (K : RInt (fun _ => (INR M + 1) ^ 2 / h * N2) a m = 1 / 2 * N2).
    { apply int_uniq. eapply int_eq; [apply int_const|]. unfold m, dlt. field. pose proof (pos_INR M). split; lra. }
    rewrite <- K. apply RInt_le; [lra|now apply ex_int|apply ex_int; intros; apply cconst|]. intros x Hx. apply poly_sup. lra. }
  assert (B2 : RInt (fun x => p x ^ 2) m b <= / m ^ 2 * RInt (fun x => x ^ 2 * p x ^ 2) m b).
  { assert (K : RInt (fun x => / m ^ 2 * (x ^ 2 * p x ^ 2)) m b = / m ^ 2 * RInt (fun x => x ^ 2 * p x ^ 2) m b) by (apply int_uniq; now apply int_scal).
    rewrite <- K. apply RInt_le; [lra|now apply ex_int|apply ex_int; intros; apply cmult; [apply cconst|apply CW]|]. intros x Hx.
    replace (p x ^ 2) with (/ m ^ 2 * (m ^ 2 * p x ^ 2)) at 1 by (field; lra). apply Rmult_le_compat_l; [apply Rlt_le, Rinv_0_lt_compat, pow_lt; lra|].
    apply Rmult_le_compat_r; [apply pow2_ge_0|]. apply pow_incr. lra. }
  assert (B3 : 0 <= RInt (fun x => x ^ 2 * p x ^ 2) a m) by (apply RInt_ge_0; [lra|now apply ex_int|intros; apply Rmult_le_pos; apply pow2_ge_0]).
  assert (IM : 0 < / m ^ 2) by (apply Rinv_0_lt_compat, pow_lt; lra).
  assert (B4 : / m ^ 2 * RInt (fun x => x ^ 2 * p x ^ 2) m b <= / m ^ 2 * W2) by (apply Rmult_le_compat_l; lra).
  unfold Rdiv. lra.
Qed.
Lemma W2_pos : 0 <= W2.
Proof. apply RInt_ge_0; [lra|eexists; apply w2_is|]. intros; apply Rmult_le_pos; apply pow2_ge_0. Qed.
(** r instead of r^2 costs one over the width *)
Lemma poly_half : RInt (fun x => x * p x ^ 2) a b <= 4 * (INR M + 1) ^ 2 / h * W2.
Proof.
  assert (Hh : 0 < h) by (unfold h; lra). pose proof dlt_pos as [D0 D1]. pose proof M1_pos as MP. pose proof poly_weight as PW. pose proof W2_pos as WP.
  set (m := a + dlt) in *. assert (Hm : 0 < m) by (unfold m; lra).
  assert (C2 : forall x, continuous (fun x => p x ^ 2) x) by (intros; apply cpow, poly_cont).
  assert (K : RInt (fun x => m / 2 * p x ^ 2 + / (2 * m) * (x ^ 2 * p x ^ 2)) a b = m / 2 * N2 + / (2 * m) * W2).
  { apply int_uniq. apply int_plus; apply int_scal; [apply p2_is|apply w2_is]. }
  apply Rle_trans with (m / 2 * N2 + / (2 * m) * W2).
  - rewrite <- K. apply RInt_le; [lra|apply ex_int; intros; apply cmult; [apply cid|apply C2]|apply ex_int; intros; apply cplus; (apply cmult; [apply cconst|]); [apply C2|apply cmult; [apply cpow, cid|apply C2]]|].
    intros x Hx. assert (Y : x <= m / 2 + / (2 * m) * x ^ 2).
    { apply Rmult_le_reg_l with (2 * m); [lra|]. replace (2 * m * (m / 2 + / (2 * m) * x ^ 2)) with (m ^ 2 + x ^ 2) by (field; lra). pose proof (pow2_ge_0 (m - x)). nra. }
    replace (m / 2 * p x ^ 2 + / (2 * m) * (x ^ 2 * p x ^ 2)) with ((m / 2 + / (2 * m) * x ^ 2) * p x ^ 2) by ring. apply Rmult_le_compat_r; [apply pow2_ge_0|exact Y].
  - apply Rle_trans with (2 / m * W2).
    + assert (m / 2 * N2 <= / m * W2).
      { replace (/ m * W2) with (m / 2 * (2 / m ^ 2 * W2)) by (field; lra). apply Rmult_le_compat_l; [lra|exact PW]. }
      replace (2 / m * W2) with (/ m * W2 + / (2 * m) * W2 + / (2 * m) * W2) by (field; lra).
      assert (0 <= / (2 * m) * W2) by (apply Rmult_le_pos; [apply Rlt_le, Rinv_0_lt_compat; lra|auto]). lra.
    + apply Rmult_le_compat_r; [auto|]. apply Rle_trans with (2 / dlt).
      * unfold Rdiv. apply Rmult_le_compat_l; [lra|]. apply Rinv_le_contravar; unfold m; lra.
      * apply Req_le. unfold dlt. field. pose proof (pos_INR M). split; lra.
Qed.
(** values against the weighted integral *)
Lemma poly_sup_w x : a <= x <= b -> p x ^ 2 <= 2 * (INR M + 1) ^ 2 / (h * (a + dlt) ^ 2) * W2.
Proof.
  intros Hx. assert (Hh : 0 < h) by (unfold h; lra). pose proof dlt_pos as [D0 D1]. pose proof M1_pos as MP.
  eapply Rle_trans; [apply poly_sup; auto|].
  replace (2 * (INR M + 1) ^ 2 / (h * (a + dlt) ^ 2) * W2) with ((INR M + 1) ^ 2 / h * (2 / (a + dlt) ^ 2 * W2)) by (field; lra).
  apply Rmult_le_compat_l; [apply Rlt_le, Rdiv_lt_0_compat; lra|apply poly_weight].
Qed.
End Inv.
