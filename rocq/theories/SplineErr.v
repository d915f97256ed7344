(** Lemmas on the accuracy of natural cubic splines, for SplineErrThms.v. *)
From Coquelicot Require Import Coquelicot.
From Verif Require Import Py PyLemmas Calc SplineModel SplineProofs SplineShape.

Ltac req := cbv beta; match goal with |- ?u = ?v => change (@eq R u v) end.
(** a function that vanishes at both ends of an interval is controlled by its second derivative *)
Lemma below (f f1 f2 : R -> R) a b K x : (forall z, is_derive f z (f1 z)) -> (forall z, is_derive f1 z (f2 z)) ->
  f a = 0 -> f b = 0 -> (forall z, a <= z <= b -> f2 z >= - K) -> a <= x <= b -> f x <= K / 2 * ((x - a) * (b - x)).
Proof.
  intros D1 D2 Fa Fb HK Hx. destruct (Req_dec x a) as [->|Na]; [rewrite Fa; lra|]. destruct (Req_dec x b) as [->|Nb]; [rewrite Fb; lra|].
  set (p := fun z => f z - K / 2 * ((z - a) * (b - z))).
  set (p1 := fun z => f1 z - K / 2 * (a + b - 2 * z)). set (p2 := fun z => f2 z + K).
  assert (E1 : forall z, is_derive p z (p1 z)).
  { intros z. unfold p, p1. eapply dd_eq; [apply dd_minus; [apply D1|apply dd_scal, dd_mult; [apply dd_minus; [apply dd_id|apply dd_const]|apply dd_minus; [apply dd_const|apply dd_id]]]|]. req. cbv beta. field. }
  assert (E2 : forall z, is_derive p1 z (p2 z)).
  { intros z. unfold p1, p2. eapply dd_eq; [apply dd_minus; [apply D2|apply dd_scal, dd_minus; [apply dd_const|apply dd_scal, dd_id]]|]. req. field. }
  assert (Pa : p a = 0) by (unfold p; rewrite Fa; ring). assert (Pb : p b = 0) by (unfold p; rewrite Fb; ring).
  cut (p x <= 0); [unfold p; lra|]. apply Rnot_lt_le. intros Hp.
  destruct (MVT_gen p a x p1) as (u & Hu & Eu). { intros; apply E1. } { intros z _. apply continuity_pt_filterlim, (cont_of_derive p p1 E1). }
  destruct (MVT_gen p x b p1) as (v & Hv & Ev). { intros; apply E1. } { intros z _. apply continuity_pt_filterlim, (cont_of_derive p p1 E1). }
  rewrite Rmin_left, Rmax_right in Hu by lra. rewrite Rmin_left, Rmax_right in Hv by lra.
  assert (Pu : 0 < p1 u). { apply Rnot_le_lt. intros C. assert (p1 u * (x - a) <= 0) by (apply Rmult_le_0_r; lra). lra. }
  assert (Pv : p1 v < 0). { apply Rnot_le_lt. intros C. assert (0 <= p1 v * (b - x)) by (apply Rmult_le_pos; lra). lra. }
  destruct (MVT_gen p1 u v p2) as (w & Hw & Ew). { intros; apply E2. } { intros z _. apply continuity_pt_filterlim, (cont_of_derive p1 p2 E2). }
  rewrite Rmin_left, Rmax_right in Hw by lra.
  assert (B := HK w ltac:(lra)). assert (0 <= p2 w * (v - u)) by (apply Rmult_le_pos; unfold p2; lra). lra.
Qed.
Lemma two_zeros (f f1 f2 : R -> R) a b K x : (forall z, is_derive f z (f1 z)) -> (forall z, is_derive f1 z (f2 z)) ->
  f a = 0 -> f b = 0 -> (forall z, a <= z <= b -> Rabs (f2 z) <= K) -> a <= x <= b -> Rabs (f x) <= K / 2 * ((x - a) * (b - x)).
Proof.
  intros D1 D2 Fa Fb HK Hx.
  assert (U := below f f1 f2 a b K x D1 D2 Fa Fb ltac:(intros z Hz; specialize (HK z Hz); apply Rabs_le_between in HK; lra) Hx).
  assert (L := below (fun z => - f z) (fun z => - f1 z) (fun z => - f2 z) a b K x ltac:(intros; apply dd_opp, D1) ltac:(intros; apply dd_opp, D2) ltac:(cbv beta; rewrite Fa; ring) ltac:(cbv beta; rewrite Fb; ring) ltac:(intros z Hz; specialize (HK z Hz); apply Rabs_le_between in HK; lra) Hx).
  cbv beta in L. apply Rabs_le. lra.
Qed.
Lemma middle a b x K : 0 <= K -> a <= x <= b -> K / 2 * ((x - a) * (b - x)) <= K * (b - a) ^ 2 / 8.
Proof. intros HK Hx. assert (0 <= (a + b - 2 * x) ^ 2) by apply pow2_ge_0. assert (0 <= K * (a + b - 2 * x) ^ 2) by (apply Rmult_le_pos; lra). nra. Qed.
Lemma finite_max (f : nat -> R) n : exists k, (k <= n)%nat /\ forall j, (j <= n)%nat -> f j <= f k.
Proof.
  induction n as [|n [k [Hk IH]]]; [exists 0%nat; split; [lia|intros j Hj; replace j with 0%nat by lia; lra]|].
  destruct (Rle_dec (f (S n)) (f k)) as [L|L].
  - exists k. split; [lia|]. intros j Hj. destruct (Nat.eq_dec j (S n)) as [->|]; [auto|apply IH; lia].
  - exists (S n). split; [lia|]. intros j Hj. destruct (Nat.eq_dec j (S n)) as [->|]; [lra|]. specialize (IH j ltac:(lia)). lra.
Qed.

(** a function with continuous second derivative that vanishes at both ends of a piece, weighted with the slopes *)
Section Piece.
Variables (e e1 e2 : R -> R) (a b : R).
Hypothesis Hab : a < b.
Hypothesis D1 : forall z, is_derive e z (e1 z).
Hypothesis D2 : forall z, is_derive e1 z (e2 z).
Hypothesis C2 : forall z, continuous e2 z.
Hypothesis Ea : e a = 0.
Hypothesis Eb : e b = 0.
Lemma slope_right : is_RInt (fun z => (z - a) * e2 z) a b ((b - a) * e1 b).
Proof.
  eapply int_eq; [apply (int_ftc (fun z => (z - a) * e1 z - e z))|].
  - intros z. eapply dd_eq; [apply dd_minus; [apply dd_mult; [apply dd_minus; [apply dd_id|apply dd_const]|apply D2]|apply D1]|]. req. cbv beta. field.
  - intros z. apply cmult; [apply cminus; [apply cid|apply cconst]|apply C2].
  - cbv beta. rewrite Ea, Eb. req. ring.
Qed.
Lemma slope_left : is_RInt (fun z => (b - z) * e2 z) a b (- ((b - a) * e1 a)).
Proof.
  eapply int_eq; [apply (int_ftc (fun z => (b - z) * e1 z + e z))|].
  - intros z. eapply dd_eq; [apply dd_plus; [apply dd_mult; [apply dd_minus; [apply dd_const|apply dd_id]|apply D2]|apply D1]|]. req. ring.
  - intros z. apply cmult; [apply cminus; [apply cconst|apply cid]|apply C2].
  - cbv beta. rewrite Ea, Eb. req. ring.
Qed.
(** e2 is within R0 of the line from [p] to [q] *)
Variables (p q R0 : R).
Hypothesis HR : forall z, a <= z <= b -> Rabs (e2 z - (p + (q - p) * ((z - a) / (b - a)))) <= R0.
Lemma slope_right_bound : Rabs (e1 b - (b - a) * (p / 6 + q / 3)) <= R0 * (b - a) / 2.
Proof.
  assert (L : is_RInt (fun z => (z - a) * (p + (q - p) * ((z - a) / (b - a)))) a b ((b - a) ^ 2 * (p / 6 + q / 3))).
  { eapply int_eq; [apply (int_ftc (fun z => p / 2 * (z - a) ^ 2 + (q - p) / (3 * (b - a)) * (z - a) ^ 3))|].
    - intros z. apply is_derive_Reals. auto_derive; auto. field. lra.
    - intros z. apply cmult; [apply cminus; [apply cid|apply cconst]|apply cplus; [apply cconst|apply cmult; [apply cconst|apply cdivc, cminus; [apply cid|apply cconst]]]].
    - req. field. lra. }
  assert (J := int_minus _ _ _ _ _ _ slope_right L).
  assert (U : is_RInt (fun z => R0 * (z - a)) a b (R0 * (b - a) ^ 2 / 2)).
  { eapply int_eq; [apply (int_ftc (fun z => R0 / 2 * (z - a) ^ 2))|].
    - intros z. apply is_derive_Reals. auto_derive; auto. field.
    - intros z. apply cmult; [apply cconst|apply cminus; [apply cid|apply cconst]].
    - req. field. }
  assert (K1 := is_RInt_le _ _ a b _ _ (Rlt_le _ _ Hab) J U). assert (K2 := is_RInt_le _ _ a b _ _ (Rlt_le _ _ Hab) (int_scal _ (-1) _ _ _ U) J). cbv beta in K1, K2.
  assert (Z : forall z, a < z < b -> Rabs ((z - a) * e2 z - (z - a) * (p + (q - p) * ((z - a) / (b - a)))) <= R0 * (z - a)).
  { intros z Hz. rewrite <- Rmult_minus_distr_l, Rabs_mult, (Rabs_pos_eq (z - a)) by lra. rewrite (Rmult_comm R0). apply Rmult_le_compat_l; [lra|]. apply HR. lra. }
  assert (A1 : (b - a) * e1 b - (b - a) ^ 2 * (p / 6 + q / 3) <= R0 * (b - a) ^ 2 / 2) by (apply K1; intros z Hz; specialize (Z z Hz); apply Rabs_le_between in Z; lra).
  assert (A2 : -1 * (R0 * (b - a) ^ 2 / 2) <= (b - a) * e1 b - (b - a) ^ 2 * (p / 6 + q / 3)) by (apply K2; intros z Hz; specialize (Z z Hz); apply Rabs_le_between in Z; lra).
  apply Rabs_le. split; (apply (Rmult_le_reg_l (b - a)); [lra|]); nra.
Qed.
Lemma slope_left_bound : Rabs (e1 a + (b - a) * (p / 3 + q / 6)) <= R0 * (b - a) / 2.
Proof.
  assert (L : is_RInt (fun z => (b - z) * (p + (q - p) * ((z - a) / (b - a)))) a b ((b - a) ^ 2 * (p / 3 + q / 6))).
  { eapply int_eq; [apply (int_ftc (fun z => - q / 2 * (b - z) ^ 2 - (p - q) / (3 * (b - a)) * (b - z) ^ 3))|].
    - intros z. apply is_derive_Reals. auto_derive; auto. field. lra.
    - intros z. apply cmult; [apply cminus; [apply cconst|apply cid]|apply cplus; [apply cconst|apply cmult; [apply cconst|apply cdivc, cminus; [apply cid|apply cconst]]]].
    - req. field. lra. }
  assert (J := int_minus _ _ _ _ _ _ slope_left L).
  assert (U : is_RInt (fun z => R0 * (b - z)) a b (R0 * (b - a) ^ 2 / 2)).
  { eapply int_eq; [apply (int_ftc (fun z => - R0 / 2 * (b - z) ^ 2))|].
    - intros z. apply is_derive_Reals. auto_derive; auto. field.
    - intros z. apply cmult; [apply cconst|apply cminus; [apply cconst|apply cid]].
    - req. field. }
  assert (K1 := is_RInt_le _ _ a b _ _ (Rlt_le _ _ Hab) J U). assert (K2 := is_RInt_le _ _ a b _ _ (Rlt_le _ _ Hab) (int_scal _ (-1) _ _ _ U) J). cbv beta in K1, K2.
  assert (Z : forall z, a < z < b -> Rabs ((b - z) * e2 z - (b - z) * (p + (q - p) * ((z - a) / (b - a)))) <= R0 * (b - z)).
  { intros z Hz. rewrite <- Rmult_minus_distr_l, Rabs_mult, (Rabs_pos_eq (b - z)) by lra. rewrite (Rmult_comm R0). apply Rmult_le_compat_l; [lra|]. apply HR. lra. }
  assert (A1 : - ((b - a) * e1 a) - (b - a) ^ 2 * (p / 3 + q / 6) <= R0 * (b - a) ^ 2 / 2) by (apply K1; intros z Hz; specialize (Z z Hz); apply Rabs_le_between in Z; lra).
  assert (A2 : -1 * (R0 * (b - a) ^ 2 / 2) <= - ((b - a) * e1 a) - (b - a) ^ 2 * (p / 3 + q / 6)) by (apply K2; intros z Hz; specialize (Z z Hz); apply Rabs_le_between in Z; lra).
  apply Rabs_le. split; (apply (Rmult_le_reg_l (b - a)); [lra|]); nra.
Qed.
End Piece.

(** the second derivative of a natural spline is a line on every piece *)
Lemma second_line n X S S1 S2 (Inc : forall k, (k < n)%nat -> X k < X (k + 1)%nat) :
  (forall x, is_derive S x (S1 x)) -> (forall x, is_derive S1 x (S2 x)) ->
  (forall k, (k < n)%nat -> exists c0 c1 c2 c3, forall x, X k <= x <= X (k + 1)%nat -> S x = c0 + c1 * x + c2 * x ^ 2 + c3 * x ^ 3) ->
  forall k z, (k < n)%nat -> X k <= z <= X (k + 1)%nat -> S2 z = S2 (X k) + (S2 (X (k + 1)%nat) - S2 (X k)) * ((z - X k) / (X (k + 1)%nat - X k)).
Proof.
  intros D1 D2 P k z Hk Hz. assert (I := Inc k Hk). destruct (P k Hk) as (c0 & c1 & c2 & c3 & Hc).
  assert (A1 : forall w, X k <= w <= X (k + 1)%nat -> S1 w = c1 + 2 * c2 * w + 3 * c3 * w ^ 2).
  { intros w Hw. apply (agree_derive S (fun x => c0 + c1 * x + c2 * x ^ 2 + c3 * x ^ 3) (X k) (X (k + 1)%nat) w); auto.
    apply is_derive_Reals. auto_derive; auto. ring. }
  assert (A2 : forall w, X k <= w <= X (k + 1)%nat -> S2 w = 2 * c2 + 6 * c3 * w).
  { intros w Hw. apply (agree_derive S1 (fun x => c1 + 2 * c2 * x + 3 * c3 * x ^ 2) (X k) (X (k + 1)%nat) w); auto.
    apply is_derive_Reals. auto_derive; auto. ring. }
  rewrite !A2 by lra. req. field. lra.
Qed.

Section Error.
Variables (n : nat) (X : nat -> R) (S S1 S2 g g1 g2 : R -> R).
Hypothesis Hn : (1 <= n)%nat.
Hypothesis Inc : forall k, (k < n)%nat -> X k < X (k + 1)%nat.
Hypothesis DS1 : forall x, is_derive S x (S1 x).
Hypothesis DS2 : forall x, is_derive S1 x (S2 x).
Hypothesis CS : forall x, continuous S2 x.
Hypothesis HP : forall k, (k < n)%nat -> exists c0 c1 c2 c3, forall x, X k <= x <= X (k + 1)%nat -> S x = c0 + c1 * x + c2 * x ^ 2 + c3 * x ^ 3.
Hypothesis Z0 : S2 (X 0%nat) = 0.
Hypothesis Zn : S2 (X n) = 0.
Hypothesis Dg1 : forall x, is_derive g x (g1 x).
Hypothesis Dg2 : forall x, is_derive g1 x (g2 x).
Hypothesis Cg : forall x, continuous g2 x.
Hypothesis HV : forall k, (k <= n)%nat -> S (X k) = g (X k).
(** g2 is within R0 of its line between the knots *)
Variable R0 : R.
Hypothesis HR : forall k z, (k < n)%nat -> X k <= z <= X (k + 1)%nat ->
  Rabs (g2 z - (g2 (X k) + (g2 (X (k + 1)%nat) - g2 (X k)) * ((z - X k) / (X (k + 1)%nat - X k)))) <= R0.
Let e x := g x - S x.
Let e1 x := g1 x - S1 x.
Let e2 x := g2 x - S2 x.
Let d k := e2 (X k).
Lemma err_d1 x : is_derive e x (e1 x). Proof. apply dd_minus; auto. Qed.
Lemma err_d2 x : is_derive e1 x (e2 x). Proof. apply dd_minus; auto. Qed.
Lemma err_c2 x : continuous e2 x. Proof. apply cminus; auto. Qed.
Lemma err_knot k : (k <= n)%nat -> e (X k) = 0. Proof. intros. unfold e. rewrite HV by auto. ring. Qed.
Lemma err_line k z : (k < n)%nat -> X k <= z <= X (k + 1)%nat -> Rabs (e2 z - (d k + (d (k + 1)%nat - d k) * ((z - X k) / (X (k + 1)%nat - X k)))) <= R0.
Proof.
  intros Hk Hz. assert (L := second_line n X S S1 S2 Inc DS1 DS2 HP k z Hk Hz). assert (H := HR k z Hk Hz).
  unfold d, e2. rewrite L. match goal with H : Rabs ?u <= R0 |- Rabs ?v <= R0 => replace v with u by ring end. auto.
Qed.
Lemma R0_pos : 0 <= R0.
Proof. assert (I := Inc 0%nat ltac:(lia)). eapply Rle_trans; [apply Rabs_pos|apply (HR 0%nat (X 0%nat)); [lia|lra]]. Qed.
Lemma deviations k : (k <= n)%nat -> Rabs (d k) <= Rmax (3 * R0) (Rmax (Rabs (g2 (X 0%nat))) (Rabs (g2 (X n)))).
Proof.
  intros Hk. destruct (finite_max (fun j => Rabs (d j)) n) as (m & Hm & Max). cbv beta in Max.
  apply Rle_trans with (Rabs (d m)); [auto|].
  destruct (Nat.eq_dec m 0) as [->|N0].
  { unfold d, e2. rewrite Z0, Rminus_0_r. eapply Rle_trans; [apply Rmax_l|apply Rmax_r]. }
  destruct (Nat.eq_dec m n) as [->|Nn].
  { unfold d, e2. rewrite Zn, Rminus_0_r. eapply Rle_trans; [apply Rmax_r|apply Rmax_r]. }
  eapply Rle_trans; [|apply Rmax_l].
  assert (I0 := Inc (m - 1)%nat ltac:(lia)). assert (I1 := Inc m ltac:(lia)). replace (m - 1 + 1)%nat with m in I0 by lia.
  assert (A := slope_right_bound e e1 e2 (X (m - 1)%nat) (X m) I0 err_d1 err_d2 err_c2 (err_knot (m - 1)%nat ltac:(lia)) (err_knot m ltac:(lia)) (d (m - 1)%nat) (d m) R0).
  assert (B := slope_left_bound e e1 e2 (X m) (X (m + 1)%nat) I1 err_d1 err_d2 err_c2 (err_knot m ltac:(lia)) (err_knot (m + 1)%nat ltac:(lia)) (d m) (d (m + 1)%nat) R0).
  specialize (A ltac:(intros z Hz; assert (H := err_line (m - 1) z ltac:(lia)); replace (m - 1 + 1)%nat with m in H by lia; apply H; lra)).
  specialize (B ltac:(intros z Hz; apply err_line; [lia|lra])).
  assert (M1 := Max (m - 1)%nat ltac:(lia)). assert (M2 := Max (m + 1)%nat ltac:(lia)).
  set (h0 := X m - X (m - 1)%nat) in *. set (h1 := X (m + 1)%nat - X m) in *. assert (0 < h0) by (unfold h0; lra). assert (0 < h1) by (unfold h1; lra).
  set (D := Rabs (d m)) in *.
  assert (K : Rabs ((h0 + h1) * (d m / 3)) <= R0 * (h0 + h1) / 2 + (h0 + h1) * (D / 6)).
  { replace ((h0 + h1) * (d m / 3)) with ((e1 (X m) + h1 * (d m / 3 + d (m + 1)%nat / 6)) - (e1 (X m) - h0 * (d (m - 1)%nat / 6 + d m / 3)) - h1 / 6 * d (m + 1)%nat - h0 / 6 * d (m - 1)%nat) by field.
    eapply Rle_trans; [apply Rabs_triang|]. rewrite Rabs_Ropp. eapply Rle_trans; [apply Rplus_le_compat_r; eapply Rle_trans; [apply Rabs_triang|]; rewrite Rabs_Ropp; apply Rplus_le_compat_r; eapply Rle_trans; [apply Rabs_triang|]; rewrite Rabs_Ropp; apply Rle_refl|].
    rewrite !(Rabs_mult (_ / 6)), (Rabs_pos_eq (h1 / 6)), (Rabs_pos_eq (h0 / 6)) by lra.
    assert (h1 / 6 * Rabs (d (m + 1)%nat) <= h1 / 6 * D) by (apply Rmult_le_compat_l; lra).
    assert (h0 / 6 * Rabs (d (m - 1)%nat) <= h0 / 6 * D) by (apply Rmult_le_compat_l; lra). lra. }
  rewrite Rabs_mult, (Rabs_pos_eq (h0 + h1)) in K by lra. unfold Rdiv in K at 1. rewrite Rabs_mult, (Rabs_pos_eq (/ 3)) in K by lra. fold D in K.
  apply (Rmult_le_reg_l (h0 + h1)); [lra|]. nra.
Qed.
Lemma second_bound k z : (k < n)%nat -> X k <= z <= X (k + 1)%nat -> Rabs (e2 z) <= R0 + Rmax (3 * R0) (Rmax (Rabs (g2 (X 0%nat))) (Rabs (g2 (X n)))).
Proof.
  intros Hk Hz. set (B := Rmax (3 * R0) (Rmax (Rabs (g2 (X 0%nat))) (Rabs (g2 (X n))))).
  assert (L := err_line k z Hk Hz). assert (A0 := deviations k ltac:(lia)). assert (A1 := deviations (k + 1) ltac:(lia)). fold B in A0, A1. assert (I := Inc k Hk).
  set (w := (z - X k) / (X (k + 1)%nat - X k)) in *.
  assert (W : 0 <= w <= 1). { unfold w. split; [apply Rmult_le_pos; [lra|left; apply Rinv_0_lt_compat; lra]|]. apply (Rmult_le_reg_r (X (k + 1)%nat - X k)); [lra|]. unfold Rdiv. rewrite Rmult_assoc, Rinv_l by lra. lra. }
  apply Rabs_le_between in L. apply Rabs_le_between in A0. apply Rabs_le_between in A1. apply Rabs_le.
  replace (d k + (d (k + 1)%nat - d k) * w) with ((1 - w) * d k + w * d (k + 1)%nat) in L by ring.
  assert ((1 - w) * d k <= (1 - w) * B) by (apply Rmult_le_compat_l; lra). assert (w * d (k + 1)%nat <= w * B) by (apply Rmult_le_compat_l; lra).
  assert ((1 - w) * - B <= (1 - w) * d k) by (apply Rmult_le_compat_l; lra). assert (w * - B <= w * d (k + 1)%nat) by (apply Rmult_le_compat_l; lra). lra.
Qed.
Lemma error_bound k x : (k < n)%nat -> X k <= x <= X (k + 1)%nat ->
  Rabs (g x - S x) <= (R0 + Rmax (3 * R0) (Rmax (Rabs (g2 (X 0%nat))) (Rabs (g2 (X n))))) * (X (k + 1)%nat - X k) ^ 2 / 8.
Proof.
  intros Hk Hx. eapply Rle_trans; [apply (two_zeros e e1 e2 (X k) (X (k + 1)%nat)); [apply err_d1|apply err_d2|apply err_knot; lia|apply err_knot; lia|intros z Hz; now apply (second_bound k)|auto]|].
  apply middle; auto. assert (P := R0_pos). assert (Q := Rmax_l (3 * R0) (Rmax (Rabs (g2 (X 0%nat))) (Rabs (g2 (X n))))). lra.
Qed.
End Error.

(** least curvature *)
Section Curvature.
Variables (n : nat) (X : nat -> R) (S S1 S2 g g1 g2 : R -> R).
Hypothesis Inc : forall k, (k < n)%nat -> X k < X (k + 1)%nat.
Hypothesis DS1 : forall x, is_derive S x (S1 x).
Hypothesis DS2 : forall x, is_derive S1 x (S2 x).
Hypothesis CS : forall x, continuous S2 x.
Hypothesis HP : forall k, (k < n)%nat -> exists c0 c1 c2 c3, forall x, X k <= x <= X (k + 1)%nat -> S x = c0 + c1 * x + c2 * x ^ 2 + c3 * x ^ 3.
Hypothesis Z0 : S2 (X 0%nat) = 0.
Hypothesis Zn : S2 (X n) = 0.
Hypothesis Dg1 : forall x, is_derive g x (g1 x).
Hypothesis Dg2 : forall x, is_derive g1 x (g2 x).
Hypothesis Cg : forall x, continuous g2 x.
Hypothesis HV : forall k, (k <= n)%nat -> S (X k) = g (X k).
Lemma cross_term : forall m, (m <= n)%nat -> is_RInt (fun z => S2 z * (g2 z - S2 z)) (X 0%nat) (X m) (S2 (X m) * (g1 (X m) - S1 (X m)) - S2 (X 0%nat) * (g1 (X 0%nat) - S1 (X 0%nat))).
Proof.
  induction m as [|m IH]; intros Hm.
  { eapply int_eq; [apply is_RInt_point|]. change zero with 0. req. ring. }
  assert (I := Inc m ltac:(lia)). replace (Datatypes.S m) with (m + 1)%nat by lia.
  set (s := (S2 (X (m + 1)%nat) - S2 (X m)) / (X (m + 1)%nat - X m)).
  assert (J : is_RInt (fun z => (S2 (X m) + s * (z - X m)) * (g2 z - S2 z)) (X m) (X (m + 1)%nat) (S2 (X (m + 1)%nat) * (g1 (X (m + 1)%nat) - S1 (X (m + 1)%nat)) - S2 (X m) * (g1 (X m) - S1 (X m)))).
  { eapply int_eq; [apply (int_ftc (fun z => (S2 (X m) + s * (z - X m)) * (g1 z - S1 z) - s * (g z - S z)))|].
    - intros z. eapply dd_eq; [apply dd_minus; [apply dd_mult; [apply dd_plus; [apply dd_const|apply dd_scal, dd_minus; [apply dd_id|apply dd_const]]|apply dd_minus; [apply Dg2|apply DS2]]|apply dd_scal, dd_minus; [apply Dg1|apply DS1]]|]. req. ring.
    - intros z. apply cmult; [apply cplus; [apply cconst|apply cmult; [apply cconst|apply cminus; [apply cid|apply cconst]]]|apply cminus; auto].
    - cbv beta. rewrite !HV by lia. req. unfold s. field. lra. }
  assert (J2 : is_RInt (fun z => S2 z * (g2 z - S2 z)) (X m) (X (m + 1)%nat) (S2 (X (m + 1)%nat) * (g1 (X (m + 1)%nat) - S1 (X (m + 1)%nat)) - S2 (X m) * (g1 (X m) - S1 (X m)))).
  { eapply is_RInt_ext; [|exact J]. intros z Hz. rewrite Rmin_left, Rmax_right in Hz by lra. cbv beta. f_equal.
    rewrite (second_line n X S S1 S2 Inc DS1 DS2 HP m z ltac:(lia) ltac:(lra)). unfold s. field. lra. }
  eapply int_eq; [eapply is_RInt_Chasles; [apply IH; lia|exact J2]|]. change plus with Rplus. req. ring.
Qed.
Lemma curvature : RInt (fun z => g2 z ^ 2) (X 0%nat) (X n) = RInt (fun z => S2 z ^ 2) (X 0%nat) (X n) + RInt (fun z => (g2 z - S2 z) ^ 2) (X 0%nat) (X n).
Proof.
  assert (C := cross_term n (le_n n)). rewrite Z0, Zn, !Rmult_0_l, Rminus_0_r in C.
  assert (A := int_val (fun z => S2 z ^ 2) (X 0%nat) (X n) ltac:(intros; now apply cpow)).
  assert (B := int_val (fun z => (g2 z - S2 z) ^ 2) (X 0%nat) (X n) ltac:(intros; apply cpow, cminus; auto)).
  assert (J := int_plus _ _ _ _ _ _ (int_plus _ _ _ _ _ _ A B) (int_scal _ 2 _ _ _ C)).
  apply int_uniq. eapply int_eq; [eapply int_ext; [|exact J]|]; [intros z; cbv beta; ring|]. req. ring.
Qed.
End Curvature.
