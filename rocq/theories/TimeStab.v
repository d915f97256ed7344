(** Algebraically stable Runge-Kutta methods applied to dissipative right-hand sides (Butcher; Burrage). *)
From Coquelicot Require Import Coquelicot.
From Verif Require Import Py PyLemmas Calc DGModel DGSpec DGProofs StabSpec StabProofs Picard ExistProofs TimeModel TimeProofs.
Open Scope R_scope.

(** nonnegative weights and b_i a_ij + b_j a_ji - b_i b_j positive semidefinite *)
Definition algebraically_stable (T : tableau) : Prop :=
  (forall i, (i < rs T)%nat -> 0 <= rb T i) /\
  forall v : nat -> R, 0 <= sumn (rs T) (fun i => sumn (rs T) (fun j => (rb T i * rA T i j + rb T j * rA T j i - rb T i * rb T j) * (v i * v j))).

Section G.
Variable I : Type.
Variable sum : (I -> R) -> R.
Hypothesis sum_plus : forall f g, sum (fun p => f p + g p) = sum f + sum g.
Hypothesis sum_scal : forall k f, sum (fun p => k * f p) = k * sum f.
Hypothesis sum_nonneg : forall f, (forall p, 0 <= f p) -> 0 <= sum f.
Hypothesis sum_ext : forall f g, (forall p, f p = g p) -> sum f = sum g.
Lemma sum_sumn n (f : nat -> I -> R) : sum (fun p => sumn n (fun i => f i p)) = sumn n (fun i => sum (f i)).
Proof.
  induction n as [|n IH]; cbn [sumn].
  - rewrite (sum_ext _ (fun p => 0 * 0)) by (intros; ring). rewrite sum_scal. ring.
  - rewrite sum_plus, IH. reflexivity.
Qed.
(** one step: the norm of the result *)
Lemma butcher T h (d d' : I -> R) (k : nat -> I -> R) : rk_result T h d k d' ->
  sum (fun p => d' p * d' p) = sum (fun p => d p * d p) + 2 * h * sumn (rs T) (fun i => rb T i * sum (fun p => stage T h d k i p * k i p))
   - h * h * sum (fun p => sumn (rs T) (fun i => sumn (rs T) (fun j => (rb T i * rA T i j + rb T j * rA T j i - rb T i * rb T j) * (k i p * k j p)))).
Proof.
  intros H. set (n := rs T).
  transitivity (sum (fun p => d p * d p + (2 * h * sumn n (fun i => rb T i * (stage T h d k i p * k i p))
    + (- (h * h)) * sumn n (fun i => sumn n (fun j => (rb T i * rA T i j + rb T j * rA T j i - rb T i * rb T j) * (k i p * k j p)))))).
  - apply sum_ext. intros p. rewrite (H p). fold n.
    set (S1 := sumn n (fun i => rb T i * k i p)).
    assert (E1 : sumn n (fun i => rb T i * (stage T h d k i p * k i p)) = d p * S1 + h * sumn n (fun i => sumn n (fun j => rb T i * rA T i j * (k i p * k j p)))).
    { unfold S1. rewrite <- !sumn_scal, <- sumn_plus. apply sumn_ext. intros i Hi. unfold stage. fold n.
      replace (sumn n (fun j => rb T i * rA T i j * (k i p * k j p))) with (rb T i * k i p * sumn n (fun j => rA T i j * k j p)); [ring|].
      rewrite <- sumn_scal. apply sumn_ext. intros; ring. }
    assert (E2 : sumn n (fun i => sumn n (fun j => (rb T i * rA T i j + rb T j * rA T j i - rb T i * rb T j) * (k i p * k j p))) =
      2 * sumn n (fun i => sumn n (fun j => rb T i * rA T i j * (k i p * k j p))) - S1 * S1).
    { assert (E3 : sumn n (fun i => sumn n (fun j => rb T j * rA T j i * (k i p * k j p))) = sumn n (fun i => sumn n (fun j => rb T i * rA T i j * (k i p * k j p)))).
      { rewrite sumn_swap. apply sumn_ext. intros i Hi. apply sumn_ext. intros j Hj. ring. }
      assert (E4 : sumn n (fun i => sumn n (fun j => rb T i * rb T j * (k i p * k j p))) = S1 * S1).
      { unfold S1. rewrite <- (sumn_prod n n). apply sumn_ext. intros i Hi. apply sumn_ext. intros j Hj. ring. }
      rewrite <- E4. replace (2 * sumn n (fun i => sumn n (fun j => rb T i * rA T i j * (k i p * k j p)))) with
        (sumn n (fun i => sumn n (fun j => rb T i * rA T i j * (k i p * k j p))) + sumn n (fun i => sumn n (fun j => rb T j * rA T j i * (k i p * k j p)))) by (rewrite E3; ring).
      rewrite <- sumn_plus, <- sumn_minus. apply sumn_ext. intros i Hi. rewrite <- sumn_plus, <- sumn_minus. apply sumn_ext. intros j Hj. ring. }
    rewrite E1, E2. ring.
  - rewrite sum_plus, sum_plus, !sum_scal. rewrite (sum_sumn n (fun i p => rb T i * (stage T h d k i p * k i p))).
    rewrite (sumn_ext n (fun i => sum (fun p => rb T i * (stage T h d k i p * k i p))) (fun i => rb T i * sum (fun p => stage T h d k i p * k i p))) by (intros; apply sum_scal). ring.
Qed.
Variables F F' : R -> (I -> R) -> I -> R.
Variables (t0 t1 kap : R).
(** the right-hand sides pull states together *)
Hypothesis HF : forall t y z, t0 <= t <= t1 -> sum (fun p => (y p - z p) * (F t y p - F' t z p)) <= - kap * sum (fun p => (y p - z p) * (y p - z p)).
Let dist (y z : I -> R) : R := sum (fun p => (y p - z p) * (y p - z p)).
Lemma dist_nonneg y z : 0 <= dist y z.
Proof. apply sum_nonneg. intros p. pose proof (pow2_ge_0 (y p - z p)). nra. Qed.
Lemma stage_minus T h (y z : I -> R) k l i p : stage T h (fun q => y q - z q) (fun j q => k j q - l j q) i p = stage T h y k i p - stage T h z l i p.
Proof.
  unfold stage. replace (sumn (rs T) (fun j => rA T i j * (k j p - l j p))) with (sumn (rs T) (fun j => rA T i j * k j p) - sumn (rs T) (fun j => rA T i j * l j p)); [ring|].
  rewrite <- sumn_minus. apply sumn_ext. intros; ring.
Qed.
Lemma result_minus T h (y z y' z' : I -> R) k l : rk_result T h y k y' -> rk_result T h z l z' ->
  rk_result T h (fun q => y q - z q) (fun j q => k j q - l j q) (fun q => y' q - z' q).
Proof.
  intros A B p. rewrite A, B.
  replace (sumn (rs T) (fun i => rb T i * (k i p - l i p))) with (sumn (rs T) (fun j => rb T j * k j p) - sumn (rs T) (fun j => rb T j * l j p)); [ring|].
  rewrite <- sumn_minus. apply sumn_ext. intros; ring.
Qed.
(** the distance after a step in terms of the slopes and stages *)
Lemma step_dist T t h y z y' z' : rk_step T F t h y y' -> rk_step T F' t h z z' -> 0 <= h -> algebraically_stable T ->
  (forall i, (i < rs T)%nat -> 0 <= rc T i <= 1) -> t0 <= t -> t + h <= t1 ->
  exists u v : nat -> I -> R, dist y' z' <= dist y z - 2 * h * kap * sumn (rs T) (fun i => rb T i * dist (u i) (v i)) /\
   (forall i p, (i < rs T)%nat -> u i p = y p + h * sumn (rs T) (fun j => rA T i j * F (t + rc T j * h) (u j) p)) /\
   (forall i p, (i < rs T)%nat -> v i p = z p + h * sumn (rs T) (fun j => rA T i j * F' (t + rc T j * h) (v j) p)).
Proof.
  intros (k & K & Rk) (l & L & Rl) Hh [Hb HM] Hc Ht Ht'.
  exists (stage T h y k), (stage T h z l). split; [|split].
  - unfold dist at 1. rewrite (butcher T h _ _ _ (result_minus T h y z y' z' k l Rk Rl)).
    assert (Q : 0 <= sum (fun p => sumn (rs T) (fun i => sumn (rs T) (fun j => (rb T i * rA T i j + rb T j * rA T j i - rb T i * rb T j) * ((k i p - l i p) * (k j p - l j p)))))).
    { apply sum_nonneg. intros p. apply (HM (fun i => k i p - l i p)). }
    assert (B : sumn (rs T) (fun i => rb T i * sum (fun p => stage T h (fun q => y q - z q) (fun j q => k j q - l j q) i p * (k i p - l i p))) <=
      sumn (rs T) (fun i => rb T i * (- kap * dist (stage T h y k i) (stage T h z l i)))).
    { apply sumn_le. intros i Hi. apply Rmult_le_compat_l; [auto|]. specialize (Hc i Hi).
      rewrite (sum_ext _ (fun p => (stage T h y k i p - stage T h z l i p) * (F (t + rc T i * h) (stage T h y k i) p - F' (t + rc T i * h) (stage T h z l i) p))).
      - apply HF. assert (0 <= rc T i * h <= h) by nra. lra.
      - intros p. rewrite stage_minus, <- K, <- L by auto. reflexivity. }
    replace (sumn (rs T) (fun i => rb T i * (- kap * dist (stage T h y k i) (stage T h z l i)))) with (- kap * sumn (rs T) (fun i => rb T i * dist (stage T h y k i) (stage T h z l i))) in B
      by (rewrite <- sumn_scal; apply sumn_ext; intros; ring).
    unfold dist at 1. set (X := sumn (rs T) (fun i => rb T i * sum (fun p => stage T h (fun q => y q - z q) (fun j q => k j q - l j q) i p * (k i p - l i p)))) in *.
    set (Y := sumn (rs T) (fun i => rb T i * dist (stage T h y k i) (stage T h z l i))) in *.
    set (W := sum (fun p => sumn (rs T) (fun i => sumn (rs T) (fun j => (rb T i * rA T i j + rb T j * rA T j i - rb T i * rb T j) * ((k i p - l i p) * (k j p - l j p)))))) in *.
    assert (0 <= h * h * W) by (apply Rmult_le_pos; [nra|auto]). assert (2 * h * X <= 2 * h * (- kap * Y)) by (apply Rmult_le_compat_l; lra). lra.
  - intros i p Hi. unfold stage. f_equal. f_equal. apply sumn_ext. intros j Hj. rewrite (K j p Hj). reflexivity.
  - intros i p Hi. unfold stage. f_equal. f_equal. apply sumn_ext. intros j Hj. rewrite (L j p Hj). reflexivity.
Qed.
Theorem run_dist T : algebraically_stable T -> (forall i, (i < rs T)%nat -> 0 <= rc T i <= 1) -> 0 <= kap ->
  forall hs t y z y' z', t0 <= t -> (forall h, In h hs -> 0 <= h) -> t + total hs <= t1 ->
  rk_run T F t y hs y' -> rk_run T F' t z hs z' -> dist y' z' <= dist y z.
Proof.
  intros HA Hc Hk. induction hs as [|h hs IH]; intros t y z y' z' Ht Hh Hs Ry Rz.
  - cbn in Ry, Rz. unfold dist. right. apply sum_ext. intros p. now rewrite Ry, Rz.
  - destruct Ry as (y1 & S1 & R1). destruct Rz as (z1 & S2 & R2). cbn [total fold_right] in Hs.
    assert (H0 : 0 <= h) by (apply Hh; now left).
    assert (P : 0 <= total hs). { clear -Hh. induction hs as [|a hs IH]; cbn; [lra|]. assert (0 <= a) by (apply Hh; right; now left). assert (0 <= total hs); [|unfold total in *; lra]. apply IH. intros x [->|Hx]; apply Hh; [now left|right; now right]. }
    assert (X : t + h + total hs <= t1) by (unfold total in *; cbn [fold_right] in Hs; lra).
    apply (Rle_trans _ (dist y1 z1)).
    + apply (IH (t + h)); auto; try lra. intros x Hx. apply Hh. now right.
    + destruct (step_dist T t h y z y1 z1 S1 S2 H0 HA Hc Ht ltac:(lra)) as (u & v & B & _). 
      assert (0 <= sumn (rs T) (fun i => rb T i * dist (u i) (v i))) by (apply sumn_nonneg; intros i Hi; apply Rmult_le_pos; [now apply (proj1 HA)|apply dist_nonneg]).
      assert (0 <= 2 * h * kap * sumn (rs T) (fun i => rb T i * dist (u i) (v i))) by (apply Rmult_le_pos; [nra|auto]). lra.
Qed.
(** the implicit Euler method damps at every step *)
Lemma implicit_euler_step t h y z y' z' : rk_step implicit_euler F t h y y' -> rk_step implicit_euler F' t h z z' -> 0 <= h -> t0 <= t -> t + h <= t1 ->
  (forall t y z, (forall p, y p = z p) -> forall p, F t y p = F t z p) -> (forall t y z, (forall p, y p = z p) -> forall p, F' t y p = F' t z p) ->
  dist y' z' * (1 + 2 * h * kap) <= dist y z.
Proof.
  intros (k & K & Rk) (l & L & Rl) Hh Ht Ht' EF EF'.
  assert (Ky : forall p, stage implicit_euler h y k 0 p = y' p) by (intros p; rewrite (Rk p); reflexivity).
  assert (Lz : forall p, stage implicit_euler h z l 0 p = z' p) by (intros p; rewrite (Rl p); reflexivity).
  assert (Q : 0 <= sum (fun p => 0 + (0 + (1 * 1 + 1 * 1 - 1 * 1) * ((k 0%nat p - l 0%nat p) * (k 0%nat p - l 0%nat p))))).
  { apply sum_nonneg. intros p. pose proof (pow2_ge_0 (k 0%nat p - l 0%nat p)). nra. }
  assert (B : sum (fun p => stage implicit_euler h (fun q => y q - z q) (fun j q => k j q - l j q) 0 p * (k 0%nat p - l 0%nat p)) <= - kap * dist y' z').
  { rewrite (sum_ext _ (fun p => (y' p - z' p) * (F (t + 1 * h) y' p - F' (t + 1 * h) z' p))); [apply HF; lra|].
    intros p. rewrite stage_minus, Ky, Lz. f_equal. rewrite (K 0%nat p), (L 0%nat p) by (cbn; lia). cbn [rc implicit_euler]. rewrite (EF _ _ _ Ky p), (EF' _ _ _ Lz p). reflexivity. }
  assert (E : dist y' z' = dist y z + 2 * h * (0 + 1 * sum (fun p => stage implicit_euler h (fun q => y q - z q) (fun j q => k j q - l j q) 0 p * (k 0%nat p - l 0%nat p)))
     - h * h * sum (fun p => 0 + (0 + (1 * 1 + 1 * 1 - 1 * 1) * ((k 0%nat p - l 0%nat p) * (k 0%nat p - l 0%nat p)))))
    by exact (butcher implicit_euler h _ _ _ (result_minus implicit_euler h y z y' z' k l Rk Rl)).
  set (W := sum (fun p => 0 + _)) in *. set (X := sum (fun p => stage _ _ _ _ _ _ * _)) in *.
  assert (0 <= h * h * W) by (apply Rmult_le_pos; [nra|auto]). assert (2 * h * X <= 2 * h * (- kap * dist y' z')) by (apply Rmult_le_compat_l; lra). lra.
Qed.
End G.
