(** Uniqueness for the systems of ExistProofs: two courses with the same rates and the same start are equal. *)
From Coquelicot Require Import Coquelicot.
From Verif Require Import Py PyLemmas Calc Picard ExistProofs StabProofs.
Open Scope R_scope.

Section U.
Variable I : Type.
Variables t0 t1 : R.
Hypothesis Hle : t0 <= t1.

Definition sq (l : list I) (d : I -> R) : R := rsum (map (fun i => d i ^ 2) l).
Lemma sq_nonneg l d : 0 <= sq l d.
Proof. unfold sq. induction l as [|i l IH]; cbn [map rsum fold_right]; [lra|]. fold (rsum (map (fun i => d i ^ 2) l)). pose proof (pow2_ge_0 (d i)). lra. Qed.
Lemma sq_in l d i : In i l -> d i ^ 2 <= sq l d.
Proof.
  unfold sq. induction l as [|j l IH]; [intros []|]. cbn [map rsum fold_right]. fold (rsum (map (fun i => d i ^ 2) l)).
  intros [->|H]; [pose proof (sq_nonneg l d); unfold sq in *; lra|]. specialize (IH H). pose proof (pow2_ge_0 (d j)). lra.
Qed.
Lemma sq_abs l d i : In i l -> Rabs (d i) <= sqrt (sq l d).
Proof. intros H. rewrite <- sqrt_Rsqr_abs. apply sqrt_le_1_alt. unfold Rsqr. pose proof (sq_in l d i H). lra. Qed.
Lemma sq_dt l (x : I -> R -> R) (dx : I -> R) t : (forall i, In i l -> is_derive (x i) t (dx i)) ->
  is_derive (fun s => sq l (fun i => x i s)) t (rsum (map (fun i => 2 * x i t * dx i) l)).
Proof.
  unfold sq. induction l as [|i l IH]; intros H; cbn [map rsum fold_right]; [apply dd_const|].
  apply dd_plus; [|apply IH; intros; apply H; now right]. apply (is_derive_ext (fun s => x i s * x i s)); [intros; simpl; ring|]. eapply dd_eq; [apply dd_mult; apply H; now left|]. ring.
Qed.
Lemma rsum_bound (l : list I) (f : I -> R) B : (forall i, In i l -> f i <= B) -> rsum (map f l) <= INR (length l) * B.
Proof.
  induction l as [|i l IH]; intros H; cbn [map length]; [simpl; lra|]. rewrite S_INR. cbn [rsum fold_right]. fold (rsum (map f l)).
  specialize (IH ltac:(intros; apply H; now right)). specialize (H i (or_introl eq_refl)). lra.
Qed.

Theorem unique_fin (l : list I) (F : R -> (I -> R) -> I -> R) (x y : I -> R -> R) :
  (forall i, In i l -> LF I t0 t1 (fun t z => F t z i)) ->
  (forall i, In i l \/ forall t, t0 <= t <= t1 -> x i t = y i t) ->
  (forall t i, t0 <= t <= t1 -> In i l -> is_derive (x i) t (F t (fun j => x j t) i)) ->
  (forall t i, t0 <= t <= t1 -> In i l -> is_derive (y i) t (F t (fun j => y j t) i)) ->
  (forall i, In i l -> x i t0 = y i t0) ->
  forall t i, t0 <= t <= t1 -> In i l -> x i t = y i t.
Proof.
  intros HF HO HX HY H0 t i Ht Hi.
  assert (HK : exists K, 0 <= K /\ forall i, In i l -> forall t x y r, t0 <= t <= t1 -> 0 <= r -> (forall i, Rabs (x i - y i) <= r) -> Rabs (F t x i - F t y i) <= K * r).
  { clear - HF. induction l as [|a l' IH]; [exists 0; split; [lra|intros i []]|].
    destruct IH as (K & P & H). { intros i Hi. apply HF. now right. }
    destruct (HF a (or_introl eq_refl)) as [_ (K2 & P2 & H2)]. exists (K + K2). split; [lra|].
    intros i [->|Hi] t x y r Ht Hr Hx.
    - specialize (H2 t x y r Ht Hr Hx). pose proof (Rmult_le_pos _ _ P Hr). lra.
    - specialize (H i Hi t x y r Ht Hr Hx). pose proof (Rmult_le_pos _ _ P2 Hr). lra. }
  destruct HK as (K & PK & HK).
  pose (G := fun s => sq l (fun j => x j s - y j s)).
  assert (Z : G t <= exp (- - (INR (length l) * (2 * K)) * (t - t0)) * G t0).
  { apply decay; [lra|]. intros s Hs. eexists. split.
    - apply (sq_dt l (fun j s => x j s - y j s) (fun j => F s (fun k => x k s) j - F s (fun k => y k s) j)). intros j Hj.
      apply dd_minus; [apply HX|apply HY]; auto; lra.
    - cbv beta. rewrite Ropp_involutive, Rmult_assoc. apply rsum_bound. intros j Hj.
      pose proof (sq_nonneg l (fun j => x j s - y j s)) as P0. pose proof (sqrt_pos (sq l (fun j => x j s - y j s))) as P1.
      pose proof (sq_abs l (fun j => x j s - y j s) j Hj) as B1. cbv beta in B1.
      assert (B2 : Rabs (F s (fun k => x k s) j - F s (fun k => y k s) j) <= K * sqrt (sq l (fun j => x j s - y j s))).
      { apply HK; auto; [lra|]. intros k. destruct (HO k) as [Hk|Hk].
        - exact (sq_abs l (fun j => x j s - y j s) k Hk).
        - rewrite Hk by lra. rewrite Rminus_eq_0, Rabs_R0. auto. }
      apply Rle_trans with (2 * (Rabs (x j s - y j s) * Rabs (F s (fun k => x k s) j - F s (fun k => y k s) j))).
      + rewrite <- Rabs_mult. pose proof (Rle_abs ((x j s - y j s) * (F s (fun k => x k s) j - F s (fun k => y k s) j))). lra.
      + unfold G. rewrite <- (sqrt_sqrt _ P0) at 1. set (r := sqrt _) in *.
        apply Rle_trans with (2 * (r * (K * r))); [|right; ring]. apply Rmult_le_compat_l; [lra|]. apply Rmult_le_compat; auto using Rabs_pos. }
  assert (G0 : G t0 = 0).
  { unfold G, sq. clear - H0. induction l as [|a l' IH]; cbn [map rsum fold_right]; [reflexivity|]. fold (rsum (map (fun j => (x j t0 - y j t0) ^ 2) l')).
    rewrite IH by (intros; apply H0; now right). rewrite (H0 a) by now left. ring. }
  rewrite G0, Rmult_0_r in Z. pose proof (sq_in l (fun j => x j t - y j t) i Hi) as Q. cbv beta in Q. unfold G in Z. 
  assert (x i t - y i t = 0); [|lra]. apply Rsqr_0_uniq. unfold Rsqr. pose proof (pow2_ge_0 (x i t - y i t)). lra.
Qed.
End U.
