(** Systems of linear equations with a positive definite matrix: elimination solves them. *)
From Coquelicot Require Import Coquelicot.
From Verif Require Import Py PyLemmas Calc DGModel Picard ExistProofs.

(** the quadratic form of the leading n x n block *)
Definition quad (n : nat) (A : nat -> nat -> R) (x : nat -> R) : R := sumn n (fun i => x i * dotv n A x i).
Definition pdef (n : nat) (A : nat -> nat -> R) : Prop := forall x, (exists i, (i < n)%nat /\ x i <> 0) -> 0 < quad n A x.

(** elimination of the last unknown *)
Definition schur (n : nat) (A : nat -> nat -> R) : nat -> nat -> R := fun i j => A i j - A i n * A n j / A n n.
Fixpoint elim (n : nat) (A : nat -> nat -> R) (y : nat -> R) : nat -> R :=
  match n with
  | O => fun _ => 0
  | S m => let x := elim m (schur m A) (fun i => y i - A i m * y m / A m m) in
           fun j => if (j <? m)%nat then x j else (y m - dotv m A x m) / A m m
  end.
(** columns of the inverse *)
Definition unit_vec (k i : nat) : R := if (i =? k)%nat then 1 else 0.
Definition ginv (n : nat) (A : nat -> nat -> R) (j k : nat) : R := elim n A (unit_vec k) j.

Lemma pdef_diag n A k : pdef n A -> (k < n)%nat -> 0 < A k k.
Proof.
  intros P Hk.
  assert (Q : quad n A (unit_vec k) = A k k).
  { unfold quad. rewrite (sumn_single n _ k); [|auto|].
    - unfold dotv. rewrite (sumn_single n _ k); [|auto|].
      + unfold unit_vec. rewrite Nat.eqb_refl. ring.
      + intros i Hi N. unfold unit_vec. rewrite (proj2 (Nat.eqb_neq i k) N). ring.
    - intros i Hi N. unfold unit_vec at 1. rewrite (proj2 (Nat.eqb_neq i k) N). ring. }
  rewrite <- Q. apply P. exists k. split; auto. unfold unit_vec. rewrite Nat.eqb_refl. lra.
Qed.
Definition ext (n : nat) (x : nat -> R) (z : R) : nat -> R := fun j => if (j <? n)%nat then x j else z.
Lemma ext_lt n x z j : (j < n)%nat -> ext n x z j = x j.
Proof. intros. unfold ext. destruct (Nat.ltb_spec j n); [auto|lia]. Qed.
Lemma ext_n n x z : ext n x z n = z.
Proof. unfold ext. now rewrite Nat.ltb_irrefl. Qed.
Lemma dotv_ext_S n A x z i : dotv (S n) A (ext n x z) i = dotv n A x i + A i n * z.
Proof.
  unfold dotv. cbn [sumn]. rewrite ext_n. f_equal. apply sumn_ext. intros j Hj. now rewrite ext_lt.
Qed.
Lemma quad_ext_S n A x z : quad (S n) A (ext n x z) = quad n A x + sumn n (fun i => x i * A i n) * z + z * dotv n A x n + A n n * z ^ 2.
Proof.
  unfold quad. cbn [sumn]. rewrite ext_n, dotv_ext_S.
  rewrite (sumn_ext n (fun i => ext n x z i * dotv (S n) A (ext n x z) i) (fun i => x i * dotv n A x i + x i * A i n * z)).
  2: { intros i Hi. rewrite ext_lt, dotv_ext_S by auto. ring. }
  rewrite sumn_plus, sumn_scal_r. ring.
Qed.
Lemma dotv_schur n A x i : dotv n (schur n A) x i = dotv n A x i - A i n / A n n * dotv n A x n.
Proof.
  unfold dotv, schur. rewrite <- sumn_scal, <- sumn_minus. apply sumn_ext. intros j Hj. unfold Rdiv. ring.
Qed.
Lemma pdef_schur n A : pdef (S n) A -> pdef n (schur n A).
Proof.
  intros P x (i & Hi & Hx). pose proof (pdef_diag _ _ n P ltac:(lia)) as D.
  specialize (P (ext n x (- dotv n A x n / A n n))). rewrite quad_ext_S in P.
  replace (quad n (schur n A) x) with (quad n A x - sumn n (fun i => x i * A i n) * (dotv n A x n / A n n)).
  - assert (Q : 0 < quad n A x + sumn n (fun i => x i * A i n) * (- dotv n A x n / A n n) + - dotv n A x n / A n n * dotv n A x n + A n n * (- dotv n A x n / A n n) ^ 2).
    { apply P. exists i. split; [lia|]. now rewrite ext_lt. }
    replace (_ + A n n * (- dotv n A x n / A n n) ^ 2) with (quad n A x - sumn n (fun i => x i * A i n) * (dotv n A x n / A n n)) in Q by (field; lra).
    exact Q.
  - unfold quad. rewrite <- sumn_scal_r, <- sumn_minus. apply sumn_ext. intros k Hk. rewrite dotv_schur. unfold Rdiv. ring.
Qed.
Lemma elim_S m A y : elim (S m) A y = ext m (elim m (schur m A) (fun i => y i - A i m * y m / A m m)) ((y m - dotv m A (elim m (schur m A) (fun i => y i - A i m * y m / A m m)) m) / A m m).
Proof. reflexivity. Qed.
Theorem elim_solves n : forall A y i, pdef n A -> (i < n)%nat -> dotv n A (elim n A y) i = y i.
Proof.
  induction n as [|m IH]; intros A y i P Hi; [lia|].
  pose proof (pdef_diag _ _ m P ltac:(lia)) as D. rewrite elim_S, dotv_ext_S.
  pose (x := elim m (schur m A) (fun i => y i - A i m * y m / A m m)). fold x.
  destruct (Nat.eq_dec i m) as [->|N]; [field; lra|].
  pose proof (IH (schur m A) (fun i => y i - A i m * y m / A m m) i (pdef_schur m A P) ltac:(lia)) as Q. fold x in Q. rewrite dotv_schur in Q. cbv beta in Q.
  replace (y i) with (dotv m A x i - A i m / A m m * dotv m A x m + A i m * y m / A m m) by lra. field. lra.
Qed.
(** at most one solution *)
Theorem pdef_inj n A x : pdef n A -> (forall i, (i < n)%nat -> dotv n A x i = 0) -> forall i, (i < n)%nat -> x i = 0.
Proof.
  intros P H i Hi. destruct (Req_dec (x i) 0) as [|N]; auto. exfalso.
  assert (Q : 0 < quad n A x) by (apply P; eauto).
  unfold quad in Q. rewrite sumn_zero in Q; [lra|]. intros k Hk. rewrite H by auto. ring.
Qed.
Lemma dotv_minus n A x y i : dotv n A (fun j => x j - y j) i = dotv n A x i - dotv n A y i.
Proof. unfold dotv. rewrite <- sumn_minus. apply sumn_ext. intros; ring. Qed.
Theorem pdef_unique n A x y : pdef n A -> (forall i, (i < n)%nat -> dotv n A x i = dotv n A y i) -> forall i, (i < n)%nat -> x i = y i.
Proof.
  intros P H i Hi. assert (Z : x i - y i = 0); [|lra].
  apply (pdef_inj n A (fun j => x j - y j) P); auto. intros k Hk. rewrite dotv_minus, H by auto. ring.
Qed.
Lemma dotv_unit n x i : (i < n)%nat -> sumn n (fun k => unit_vec k i * x k) = x i.
Proof.
  intros Hi. rewrite (sumn_single n _ i); auto.
  - unfold unit_vec. rewrite Nat.eqb_refl. ring.
  - intros k Hk N. unfold unit_vec. destruct (Nat.eqb_spec i k); [congruence|ring].
Qed.
Theorem ginv_right n A x i : pdef n A -> (i < n)%nat -> dotv n A (fun j => dotv n (ginv n A) x j) i = x i.
Proof.
  intros P Hi. unfold dotv at 1. rewrite (sumn_ext n _ (fun j => sumn n (fun k => A i j * ginv n A j k * x k))).
  2: { intros j Hj. unfold dotv. rewrite <- sumn_scal. apply sumn_ext. intros; ring. }
  rewrite sumn_swap. rewrite (sumn_ext n _ (fun k => unit_vec k i * x k)).
  2: { intros k Hk. rewrite sumn_scal_r. f_equal. apply (elim_solves n A (unit_vec k) i P Hi). }
  now apply dotv_unit.
Qed.
Theorem ginv_left n A x i : pdef n A -> (i < n)%nat -> dotv n (ginv n A) (fun j => dotv n A x j) i = x i.
Proof.
  intros P Hi. apply (pdef_unique n A _ x P); auto. intros k Hk. now rewrite ginv_right.
Qed.

(** the solution depends continuously on matrix and right-hand side *)
Section Cont.
Variables (t0 t1 : R).
Hypothesis Hle : t0 <= t1.
Notation Cc := (Cc t0 t1).
Lemma elim_Cc n : forall (A : R -> nat -> nat -> R) (y : R -> nat -> R),
  (forall t, t0 <= t <= t1 -> pdef n (A t)) -> (forall i j, (i < n)%nat -> (j < n)%nat -> Cc (fun t => A t i j)) -> (forall i, (i < n)%nat -> Cc (fun t => y t i)) ->
  forall j, Cc (fun t => elim n (A t) (y t) j).
Proof.
  induction n as [|m IH]; intros A y P HA Hy j; [exact (Cc_const t0 t1 0)|].
  assert (D : forall t, t0 <= t <= t1 -> A t m m <> 0) by (intros t Ht; pose proof (pdef_diag _ _ m (P t Ht) ltac:(lia)); lra).
  assert (X : forall j, Cc (fun t => elim m (schur m (A t)) (fun i => y t i - A t i m * y t m / A t m m) j)).
  { intros k. apply (IH (fun t => schur m (A t)) (fun t i => y t i - A t i m * y t m / A t m m)).
    - intros t Ht. apply pdef_schur. auto.
    - intros i l Hi Hl. unfold schur. apply Cc_minus; [apply HA; lia|]. apply Cc_div; auto. apply Cc_mult; apply HA; lia.
    - intros i Hi. apply Cc_minus; [apply Hy; lia|]. apply Cc_div; auto. apply Cc_mult; [apply HA; lia|apply Hy; lia]. }
  cbn [elim]. destruct (j <? m)%nat; [apply X|].
  apply Cc_div; auto. apply Cc_minus; [apply Hy; lia|].
  unfold dotv. apply (Cc_sumn t0 t1 m (fun i t => A t m i * elim m (schur m (A t)) (fun i => y t i - A t i m * y t m / A t m m) i)).
  intros i Hi. apply Cc_mult; [apply HA; lia|apply X].
Qed.
Lemma ginv_Cc n (A : R -> nat -> nat -> R) j k : (forall t, t0 <= t <= t1 -> pdef n (A t)) -> (forall i j, (i < n)%nat -> (j < n)%nat -> Cc (fun t => A t i j)) ->
  Cc (fun t => ginv n (A t) j k).
Proof. intros P HA. apply elim_Cc; auto. intros. apply Cc_const. Qed.
End Cont.
