(** The tests inside chebyshev_matrix_builder.py (C195). *)
From Verif Require Import Py PyLemmas LeftoverModel ChebTestModel.

Lemma close_zero rtol d : 0 <= rtol < 1 -> d <> 0 -> close rtol 0 d = false.
Proof.
  intros H D. unfold close. rewrite Rleb_false; [reflexivity|]. replace (0 - d) with (- d) by ring. rewrite Rabs_Ropp.
  pose proof (Rabs_pos_lt d D). nra.
Qed.
Lemma allclose_false rtol a d i j : (i < 4)%nat -> (j < 4)%nat -> close rtol (a i j) (d i j) = false -> allclose44 rtol a d = false.
Proof.
  intros Hi Hj F. destruct (allclose44 rtol a d) eqn:E; [|reflexivity]. unfold allclose44 in E. rewrite forallb_forall in E.
  specialize (E i ltac:(apply in_seq; lia)). rewrite forallb_forall in E. specialize (E j ltac:(apply in_seq; lia)). congruence.
Qed.
Lemma no_close rtol v answer : 0 <= rtol < 1 -> entry answer 1 0 <> 0 -> assert_close rtol (with00 v) answer = Err AssertionError.
Proof. intros H D. unfold assert_close. rewrite (allclose_false _ _ _ 1 0); try lia; [reflexivity|]. now apply close_zero. Qed.

(** As the file stands, without the name math, no test of the mass matrix or of J passes for any size; the other three
    fail for the size they are written for and look at nothing for every other size. *)
Theorem C195_as_shipped : forall M N, mass_test false M = Err UnboundLocal /\ J_test false M = Err UnboundLocal /\
  (M = 3%nat -> G_test false M = Err UnboundLocal /\ L_test M = Err AssertionError /\ VV_test M N <> Ok tt) /\
  (M <> 3%nat -> G_test false M = Ok tt /\ L_test M = Ok tt /\ VV_test M N = Ok tt).
Proof.
  intros M N. split; [reflexivity|]. split; [reflexivity|]. split.
  - intros ->. split; [reflexivity|]. split.
    + unfold L_test. cbn [Nat.eqb]. unfold b_L. apply no_close; [lra|]. unfold entry, L_answer. cbn [nth]. lra.
    + unfold VV_test. cbn [Nat.eqb]. destruct (N =? 4)%nat; [|destruct (N =? 0)%nat; discriminate].
      cbn [seq forallb]. rewrite (allclose_false _ _ _ 0 0); try lia; [discriminate|]. unfold b_VV. apply close_zero; [lra|]. unfold entry, VV_answer. cbn [nth]. lra.
  - intros H. apply Nat.eqb_neq in H. unfold G_test, L_test, VV_test. rewrite H. auto.
Qed.
Print Assumptions C195_as_shipped.

(** Importing math does not mend them: with it, each of the five passes exactly for the sizes at which it compares nothing. *)
Theorem C195_with_math : forall M N,
  (mass_test true M = Ok tt <-> M <> 3%nat) /\ (J_test true M = Ok tt <-> M <> 3%nat) /\ (G_test true M = Ok tt <-> M <> 3%nat) /\
  (L_test M = Ok tt <-> M <> 3%nat) /\ (VV_test M N = Ok tt <-> M <> 3%nat) /\
  (M = 3%nat -> mass_test true M = Err AssertionError /\ J_test true M = Err AssertionError /\ G_test true M = Err AssertionError).
Proof.
  intros M N.
  assert (A : mass_test true 3 = Err AssertionError /\ J_test true 3 = Err AssertionError /\ G_test true 3 = Err AssertionError).
  { split; [|split].
    - unfold mass_test, b_mass. cbn [negb bind Nat.eqb]. rewrite no_close; [reflexivity|lra|]. unfold entry, mass_answer1. cbn [nth]. lra.
    - unfold J_test, b_J. cbn [negb bind Nat.eqb]. apply no_close; [lra|]. unfold entry, J_answer. cbn [nth]. lra.
    - unfold G_test, b_G. cbn [negb bind Nat.eqb]. rewrite Reqb_false by lra. cbn [bind]. apply no_close; [lra|]. unfold entry, G_answer. cbn [nth]. lra. }
  destruct A as (A1 & A2 & A3). destruct (C195_as_shipped M N) as (_ & _ & B & C).
  assert (P : M <> 3%nat -> mass_test true M = Ok tt /\ J_test true M = Ok tt /\ G_test true M = Ok tt).
  { intros H. apply Nat.eqb_neq in H. unfold mass_test, J_test, G_test. rewrite H. auto. }
  destruct (Nat.eq_dec M 3) as [E|E].
  - destruct (B E) as (_ & B2 & B3). rewrite B2. subst M. rewrite A1, A2, A3.
    repeat split; try reflexivity; intros; try discriminate; try congruence.
  - destruct (P E) as (-> & -> & ->). destruct (C E) as (_ & -> & ->). repeat split; intros; congruence.
Qed.
Print Assumptions C195_with_math.

(** The first entries the tests of the mass matrix and of J expect are the integrals of r^2 and of r over the cell; the
    class gives these divided by pi times the cell width. *)
Theorem C195_normalisation : forall rL rR m j, rL <> rR -> b_mass true rL rR = Ok m -> b_J true rL rR = Ok j ->
  m 0%nat 0%nat * (PI * (rR - rL)) = (rR ^ 3 - rL ^ 3) / 3 /\ j 0%nat 0%nat * (PI * (rR - rL)) = (rR ^ 2 - rL ^ 2) / 2.
Proof.
  intros rL rR m j H Em Ej. pose proof PI_neq0. unfold b_mass in Em. unfold b_J in Ej. cbn [negb] in *. injection Em as <-. injection Ej as <-. unfold with00. cbn. split; field; auto.
Qed.
Print Assumptions C195_normalisation.
Theorem C195_expected : Rabs (((32349/10000) ^ 3 - (1246/1000) ^ 3) / 3 - entry mass_answer1 0 0) <= 1/10000 /\
  Rabs (((252/10) ^ 3 - 0 ^ 3) / 3 - entry mass_answer2 0 0) <= 1/100 /\ Rabs (((23/10) ^ 2 - (112/10000) ^ 2) / 2 - entry J_answer 0 0) <= 1/100000.
Proof.
  unfold entry, mass_answer1, mass_answer2, J_answer. cbn [nth]. split; [|split]; apply Rabs_le; lra.
Qed.
Print Assumptions C195_expected.

Example C195_example : L_test 3 = Err AssertionError /\ L_test 2 = Ok tt /\ J_test false 7 = Err UnboundLocal.
Proof. split; [|split]; [apply (C195_as_shipped 3 0); reflexivity|reflexivity|reflexivity]. Qed.
