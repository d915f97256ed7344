(** C157: the worked examples and the test of the splines.  C158: accuracy of the splines. *)
From Coquelicot Require Import Coquelicot.
From Verif Require Import Py PyLemmas Calc FuncModel SplineModel SplineTestModel GaussProofs SplineProofs SplineShape SplineThms SplineErr SelfTestThms.

(* ---------------------------------------------------------------- C157 *)
(** The first example is the system that the class sets up for its points. *)
Theorem C157_first_example : spline_system (map fst points_4) (map snd points_4) = Ok mcclarren_spline.
Proof. cbv -[set4 set1 Rmult Rdiv pow PI IZR Rinv Ropp]. reflexivity. Qed.
Print Assumptions C157_first_example.
Lemma cubic_of_system x y N Ab : spline_system x y = Ok Ab -> (4 * (length y - 1) = N)%nat -> cubic_spline x y = GaussElim N (fst Ab) (snd Ab).
Proof. intros H <-. unfold cubic_spline. rewrite H. reflexivity. Qed.
(** So it is solved, by the natural spline through the points. *)
Theorem C157_first_example_solved : exists coef S,
  GaussElim 16 (fst mcclarren_spline) (snd mcclarren_spline) = Ok coef /\
  natural_spline 4 (fun k => nth k (map fst points_4) 0) (fun k => nth k (map snd points_4) 0) S /\
  forall x, 0 <= x <= PI * 2 -> eval_spline (map fst points_4) 4 coef x = Ok (S x).
Proof.
  assert (P := PI_RGT_0).
  destruct (C102_natural_spline 4 (map fst points_4) (map snd points_4)) as (coef & S & E & N & V & _).
  1-3: cbn; lia.
  { intros [|[|[|[|k]]]] Hk; [| | | |lia]; cbn [nth map fst points_4 Nat.add]; lra. }
  exists coef, S. rewrite (cubic_of_system _ _ 16 _ C157_first_example eq_refl) in E.
  split; [exact E|]. split; [exact N|]. intros x Hx. apply V. cbn [nth map fst points_4]. lra.
Qed.
Print Assumptions C157_first_example_solved.

Ltac rows H :=
  let go i := (let E := fresh "E" in assert (E := H i ltac:(lia)); cbv -[Rmult Rdiv Rplus Ropp Rinv pow PI IZR] in E) in
  go 0%nat; go 1%nat; go 2%nat; go 3%nat; go 4%nat; go 5%nat; go 6%nat; go 7%nat; go 8%nat; go 9%nat;
  go 10%nat; go 11%nat; go 12%nat; go 13%nat; go 14%nat; go 15%nat; go 16%nat; go 17%nat; go 18%nat; go 19%nat.
Lemma second_nonsingular : nonsingular 20 (fst mcclarren_spline_2).
Proof.
  intros c H. rows H. assert (P := PI_RGT_0). clear H.
  apply (f_equal (Rmult PI)) in E9, E10, E11, E12. apply (f_equal (Rmult (PI ^ 2))) in E13, E14, E15, E16, E17, E18.
  assert (Z1 : forall k x, x * PI ^ k = 0 -> x = 0) by (intros k x Hx; apply Rmult_integral in Hx; destruct Hx as [|Hx]; auto; exfalso; revert Hx; apply pow_nonzero; lra).
  intros j Hj. destruct j as [|[|[|[|[|[|[|[|[|[|[|[|[|[|[|[|[|[|[|[|j]]]]]]]]]]]]]]]]]]]]; [| | | | | | | | | | | | | | | | | | | | lia].
  - apply (Z1 0%nat). lra.
  - apply (Z1 1%nat). lra.
  - apply (Z1 2%nat). lra.
  - apply (Z1 3%nat). lra.
  - apply (Z1 0%nat). lra.
  - apply (Z1 1%nat). lra.
  - apply (Z1 2%nat). lra.
  - apply (Z1 3%nat). lra.
  - apply (Z1 0%nat). lra.
  - apply (Z1 1%nat). lra.
  - apply (Z1 2%nat). lra.
  - apply (Z1 3%nat). lra.
  - apply (Z1 0%nat). lra.
  - apply (Z1 1%nat). lra.
  - apply (Z1 2%nat). lra.
  - apply (Z1 3%nat). lra.
  - apply (Z1 0%nat). lra.
  - apply (Z1 1%nat). lra.
  - apply (Z1 2%nat). lra.
  - apply (Z1 3%nat). lra.
Qed.
(** The second example sets up a system that can be solved too, but two of its rows are about the wrong pieces (329-337):
    the result goes through the points with matching slopes and its second derivative jumps at the fourth and the fifth
    point. *)
Theorem C157_second_example_refuted : exists coef,
  GaussElim 20 (fst mcclarren_spline_2) (snd mcclarren_spline_2) = Ok coef /\
  (forall k, (k < 5)%nat -> piece coef k (nth k (map fst points_5) 0) = nth k (map snd points_5) 0 /\
                            piece coef k (nth (k + 1) (map fst points_5) 0) = nth (k + 1) (map snd points_5) 0) /\
  (forall k, (k < 4)%nat -> piece1 coef k (nth (k + 1) (map fst points_5) 0) = piece1 coef (k + 1) (nth (k + 1) (map fst points_5) 0)) /\
  piece2 coef 2 (PI * 1.5) - piece2 coef 3 (PI * 1.5) = 12 / PI ^ 2 /\
  piece2 coef 3 (PI * 2) - piece2 coef 4 (PI * 2) = 48 / PI ^ 2.
Proof.
  destruct (gauss_complete 20 _ (snd mcclarren_spline_2) second_nonsingular) as [c G]. exists c. split; [exact G|].
  apply gauss_sound in G. destruct G as [H _]. unfold solves in H. rows H. assert (P := PI_RGT_0). clear H.
  split; [|split; [|split]].
  - intros [|[|[|[|[|k]]]]] Hk; [| | | | |lia]; unfold piece; cbn [nth map fst snd points_5 Nat.add Nat.mul]; split; lra.
  - intros [|[|[|[|k]]]] Hk; [| | | |lia]; unfold piece1; cbn [nth map fst snd points_5 Nat.add Nat.mul]; lra.
  - apply (f_equal (Rmult PI)) in E9, E10, E11, E12. apply (f_equal (Rmult (PI ^ 2))) in E13, E14, E15, E16, E17, E18.
    apply (Rmult_eq_reg_l (PI ^ 2)); [|apply pow_nonzero; lra]. replace (PI ^ 2 * (12 / PI ^ 2)) with 12 by (field; lra).
    unfold piece2. cbn [Nat.add Nat.mul]. lra.
  - apply (f_equal (Rmult PI)) in E9, E10, E11, E12. apply (f_equal (Rmult (PI ^ 2))) in E13, E14, E15, E16, E17, E18.
    apply (Rmult_eq_reg_l (PI ^ 2)); [|apply pow_nonzero; lra]. replace (PI ^ 2 * (48 / PI ^ 2)) with 48 by (field; lra).
    unfold piece2. cbn [Nat.add Nat.mul]. lra.
Qed.
Print Assumptions C157_second_example_refuted.

(* ---------------------------------------------------------------- C158 *)
(** Among all smooth curves through the points the spline bends least. *)
Theorem C158_least_curvature : forall n datax datay, (1 <= n)%nat -> length datax = (n + 1)%nat -> length datay = (n + 1)%nat ->
  (forall k, (k < n)%nat -> nth k datax 0 < nth (k + 1) datax 0) ->
  exists coef S S1 S2, cubic_spline datax datay = Ok coef /\
    (forall x, nth 0 datax 0 <= x <= nth n datax 0 -> eval_spline datax n coef x = Ok (S x)) /\
    (forall x, is_derive S x (S1 x)) /\ (forall x, is_derive S1 x (S2 x)) /\ (forall x, continuous S2 x) /\
    forall g g1 g2, (forall x, is_derive g x (g1 x)) -> (forall x, is_derive g1 x (g2 x)) -> (forall x, continuous g2 x) ->
      (forall k, (k <= n)%nat -> g (nth k datax 0) = nth k datay 0) ->
      RInt (fun x => g2 x ^ 2) (nth 0 datax 0) (nth n datax 0) =
        RInt (fun x => S2 x ^ 2) (nth 0 datax 0) (nth n datax 0) + RInt (fun x => (g2 x - S2 x) ^ 2) (nth 0 datax 0) (nth n datax 0) /\
      RInt (fun x => S2 x ^ 2) (nth 0 datax 0) (nth n datax 0) <= RInt (fun x => g2 x ^ 2) (nth 0 datax 0) (nth n datax 0).
Proof.
  intros n datax datay Hn HX HY Inc. destruct (C102_natural_spline n datax datay Hn HX HY Inc) as (coef & S & E & (S1 & S2 & D1 & D2 & C2 & V & P & Z) & Ev & _).
  exists coef, S, S1, S2. repeat (split; [assumption|]). intros g g1 g2 G1 G2 CG HV.
  assert (K := curvature n (fun k => nth k datax 0) S S1 S2 g g1 g2 Inc D1 D2 C2 P (Z _ (or_introl (Rle_refl _))) (Z _ (or_intror (Rle_refl _))) G1 G2 CG ltac:(intros k Hk; cbv beta; rewrite V, HV; auto)).
  cbv beta in K. split; [exact K|]. rewrite K.
  assert (L := knots_le datax n Hn Inc 0 n ltac:(lia)). cbv beta in L.
  assert (0 <= RInt (fun x => (g2 x - S2 x) ^ 2) (nth 0 datax 0) (nth n datax 0)); [|lra].
  apply RInt_ge_0; [exact L|apply ex_int; intros; apply cpow, cminus; auto|intros; apply pow2_ge_0].
Qed.
Print Assumptions C158_least_curvature.
(** The error in terms of the second derivative: how far it is from straight lines between the knots, and its size at the
    two ends, where the spline has none. *)
Theorem C158_error : forall n datax g g1 g2 R0, (1 <= n)%nat -> length datax = (n + 1)%nat ->
  (forall k, (k < n)%nat -> nth k datax 0 < nth (k + 1) datax 0) ->
  (forall x, is_derive g x (g1 x)) -> (forall x, is_derive g1 x (g2 x)) -> (forall x, continuous g2 x) ->
  (forall k z, (k < n)%nat -> nth k datax 0 <= z <= nth (k + 1) datax 0 ->
     Rabs (g2 z - (g2 (nth k datax 0) + (g2 (nth (k + 1) datax 0) - g2 (nth k datax 0)) * ((z - nth k datax 0) / (nth (k + 1) datax 0 - nth k datax 0)))) <= R0) ->
  exists coef, cubic_spline datax (map g datax) = Ok coef /\
  forall k x, (k < n)%nat -> nth k datax 0 <= x <= nth (k + 1) datax 0 -> exists v, eval_spline datax n coef x = Ok v /\
    Rabs (v - g x) <= (R0 + Rmax (3 * R0) (Rmax (Rabs (g2 (nth 0 datax 0))) (Rabs (g2 (nth n datax 0))))) * (nth (k + 1) datax 0 - nth k datax 0) ^ 2 / 8.
Proof.
  intros n datax g g1 g2 R0 Hn HX Inc G1 G2 CG HR.
  destruct (C102_natural_spline n datax (map g datax) Hn HX ltac:(now rewrite map_length) Inc) as (coef & S & E & (S1 & S2 & D1 & D2 & C2 & V & P & Z) & Ev & _).
  exists coef. split; [exact E|]. intros k x Hk Hx. exists (S x). split.
  { apply Ev. assert (L1 := knots_le datax n Hn Inc 0 k ltac:(lia)). assert (L2 := knots_le datax n Hn Inc (k + 1) n ltac:(lia)). cbv beta in *. lra. }
  rewrite Rabs_minus_sym.
  apply (error_bound n (fun k => nth k datax 0) S S1 S2 g g1 g2 Hn Inc D1 D2 C2 P (Z _ (or_introl (Rle_refl _))) (Z _ (or_intror (Rle_refl _))) G1 G2 CG); auto.
  intros j Hj. cbv beta. rewrite V by auto. assert (Hj' : (j < length (map g datax))%nat) by (assert (L : length (map g datax) = length datax) by apply (map_length g datax); rewrite L; clear - Hj HX; lia).
  rewrite (nth_indep _ 0 (g 0) Hj'). apply map_nth.
Qed.
Print Assumptions C158_error.
Theorem C158_second_order : forall n datax g g1 g2 h K, (1 <= n)%nat -> length datax = (n + 1)%nat ->
  (forall k, (k < n)%nat -> 0 < nth (k + 1) datax 0 - nth k datax 0 <= h) ->
  (forall x, is_derive g x (g1 x)) -> (forall x, is_derive g1 x (g2 x)) -> (forall x, continuous g2 x) ->
  (forall x, nth 0 datax 0 <= x <= nth n datax 0 -> Rabs (g2 x) <= K) ->
  exists coef, cubic_spline datax (map g datax) = Ok coef /\
  forall x, nth 0 datax 0 <= x <= nth n datax 0 -> exists v, eval_spline datax n coef x = Ok v /\ Rabs (v - g x) <= K * h ^ 2.
Proof.
  intros n datax g g1 g2 h K Hn HX Inc G1 G2 CG HK.
  assert (Inc' : forall k, (k < n)%nat -> nth k datax 0 < nth (k + 1) datax 0) by (intros k Hk; specialize (Inc k Hk); lra).
  assert (Le := knots_le datax n Hn Inc'). cbv beta in Le.
  assert (In : forall k, (k <= n)%nat -> Rabs (g2 (nth k datax 0)) <= K) by (intros k Hk; apply HK; split; apply Le; lia).
  assert (K0 : 0 <= K) by (eapply Rle_trans; [apply Rabs_pos|apply (In 0%nat); lia]).
  destruct (C158_error n datax g g1 g2 (2 * K) Hn HX Inc' G1 G2 CG) as (coef & E & H).
  { intros k z Hk Hz. assert (A := In k ltac:(lia)). assert (B := In (k + 1)%nat ltac:(lia)).
    assert (C := HK z). specialize (C ltac:(assert (L1 := Le 0%nat k ltac:(lia)); assert (L2 := Le (k + 1)%nat n ltac:(lia)); lra)). specialize (Inc' k Hk).
    set (w := (z - nth k datax 0) / (nth (k + 1) datax 0 - nth k datax 0)).
    assert (W : 0 <= w <= 1). { unfold w. split; [apply Rmult_le_pos; [lra|left; apply Rinv_0_lt_compat; lra]|]. apply (Rmult_le_reg_r (nth (k + 1) datax 0 - nth k datax 0)); [lra|]. unfold Rdiv. rewrite Rmult_assoc, Rinv_l by lra. lra. }
    apply Rabs_le_between in A. apply Rabs_le_between in B. apply Rabs_le_between in C. apply Rabs_le.
    assert ((1 - w) * g2 (nth k datax 0) <= (1 - w) * K) by (apply Rmult_le_compat_l; lra). assert (w * g2 (nth (k + 1) datax 0) <= w * K) by (apply Rmult_le_compat_l; lra).
    assert ((1 - w) * - K <= (1 - w) * g2 (nth k datax 0)) by (apply Rmult_le_compat_l; lra). assert (w * - K <= w * g2 (nth (k + 1) datax 0)) by (apply Rmult_le_compat_l; lra). lra. }
  exists coef. split; [exact E|]. intros x Hx. destruct (find_piece datax n Hn Inc' x Hx) as (k & Hk & Hxk). destruct (H k x Hk Hxk) as (v & Ev & B). exists v. split; [exact Ev|].
  eapply Rle_trans; [exact B|]. destruct (Inc k Hk) as [P1 P2]. set (d := nth (k + 1) datax 0 - nth k datax 0) in *.
  assert (d ^ 2 <= h ^ 2) by (apply pow_incr; lra).
  assert (M : Rmax (3 * (2 * K)) (Rmax (Rabs (g2 (nth 0 datax 0))) (Rabs (g2 (nth n datax 0)))) <= 6 * K).
  { assert (A := In 0%nat ltac:(lia)). assert (C := In n ltac:(lia)). apply Rmax_lub; [lra|]. apply Rmax_lub; lra. }
  set (m := Rmax (3 * (2 * K)) _) in *.
  assert (0 <= d ^ 2) by apply pow2_ge_0.
  apply Rle_trans with ((8 * K) * (d ^ 2 / 8)); [|replace (8 * K * (d ^ 2 / 8)) with (K * d ^ 2) by field; apply Rmult_le_compat_l; lra].
  replace ((2 * K + m) * d ^ 2 / 8) with ((2 * K + m) * (d ^ 2 / 8)) by field. apply Rmult_le_compat_r; lra.
Qed.
Print Assumptions C158_second_order.
Theorem C158_fourth_order : forall n datax g g1 g2 g3 g4 h K, (1 <= n)%nat -> length datax = (n + 1)%nat ->
  (forall k, (k < n)%nat -> 0 < nth (k + 1) datax 0 - nth k datax 0 <= h) ->
  (forall x, is_derive g x (g1 x)) -> (forall x, is_derive g1 x (g2 x)) -> (forall x, is_derive g2 x (g3 x)) -> (forall x, is_derive g3 x (g4 x)) ->
  (forall x, nth 0 datax 0 <= x <= nth n datax 0 -> Rabs (g4 x) <= K) ->
  g2 (nth 0 datax 0) = 0 -> g2 (nth n datax 0) = 0 ->
  exists coef, cubic_spline datax (map g datax) = Ok coef /\
  forall x, nth 0 datax 0 <= x <= nth n datax 0 -> exists v, eval_spline datax n coef x = Ok v /\ Rabs (v - g x) <= K * h ^ 4 / 16.
Proof.
  intros n datax g g1 g2 g3 g4 h K Hn HX Inc G1 G2 G3 G4 HK Z0 Zn.
  assert (Inc' : forall k, (k < n)%nat -> nth k datax 0 < nth (k + 1) datax 0) by (intros k Hk; specialize (Inc k Hk); lra).
  assert (Le := knots_le datax n Hn Inc'). cbv beta in Le.
  assert (K0 : 0 <= K) by (eapply Rle_trans; [apply Rabs_pos|apply (HK (nth 0 datax 0)); split; [lra|apply Le; lia]]).
  destruct (C158_error n datax g g1 g2 (K * h ^ 2 / 8) Hn HX Inc' G1 G2 (cont_of_derive g2 g3 G3)) as (coef & E & H).
  { intros k z Hk Hz. destruct (Inc k Hk) as [P1 P2]. set (a := nth k datax 0) in *. set (b := nth (k + 1) datax 0) in *.
    set (s := (g2 b - g2 a) / (b - a)).
    assert (B := two_zeros (fun z => g2 z - (g2 a + s * (z - a))) (fun z => g3 z - s) g4 a b K z).
    cbv beta in B. replace (g2 z - (g2 a + (g2 b - g2 a) * ((z - a) / (b - a)))) with (g2 z - (g2 a + s * (z - a))) by (unfold s; field; lra).
    eapply Rle_trans; [apply B|].
    - intros y. eapply dd_eq; [apply dd_minus; [apply G3|apply dd_plus; [apply dd_const|apply dd_scal, dd_minus; [apply dd_id|apply dd_const]]]|]. req. ring.
    - intros y. eapply dd_eq; [apply dd_minus; [apply G4|apply dd_const]|]. req. ring.
    - ring.
    - unfold s. field. lra.
    - intros y Hy. apply HK. unfold a, b in Hy. assert (L1 := Le 0%nat k ltac:(lia)). assert (L2 := Le (k + 1)%nat n ltac:(lia)). lra.
    - auto.
    - eapply Rle_trans; [apply middle; auto|]. unfold Rdiv. rewrite !Rmult_assoc. apply Rmult_le_compat_l; auto. apply Rmult_le_compat_r; [lra|]. apply pow_incr. lra. }
  exists coef. split; [exact E|]. intros x Hx. destruct (find_piece datax n Hn Inc' x Hx) as (k & Hk & Hxk). destruct (H k x Hk Hxk) as (v & Ev & B). exists v. split; [exact Ev|].
  eapply Rle_trans; [exact B|]. destruct (Inc k Hk) as [P1 P2]. set (d := nth (k + 1) datax 0 - nth k datax 0) in *.
  assert (d ^ 2 <= h ^ 2) by (apply pow_incr; lra). assert (0 <= h ^ 2) by apply pow2_ge_0. assert (0 <= K * h ^ 2) by (apply Rmult_le_pos; lra).
  rewrite Z0, Zn, Rabs_R0, (Rmax_left 0 0), Rmax_left by lra.
  replace (K * h ^ 4 / 16) with ((K * h ^ 2 / 8 + 3 * (K * h ^ 2 / 8)) * h ^ 2 / 8) by field.
  unfold Rdiv. apply Rmult_le_compat_r; [lra|]. apply Rmult_le_compat_l; lra.
Qed.
Print Assumptions C158_fourth_order.
(** The condition on the ends is needed: for the parabola on [0,1] and n equal pieces the error is at least h^2/16. *)
Lemma knot_at L n k : (k <= n)%nat -> nth k (linspace 0 L (n + 1)) 0 = INR k * (L / INR n).
Proof. intros Hk. rewrite linspace_tab, nth_tab by lia. replace (n + 1 - 1)%nat with n by lia. rewrite Rminus_0_r. ring. Qed.
Lemma knot_step L n k : 0 < L -> (k < n)%nat -> nth (k + 1) (linspace 0 L (n + 1)) 0 - nth k (linspace 0 L (n + 1)) 0 = L / INR n /\ 0 < L / INR n.
Proof.
  intros HL Hk. rewrite !knot_at by lia. rewrite plus_INR. cbn [INR]. split; [ring|]. apply Rdiv_lt_0_compat; [auto|apply lt_0_INR; lia].
Qed.
Lemma knot_len L n : length (linspace 0 L (n + 1)) = (n + 1)%nat.
Proof. rewrite linspace_tab. apply tab_length. Qed.
Theorem C158_ends_matter : forall n, (1 <= n)%nat -> exists coef v,
  cubic_spline (linspace 0 1 (n + 1)) (map (fun x => x ^ 2) (linspace 0 1 (n + 1))) = Ok coef /\
  eval_spline (linspace 0 1 (n + 1)) n coef (1 / (2 * INR n)) = Ok v /\ (1 / INR n) ^ 2 / 16 <= v - (1 / (2 * INR n)) ^ 2.
Proof.
  intros n Hn. set (dx := linspace 0 1 (n + 1)). assert (N0 : 0 < INR n) by (apply lt_0_INR; lia). set (h := 1 / INR n).
  assert (H0 : 0 < h) by (apply Rdiv_lt_0_compat; lra).
  assert (KA : forall k, (k <= n)%nat -> nth k dx 0 = INR k * h) by (intros; now apply knot_at).
  assert (Inc : forall k, (k < n)%nat -> nth k dx 0 < nth (k + 1) dx 0) by (intros k Hk; destruct (knot_step 1 n k) as [A B]; [lra|auto|]; fold dx in A; lra).
  destruct (C102_natural_spline n dx (map (fun x => x ^ 2) dx) Hn (knot_len 1 n) ltac:(rewrite map_length; apply knot_len) Inc) as (coef & S & E & (S1 & S2 & D1 & D2 & C2 & V & P & Z) & Ev & _).
  set (X := fun k => nth k dx 0).
  assert (Z0 : S2 (X 0%nat) = 0) by (apply Z; left; apply Rle_refl). assert (Zn : S2 (X n) = 0) by (apply Z; right; apply Rle_refl).
  set (g := fun x : R => x ^ 2). set (g1 := fun x : R => 2 * x). set (g2 := fun _ : R => 2).
  assert (G1 : forall x, is_derive g x (g1 x)) by (intros x; unfold g, g1; auto_derive; auto; ring).
  assert (G2 : forall x, is_derive g1 x (g2 x)) by (intros x; unfold g1, g2; auto_derive; auto; ring).
  assert (CG : forall x, continuous g2 x) by (intros; apply cconst).
  assert (HV : forall k, (k <= n)%nat -> S (X k) = g (X k)).
  { intros k Hk. unfold X. rewrite V by auto. assert (Hl : (k < length (map g dx))%nat) by (rewrite map_length; unfold dx; rewrite knot_len; lia).
    change (nth k (map g dx) 0 = g (nth k dx 0)). rewrite (nth_indep _ 0 (g 0) Hl). apply map_nth. }
  assert (HR : forall k z, (k < n)%nat -> X k <= z <= X (k + 1)%nat -> Rabs (g2 z - (g2 (X k) + (g2 (X (k + 1)%nat) - g2 (X k)) * ((z - X k) / (X (k + 1)%nat - X k)))) <= 0).
  { intros k z Hk Hz. unfold g2. replace (2 - (2 + (2 - 2) * ((z - X k) / (X (k + 1)%nat - X k)))) with 0 by ring. rewrite Rabs_R0. lra. }
  assert (L0 := err_line n X S S1 S2 g2 Inc D1 D2 P 0 HR).
  assert (Dv := deviations n X S S1 S2 g g1 g2 Hn Inc D1 D2 C2 P Z0 Zn G1 G2 CG HV 0 HR). cbv beta in L0, Dv.
  set (e := fun x => g x - S x). set (e1 := fun x => g1 x - S1 x). set (e2 := fun x => g2 x - S2 x).
  assert (E1 : forall x, is_derive e x (e1 x)) by (intros; apply dd_minus; auto). assert (E2 : forall x, is_derive e1 x (e2 x)) by (intros; apply dd_minus; auto).
  assert (EC : forall x, continuous e2 x) by (intros; apply cminus; auto). assert (EK : forall k, (k <= n)%nat -> e (X k) = 0) by (intros k Hk; unfold e; rewrite HV by auto; ring).
  assert (X0 : X 0%nat = 0) by (unfold X; rewrite KA by lia; cbn [INR]; ring). assert (X1 : X 1%nat = h) by (unfold X; rewrite KA by lia; cbn [INR]; ring).
  assert (d0 : e2 (X 0%nat) = 2) by (unfold e2, g2; rewrite Z0; ring).
  set (q := e2 (X 1%nat)). assert (Q : -1 <= q).
  { destruct (Nat.eq_dec n 1) as [N1|N1]; [unfold q, e2, g2; rewrite <- N1, Zn; lra|].
    assert (X2 : X 2%nat = 2 * h) by (unfold X; rewrite KA by lia; cbn [INR]; ring).
    assert (A := slope_right_bound e e1 e2 (X 0%nat) (X 1%nat) ltac:(lra) E1 E2 EC (EK 0%nat ltac:(lia)) (EK 1%nat ltac:(lia)) (e2 (X 0%nat)) (e2 (X 1%nat)) 0 (fun z => L0 0%nat z ltac:(lia))).
    assert (B := slope_left_bound e e1 e2 (X 1%nat) (X 2%nat) ltac:(lra) E1 E2 EC (EK 1%nat ltac:(lia)) (EK 2%nat ltac:(lia)) (e2 (X 1%nat)) (e2 (X 2%nat)) 0 (fun z => L0 1%nat z ltac:(lia))).
    fold q in A, B. set (d2 := e2 (X 2%nat)) in *. rewrite d0 in A. rewrite X0, X1 in A. rewrite X1, X2 in B.
    assert (D2' := Dv 2%nat ltac:(lia)). unfold g2 in D2' at 2 3. rewrite (Rabs_pos_eq 2), (Rmax_left 2 2), Rmax_right in D2' by lra. change (g2 (X 2%nat) - S2 (X 2%nat)) with d2 in D2'.
    apply Rabs_le_between in A. apply Rabs_le_between in B. apply Rabs_le_between in D2'. set (s := e1 h) in *.
    assert (h * (2 / 6 + q / 3) + h * (q / 3 + d2 / 6) = 0) by lra.
    assert (K : h * (2 + 4 * q + d2) = 0) by lra. apply Rmult_integral in K. lra. }
  assert (q0 : e2 h = q) by (unfold q; now rewrite X1). assert (d00 : e2 0 = 2) by (now rewrite <- X0).
  set (c := fun z : R => z ^ 2 + (q - 2) / (6 * h) * z ^ 3 - (h + (q - 2) / 6 * h) * z).
  assert (T := two_zeros (fun z => e z - c z) (fun z => e1 z - (2 * z + (q - 2) / (2 * h) * z ^ 2 - (h + (q - 2) / 6 * h))) (fun z => e2 z - (2 + (q - 2) / h * z)) 0 h 0 (h / 2)).
  cbv beta in T.
  assert (T' : Rabs (e (h / 2) - c (h / 2)) <= 0 / 2 * ((h / 2 - 0) * (h - h / 2))).
  { apply T.
    - intros z. apply dd_minus; [apply E1|]. unfold c. auto_derive; auto. field. lra.
    - intros z. apply dd_minus; [apply E2|]. auto_derive; auto. field. lra.
    - rewrite <- X0, EK, X0 by lia. unfold c. field. lra.
    - rewrite <- X1, EK, X1 by lia. unfold c. field. lra.
    - intros z Hz. assert (B := L0 0%nat z ltac:(lia)). cbn [Nat.add] in B. rewrite X0, X1 in B. specialize (B Hz).
      change (g2 z - S2 z) with (e2 z) in B. change (g2 0 - S2 0) with (e2 0) in B. change (g2 h - S2 h) with (e2 h) in B. rewrite q0, d00 in B.
      match goal with |- Rabs ?u <= _ => match type of B with Rabs ?v <= _ => replace u with v end end; [exact B|]. field. lra.
    - lra. }
  exists coef, (S (h / 2)). split; [exact E|].
  assert (Hh : 1 / (2 * INR n) = h / 2) by (unfold h; field; lra). change (g1 (INR n)) with (2 * INR n). rewrite Hh. split.
  - apply Ev. rewrite !KA by lia. cbn [INR]. assert (1 <= INR n) by (apply (le_INR 1); lia). assert (1 * h <= INR n * h) by (apply Rmult_le_compat_r; lra). lra.
  - assert (A : e (h / 2) - c (h / 2) = 0). { assert (U := Rabs_pos (e (h / 2) - c (h / 2))). destruct (Req_dec (e (h / 2) - c (h / 2)) 0) as [|N]; auto. apply Rabs_pos_lt in N. lra. }
    unfold e, g in A. assert (C : c (h / 2) = - (h ^ 2 * (2 + q) / 16)) by (unfold c; field; lra). rewrite C in A.
    assert (h ^ 2 * 1 <= h ^ 2 * (2 + q)) by (apply Rmult_le_compat_l; [apply pow2_ge_0|lra]). lra.
Qed.
Print Assumptions C158_ends_matter.

(** The error test_spline prints, for any number of knots and test points, and with the numbers of the file. *)
Lemma rms_le : forall (f : R -> result R) (g : R -> R) B l, (forall x, In x l -> exists v, f x = Ok v /\ Rabs (v - g x) <= B) ->
  exists ys, map_result f l = Ok ys /\ length ys = length l /\ 0 <= rsum (map2 (fun a b => (a - b) ^ 2) ys (map g l)) <= INR (length l) * B ^ 2.
Proof.
  intros f g B l. induction l as [|x l IH]; intros H; [exists nil; cbn; split; [reflexivity|split; [reflexivity|lra]]|].
  destruct IH as (ys & E & L & S1 & S2); [intros; apply H; now right|]. destruct (H x (or_introl eq_refl)) as (v & Ev & Bv).
  exists (v :: ys). cbn [map_result]. rewrite Ev. cbn [bind]. rewrite E. cbn [bind]. split; [reflexivity|]. split; [cbn; now rewrite L|].
  cbn [map map2 length]. change (rsum (?a :: ?r)) with (a + rsum r). rewrite S_INR.
  assert (0 <= (v - g x) ^ 2 <= B ^ 2). { split; [apply pow2_ge_0|]. rewrite <- (pow2_abs (v - g x)). apply pow_incr. split; [apply Rabs_pos|auto]. }
  lra.
Qed.
Theorem C157_test_error : forall k m, (2 <= k)%nat -> (1 <= m)%nat -> exists err, spline_rms sin (2 * PI) k m = Ok err /\ 0 <= err <= (2 * PI / INR (k - 1)) ^ 4 / 16.
Proof.
  intros k m Hk Hm. assert (P := PI_RGT_0). set (n := (k - 1)%nat). assert (Ek : k = (n + 1)%nat) by (unfold n; lia). rewrite Ek. replace (n + 1 - 1)%nat with n by lia.
  set (h := 2 * PI / INR n). assert (N0 : 0 < INR n) by (apply lt_0_INR; unfold n; lia). assert (H0 : 0 < h) by (apply Rdiv_lt_0_compat; lra).
  set (dx := linspace 0 (2 * PI) (n + 1)).
  assert (A0 : nth 0 dx 0 = 0) by (unfold dx; rewrite knot_at by lia; cbn [INR]; ring). assert (An : nth n dx 0 = 2 * PI) by (unfold dx; rewrite knot_at by lia; field; lra).
  destruct (C158_fourth_order n dx sin cos (fun x => - sin x) (fun x => - cos x) sin h 1) as (coef & E & H).
  - unfold n; lia.
  - apply knot_len.
  - intros j Hj. destruct (knot_step (2 * PI) n j ltac:(lra) Hj) as [B1 B2]. fold dx in B1. rewrite B1. fold h. lra.
  - intros x. apply is_derive_Reals, derivable_pt_lim_sin.
  - intros x. apply is_derive_Reals, derivable_pt_lim_cos.
  - intros x. apply dd_opp. apply is_derive_Reals, derivable_pt_lim_sin.
  - intros x. eapply dd_eq; [apply dd_opp, is_derive_Reals, derivable_pt_lim_cos|]. req. ring.
  - intros x _. apply Rabs_le. apply SIN_bound.
  - rewrite A0, sin_0. req. ring.
  - rewrite An, sin_2PI. req. ring.
  - rewrite A0, An in H. unfold spline_rms. cbv zeta. fold dx.
    assert (Lm : length (map sin dx) = (n + 1)%nat) by (rewrite map_length; apply knot_len). rewrite Lm. replace (n + 1 - 1)%nat with n by lia.
    change (cubic_spline dx (@map R R sin dx) = Ok coef) in E. rewrite E. cbn [bind]. destruct C157_first_example_solved as (c16 & _ & E16 & _). rewrite E16. cbn [bind].
    set (B := 1 * h ^ 4 / 16) in *. assert (PB : 0 <= B) by (unfold B; assert (0 <= h ^ 4) by (apply pow_le; lra); lra).
    destruct (rms_le (eval_spline dx n coef) sin B (linspace 0 (2 * PI) m)) as (ys & Ey & Ly & S1 & S2).
    { intros x Hx. apply H. rewrite linspace_tab in Hx. unfold tab in Hx. apply in_map_iff in Hx. destruct Hx as (i & <- & Hi). apply in_seq in Hi.
      rewrite Rminus_0_r, Rplus_0_l. destruct (Nat.eq_dec m 1) as [->|Nm].
      - replace i with 0%nat by lia. cbn [INR]. lra.
      - assert (0 < INR (m - 1)) by (apply lt_0_INR; lia). assert (0 <= INR i) by apply pos_INR. assert (INR i <= INR (m - 1)) by (apply le_INR; lia).
        assert (Q : 0 < 2 * PI / INR (m - 1)) by (apply Rdiv_lt_0_compat; lra).
        assert (INR i * (2 * PI / INR (m - 1)) <= INR (m - 1) * (2 * PI / INR (m - 1))) by (apply Rmult_le_compat_r; lra).
        replace (INR (m - 1) * (2 * PI / INR (m - 1))) with (2 * PI) in * by (field; lra). split; [apply Rmult_le_pos; lra|lra]. }
    rewrite Ey. cbn [bind]. eexists. split; [reflexivity|]. split; [apply sqrt_pos|].
    assert (Lx : length (linspace 0 (2 * PI) m) = m) by (rewrite linspace_tab; apply tab_length). rewrite Ly, Lx. rewrite Lx in S2.
    assert (M0 : 0 < INR m) by (apply lt_0_INR; lia).
    replace (h ^ 4 / 16) with B by (unfold B; field). rewrite <- (sqrt_pow2 B PB). apply sqrt_le_1_alt.
    apply (Rmult_le_reg_r (INR m)); auto. unfold Rdiv. rewrite Rmult_assoc, Rinv_l, Rmult_1_r by lra. lra.
Qed.
Print Assumptions C157_test_error.
(** what the test prints *)
Theorem C157_printed_error : exists err, test_spline = Ok err /\ 0 <= err <= 17 / 10 ^ 6.
Proof.
  destruct (C157_test_error 50 100 ltac:(lia) ltac:(lia)) as (err & E & L & U). exists err. split; [exact E|]. split; [exact L|]. eapply Rle_trans; [exact U|].
  assert (P := pi_between). replace (INR (50 - 1)) with 49 by (cbn; lra).
  assert (Q : (2 * PI / 49) ^ 4 <= (0.128229) ^ 4) by (apply pow_incr; split; [apply Rmult_le_pos; lra|lra]). lra.
Qed.
Print Assumptions C157_printed_error.
Example C157_example : exists err, spline_rms sin (2 * PI) 3 7 = Ok err /\ 0 <= err <= (2 * PI / 2) ^ 4 / 16.
Proof. destruct (C157_test_error 3 7 ltac:(lia) ltac:(lia)) as (err & E & B). exists err. split; [exact E|]. cbn [Nat.sub INR] in B. lra. Qed.
(** three knots: the error of the parabola at 1/4 *)
Example C158_example : exists coef v, cubic_spline (linspace 0 1 3) (map (fun x => x ^ 2) (linspace 0 1 3)) = Ok coef /\
  eval_spline (linspace 0 1 3) 2 coef (1 / 4) = Ok v /\ 1 / 64 <= v - 1 / 16 <= 1 / 2.
Proof.
  destruct (C158_ends_matter 2 ltac:(lia)) as (coef & v & E & Ev & L). exists coef, v. cbn [Nat.add INR] in *.
  replace (1 / (2 * (1 + 1))) with (1 / 4) in * by field. split; [exact E|]. split; [exact Ev|].
  destruct (C158_second_order 2 (linspace 0 1 (2 + 1)) (fun x => x ^ 2) (fun x => 2 * x) (fun _ => 2) (1 / 2) 2) as (coef' & E' & H); auto.
  - intros k Hk. destruct (knot_step 1 2 k ltac:(lra) Hk) as [A B]. rewrite A. cbn [INR]. lra.
  - intros x. auto_derive; auto. ring.
  - intros x. auto_derive; auto. ring.
  - intros. apply cconst.
  - intros. rewrite Rabs_pos_eq; lra.
  - cbn [Nat.add] in *. change (cubic_spline (linspace 0 1 3) (@map R R (fun x => x ^ 2) (linspace 0 1 3)) = Ok coef') in E'. rewrite E in E'. injection E' as <-. destruct (H (1 / 4)) as (v' & Ev' & B).
    { change 3%nat with (2 + 1)%nat. rewrite !knot_at by lia. cbn [INR]. lra. }
    rewrite Ev in Ev'. injection Ev' as <-. apply Rabs_le_between in B. lra.
Qed.
