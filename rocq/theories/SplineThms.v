(** C99 - C102: Gaussian elimination and the natural cubic spline. *)
From Coquelicot Require Import Coquelicot.
From Verif Require Import Py PyLemmas Calc SplineModel GaussProofs SplineProofs SplineShape.
Open Scope R_scope.

(* ---------------------------------------------------------------- C99 *)
Theorem C99_solution : forall N A b x, GaussElim N A b = Ok x ->
  (forall i, (i < N)%nat -> sumn N (fun j => A i j * x j) = b i) /\
  (forall y, (forall i, (i < N)%nat -> sumn N (fun j => A i j * y j) = b i) -> forall j, (j < N)%nat -> y j = x j).
Proof.
  intros N A b x E. apply gauss_sound in E. destruct E as [S U]. split; [exact S|].
  intros y Hy j Hj. assert (Z := U (fun j => y j - x j)). cbv beta in Z. assert (G := Z ltac:(intros i Hi;
    rewrite (sumn_ext N _ (fun j => A i j * y j - A i j * x j)) by (intros; ring); rewrite sumn_minus, Hy, S by auto; ring) j Hj). lra.
Qed.
Print Assumptions C99_solution.
(** Rows have to be exchanged: the first pivot is zero.  0 x + 2 y = 6, 4 x + 1 y = 5. *)
Definition exA : mat := fun i j => match i, j with O, O => 0 | O, _ => 2 | _, O => 4 | _, _ => 1 end.
Definition exb : vec := fun i => match i with O => 6 | _ => 5 end.
Lemma exA_nonsingular : nonsingular 2 exA.
Proof.
  intros x H j Hj. assert (H0 := H 0%nat ltac:(lia)). assert (H1 := H 1%nat ltac:(lia)). cbn [sumn exA] in *.
  destruct j as [|[|j]]; [lra|lra|lia].
Qed.
Example C99_example : exists x, GaussElim 2 exA exb = Ok x /\ x 0%nat = 1 / 2 /\ x 1%nat = 3.
Proof.
  destruct (gauss_complete 2 exA exb exA_nonsingular) as [x E]. exists x. split; [auto|].
  apply C99_solution in E. destruct E as [_ U].
  assert (G := U (fun j => match j with O => 1 / 2 | _ => 3 end)). cbv beta in G.
  assert (Y : forall j, (j < 2)%nat -> match j with O => 1 / 2 | _ => 3 end = x j).
  { apply G. intros [|[|i]] Hi; [| |lia]; cbn [sumn exA exb]; lra. }
  split; symmetry; [apply (Y 0%nat)|apply (Y 1%nat)]; lia.
Qed.

(* ---------------------------------------------------------------- C100 *)
Theorem C100_succeeds_exactly : forall N A b,
  (exists x, GaussElim N A b = Ok x) <->
  (forall y, (forall i, (i < N)%nat -> sumn N (fun j => A i j * y j) = 0) -> forall j, (j < N)%nat -> y j = 0).
Proof.
  intros N A b. split.
  - intros [x E]. apply gauss_sound in E. exact (proj2 E).
  - intros H. now apply gauss_complete.
Qed.
Print Assumptions C100_succeeds_exactly.
Theorem C100_otherwise_zero_division : forall N A b,
  (exists y, (forall i, (i < N)%nat -> sumn N (fun j => A i j * y j) = 0) /\ exists j, (j < N)%nat /\ y j <> 0) ->
  GaussElim N A b = Err ZeroDivision.
Proof.
  intros N A b [y [Hy [j [Hj Nz]]]]. destruct (GaussElim N A b) as [x|e] eqn:E.
  - apply gauss_sound in E. destruct E as [_ U]. exfalso. apply Nz. now apply U.
  - apply gauss_error in E. now subst.
Qed.
Print Assumptions C100_otherwise_zero_division.
(** A singular system that has solutions is refused too: x + y = 2 twice. *)
Example C100_example : GaussElim 2 (fun _ _ => 1) (fun _ => 2) = Err ZeroDivision.
Proof.
  apply C100_otherwise_zero_division. exists (fun j => match j with O => 1 | _ => -1 end). split.
  - intros i Hi. cbn [sumn]. lra.
  - exists 0%nat. split; [lia|lra].
Qed.

(* ---------------------------------------------------------------- C101 *)
Theorem C101_increasing_knots : forall n datax datay, (1 <= n)%nat -> length datax = (n + 1)%nat -> length datay = (n + 1)%nat ->
  (forall k, (k < n)%nat -> nth k datax 0 < nth (k + 1) datax 0) -> exists coef, cubic_spline datax datay = Ok coef.
Proof.
  intros n datax datay Hn HX HY Inc. unfold cubic_spline.
  destruct (system_meaning datax datay n ltac:(lia) ltac:(lia) Hn) as [A [rhs [E [_ H0]]]]. rewrite E. cbn [bind fst snd].
  replace (length datay - 1)%nat with n by lia. apply gauss_complete.
  intros c Hc. apply (natural_zero datax n Hn); auto. now apply H0.
Qed.
Print Assumptions C101_increasing_knots.
Theorem C101_repeated_knot : forall n datax datay k, (k < n)%nat -> length datax = (n + 1)%nat -> length datay = (n + 1)%nat ->
  nth k datax 0 = nth (k + 1) datax 0 -> cubic_spline datax datay = Err ZeroDivision.
Proof.
  intros n datax datay k Hk HX HY Eq. unfold cubic_spline.
  destruct (system_rows datax datay n ltac:(lia) ltac:(lia) ltac:(lia)) as [A [rhs [E [R1 _]]]]. rewrite E. cbn [bind fst snd].
  replace (length datay - 1)%nat with n by lia. apply C100_otherwise_zero_division.
  destruct (underdetermined (4 * n - 1) (4 * n) (fun i => A (skip (2 * k + 1) i)) ltac:(lia)) as [y [[j [Hj Nz]] Hy]].
  exists y. split; [|exists j; auto].
  assert (G : forall i, (i < 4 * n)%nat -> i <> (2 * k + 1)%nat -> sumn (4 * n) (fun j => A i j * y j) = 0).
  { intros i Hi Ni. destruct (Nat.lt_ge_cases i (2 * k + 1)).
    - assert (F := Hy i ltac:(lia)). unfold skip in F. destruct (Nat.ltb_spec i (2 * k + 1)); [auto|lia].
    - assert (F := Hy (i - 1)%nat ltac:(lia)). unfold skip in F. destruct (Nat.ltb_spec (i - 1) (2 * k + 1)); [lia|].
      replace (S (i - 1)) with i in F by lia. auto. }
  intros i Hi. destruct (Nat.eq_dec i (2 * k + 1)) as [->|Ni]; [|now apply G].
  destruct (R1 k y Hk) as [D1 D2]. rewrite <- Eq, <- D1 in D2. unfold dot in D2. rewrite D2. apply G; lia.
Qed.
Print Assumptions C101_repeated_knot.
Example C101_example : (exists coef, cubic_spline (0 :: 1 :: 3 :: nil) (5 :: 7 :: 2 :: nil) = Ok coef) /\
  cubic_spline (0 :: 1 :: 1 :: nil) (5 :: 7 :: 7 :: nil) = Err ZeroDivision.
Proof.
  split.
  - apply (C101_increasing_knots 2); auto. intros [|[|k]] Hk; [simpl; lra|simpl; lra|lia].
  - apply (C101_repeated_knot 2 _ _ 1); auto.
Qed.

(* ---------------------------------------------------------------- C102 *)
Theorem C102_natural_spline : forall n datax datay, (1 <= n)%nat -> length datax = (n + 1)%nat -> length datay = (n + 1)%nat ->
  (forall k, (k < n)%nat -> nth k datax 0 < nth (k + 1) datax 0) ->
  exists coef S, cubic_spline datax datay = Ok coef /\
    natural_spline n (fun k => nth k datax 0) (fun k => nth k datay 0) S /\
    (forall x, nth 0 datax 0 <= x <= nth n datax 0 -> eval_spline datax n coef x = Ok (S x)) /\
    (forall x, x < nth 0 datax 0 \/ nth n datax 0 < x -> eval_spline datax n coef x = Ok 0).
Proof.
  intros n datax datay Hn HX HY Inc. destruct (C101_increasing_knots n datax datay Hn HX HY Inc) as [coef EC].
  assert (EC' := EC). unfold cubic_spline in EC'.
  destruct (system_meaning datax datay n ltac:(lia) ltac:(lia) Hn) as [A [rhs [E [H1 _]]]]. rewrite E in EC'. cbn [bind fst snd] in EC'.
  replace (length datay - 1)%nat with n in EC' by lia. apply gauss_sound in EC'. destruct EC' as [So _]. apply H1 in So.
  destruct (natural_is_spline datax n Hn Inc _ coef So) as [S [NS P]]. exists coef, S. split; [auto|]. split; [auto|]. unfold eval_spline. split.
  - intros x Hx. destruct (eval_from_spec datax n Hn Inc coef x HX n 0%nat eq_refl) as [[j [Hj [Hxj ->]]]|[G _]].
    + f_equal. symmetry. apply P; [lia|auto].
    + destruct (find_piece datax n Hn Inc x Hx) as [k [Hk Hxk]]. exfalso. apply (G k); [lia|auto].
  - intros x Hx. destruct (eval_from_spec datax n Hn Inc coef x HX n 0%nat eq_refl) as [[j [Hj [Hxj _]]]|[_ G]]; [|auto].
    assert (L1 := knots_le datax n Hn Inc 0 j ltac:(lia)). assert (L2 := knots_le datax n Hn Inc (j + 1) n ltac:(lia)). lra.
Qed.
Print Assumptions C102_natural_spline.
(** There is only one, so the evaluation returns the values of any natural cubic spline through the data. *)
Theorem C102_unique : forall n datax datay coef T, (1 <= n)%nat -> length datax = (n + 1)%nat -> length datay = (n + 1)%nat ->
  (forall k, (k < n)%nat -> nth k datax 0 < nth (k + 1) datax 0) -> cubic_spline datax datay = Ok coef ->
  natural_spline n (fun k => nth k datax 0) (fun k => nth k datay 0) T ->
  forall x, nth 0 datax 0 <= x <= nth n datax 0 -> eval_spline datax n coef x = Ok (T x).
Proof.
  intros n datax datay coef T Hn HX HY Inc EC NT x Hx.
  destruct (C102_natural_spline n datax datay Hn HX HY Inc) as [coef' [S [EC' [NS [V _]]]]].
  rewrite EC in EC'. injection EC' as <-. rewrite V by auto. f_equal.
  destruct (spline_is_natural datax n Hn Inc _ S NS) as [c [Nc Pc]]. destruct (spline_is_natural datax n Hn Inc _ T NT) as [d [Nd Pd]].
  destruct (find_piece datax n Hn Inc x Hx) as [k [Hk Hxk]]. rewrite (Pc k x Hk Hxk), (Pd k x Hk Hxk).
  assert (Z : forall j, (j < 4 * n)%nat -> c j - d j = 0).
  { apply (natural_zero datax n Hn (fun j => c j - d j)); [exact Inc|].
    destruct Nc as [N1 [N2 [N3 [N4 N5]]]]. destruct Nd as [M1 [M2 [M3 [M4 M5]]]].
    assert (B0 : forall k x, piece (fun j => c j - d j) k x = piece c k x - piece d k x) by (intros; unfold piece; ring).
    assert (B1 : forall k x, piece1 (fun j => c j - d j) k x = piece1 c k x - piece1 d k x) by (intros; unfold piece1; ring).
    assert (B2 : forall k x, piece2 (fun j => c j - d j) k x = piece2 c k x - piece2 d k x) by (intros; unfold piece2; ring).
    split; [|split; [|split; [|split]]].
    - intros k' Hk'. destruct (N1 k' Hk'), (M1 k' Hk'). rewrite !B0. split; lra.
    - intros k' Hk'. rewrite !B1. rewrite (N2 k' Hk'), (M2 k' Hk'). auto.
    - intros k' Hk'. rewrite !B2. rewrite (N3 k' Hk'), (M3 k' Hk'). auto.
    - rewrite B2. lra.
    - rewrite B2. lra. }
  assert (Z0 := Z (4 * k)%nat ltac:(lia)). assert (Z1 := Z (4 * k + 1)%nat ltac:(lia)).
  assert (Z2 := Z (4 * k + 2)%nat ltac:(lia)). assert (Z3 := Z (4 * k + 3)%nat ltac:(lia)).
  unfold piece. replace (c (4 * k)%nat) with (d (4 * k)%nat) by lra. replace (c (4 * k + 1)%nat) with (d (4 * k + 1)%nat) by lra.
  replace (c (4 * k + 2)%nat) with (d (4 * k + 2)%nat) by lra. replace (c (4 * k + 3)%nat) with (d (4 * k + 3)%nat) by lra. auto.
Qed.
Print Assumptions C102_unique.
(** Data on a straight line are reproduced. *)
Theorem C102_lines : forall n datax datay coef a b, (1 <= n)%nat -> length datax = (n + 1)%nat -> length datay = (n + 1)%nat ->
  (forall k, (k < n)%nat -> nth k datax 0 < nth (k + 1) datax 0) -> cubic_spline datax datay = Ok coef ->
  (forall k, (k <= n)%nat -> nth k datay 0 = a + b * nth k datax 0) ->
  forall x, nth 0 datax 0 <= x <= nth n datax 0 -> eval_spline datax n coef x = Ok (a + b * x).
Proof.
  intros n datax datay coef a b Hn HX HY Inc EC L x Hx. apply (C102_unique n datax datay coef (fun x => a + b * x)); auto.
  exists (fun _ => b), (fun _ => 0). split; [intros; auto_derive; auto; ring|]. split; [intros; apply dd_const|]. split; [intros; apply cconst|].
  split; [intros k Hk; symmetry; now apply L|]. split; [|auto].
  intros k Hk. exists a, b, 0, 0. intros. ring.
Qed.
Print Assumptions C102_lines.
(** Three knots: 0, 1, 2 with data 0, 1, 0; the spline is (3 x - x^3) / 2 on the first piece. *)
Definition hat (x : R) : R := if Rlt_dec x 0 then 3 / 2 * x else if Rlt_dec x 1 then (3 * x - x ^ 3) / 2
  else if Rlt_dec x 2 then (3 * (2 - x) - (2 - x) ^ 3) / 2 else 3 / 2 * (2 - x).
Lemma hat_natural : natural_spline 2 (fun k => nth k (0 :: 1 :: 2 :: nil) 0) (fun k => nth k (0 :: 1 :: 0 :: nil) 0) hat.
Proof.
  set (p0 := fun x : R => 3 / 2 * x). set (p1 := fun x => (3 * x - x ^ 3) / 2). set (p2 := fun x => (3 * (2 - x) - (2 - x) ^ 3) / 2). set (p3 := fun x => 3 / 2 * (2 - x)).
  set (q1 := fun x => (3 - 3 * x ^ 2) / 2). set (q2 := fun x => (3 * (2 - x) ^ 2 - 3) / 2).
  set (s1 := fun x => - 3 * x). set (s2 := fun x => - 3 * (2 - x)).
  exists (glue 0 (fun _ => 3 / 2) (glue 1 q1 (glue 2 q2 (fun _ => - (3 / 2))))), (glue 0 (fun _ => 0) (glue 1 s1 (glue 2 s2 (fun _ => 0)))).
  split; [|split; [|split; [|split; [|split]]]].
  - change hat with (glue 0 p0 (glue 1 p1 (glue 2 p2 p3))).
    apply glue_derive; [rewrite !glue_left by lra; unfold p0, p1; lra|rewrite !glue_left by lra; unfold q1; lra|intros; unfold p0; auto_derive; auto; ring|].
    apply glue_derive; [rewrite !glue_left by lra; unfold p2, p1; lra|rewrite !glue_left by lra; unfold q1, q2; lra|intros; unfold p1, q1; auto_derive; auto; field|].
    apply glue_derive; [unfold p2, p3; lra|unfold q2; lra|intros; unfold p2, q2; auto_derive; auto; field|intros; unfold p3; auto_derive; auto; ring].
  - apply glue_derive; [rewrite !glue_left by lra; unfold q1; lra|rewrite !glue_left by lra; unfold s1; lra|intros; apply dd_const|].
    apply glue_derive; [rewrite !glue_left by lra; unfold q2, q1; lra|rewrite !glue_left by lra; unfold s1, s2; lra|intros; unfold q1, s1; auto_derive; auto; field|].
    apply glue_derive; [unfold q2; lra|unfold s2; lra|intros; unfold q2, s2; auto_derive; auto; field|intros; apply dd_const].
  - apply glue_continuous; [rewrite !glue_left by lra; unfold s1; lra|intros; apply cconst|].
    apply glue_continuous; [rewrite !glue_left by lra; unfold s2, s1; lra|intros; unfold s1; auto with cont|].
    apply glue_continuous; [unfold s2; lra|intros; unfold s2; auto with cont|intros; apply cconst].
  - intros k Hk. unfold hat. destruct k as [|[|[|k]]]; [| | |lia]; cbn [nth];
      destruct (Rlt_dec _ 0); try lra; destruct (Rlt_dec _ 1); try lra; destruct (Rlt_dec _ 2); lra.
  - intros k Hk. destruct k as [|[|k]]; [| |lia]; cbn [nth].
    + exists 0, (3 / 2), 0, (- (1 / 2)). intros x Hx. cbn [Nat.add nth] in Hx. unfold hat. destruct (Rlt_dec x 0); [lra|]. destruct (Rlt_dec x 1); [field|].
      destruct (Rlt_dec x 2); [|lra]. replace x with 1 by lra. lra.
    + exists (-1), (9 / 2), (-3), (1 / 2). intros x Hx. cbn [Nat.add nth] in Hx. unfold hat. destruct (Rlt_dec x 0); [lra|]. destruct (Rlt_dec x 1); [lra|].
      destruct (Rlt_dec x 2); [field|]. replace x with 2 by lra. lra.
  - cbn [nth]. intros x [Hx|Hx].
    + destruct (Req_dec x 0) as [->|]; [|rewrite glue_left by lra; auto]. rewrite glue_right by lra. rewrite glue_left by lra. unfold s1. lra.
    + rewrite !glue_right by lra. auto.
Qed.
Example C102_example : exists coef, cubic_spline (0 :: 1 :: 2 :: nil) (0 :: 1 :: 0 :: nil) = Ok coef /\
  eval_spline (0 :: 1 :: 2 :: nil) 2 coef (1 / 2) = Ok (11 / 16) /\ eval_spline (0 :: 1 :: 2 :: nil) 2 coef 3 = Ok 0.
Proof.
  assert (Inc : forall k, (k < 2)%nat -> nth k (0 :: 1 :: 2 :: nil) 0 < nth (k + 1) (0 :: 1 :: 2 :: nil) 0).
  { intros [|[|k]] Hk; [simpl; lra|simpl; lra|lia]. }
  destruct (C102_natural_spline 2 (0 :: 1 :: 2 :: nil) (0 :: 1 :: 0 :: nil) ltac:(lia) eq_refl eq_refl Inc) as [coef [S [E [_ [_ O]]]]].
  exists coef. split; [auto|]. split.
  - rewrite (C102_unique 2 _ (0 :: 1 :: 0 :: nil) coef hat); auto; [|exact hat_natural|simpl; lra].
    f_equal. unfold hat. destruct (Rlt_dec (1 / 2) 0); [lra|]. destruct (Rlt_dec (1 / 2) 1); lra.
  - apply O. simpl. lra.
Qed.
