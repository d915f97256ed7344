(** C51 - C55, C90, C91: the reported solution. *)
From Coq Require Import String.
From Coquelicot Require Import Coquelicot.
From Verif Require Import Py PyLemmas Calc Legendre Cheb DGModel DGSpec DGProofs DGInt FuncModel FuncProofs FuncThms SourceModel SourceIC SourceThms ClosureThms OutModel OutProofs.
Open Scope list_scope.
Open Scope R_scope.

(** two cells, two directions, linear elements *)
Definition oc0 (unc_on : bool) (xs : list R) : out_cfg :=
  {| ot := 1; oN_ang := 2; ows := fun _ => 1 / 2; oxs := xs; ou := fun ang k j => if (j =? 0)%nat then INR (ang + 3 * k) else 0; outM := 1;
     oedges := 0 :: 1 :: 2 :: nil; ouncollided := unc_on; ogeom := Slab; unc := fun x _ => Ok (10 * x) |}.
Lemma rising0 : rising (0 :: 1 :: 2 :: nil).
Proof. split; [simpl; lia|]. intros [|[|i]] H; simpl in *; lra || lia. Qed.

(* ---------------------------------------------------------------- C51 *)
Theorem C51_output_succeeds : forall c, rising (oedges c) -> (ogeom c = Sphere -> (outM c <= 12)%nat) ->
  exists rows, psi_out c = Ok rows /\ length rows = oN_ang c /\ List.Forall (fun row => length row = length (oxs c)) rows.
Proof.
  intros c H HM. unfold psi_out.
  assert (K : forall ang, exists row, map_result (psi_at c ang) (oxs c) = Ok row).
  { intro ang. apply SourceIC.map_result_total. intro x. now apply psi_at_total. }
  destruct (SourceIC.map_result_total (fun ang => map_result (psi_at c ang) (oxs c)) (seq 0 (oN_ang c)) K) as [rows E].
  exists rows. split; [auto|]. split; [rewrite (map_result_len _ _ _ E); apply seq_length|].
  eapply map_result_all; [|exact E]. intros ang row R0. apply (map_result_len _ _ _ R0).
Qed.
Print Assumptions C51_output_succeeds.
Lemma psi_entry c rows ang i : psi_out c = Ok rows -> (ang < oN_ang c)%nat -> (i < length (oxs c))%nat ->
  psi_at c ang (nth i (oxs c) 0) = Ok (nth i (nth ang rows nil) 0).
Proof.
  intros E Ha Hi. unfold psi_out in E. pose proof (map_result_nth_ok _ _ _ 0%nat nil E ang) as K. rewrite seq_length in K. specialize (K Ha).
  rewrite seq_nth in K by auto. simpl (0 + ang)%nat in K. apply (map_result_nth_ok _ _ _ 0 0 K). auto.
Qed.
Theorem C51_zero_outside : forall c rows ang i, psi_out c = Ok rows -> (2 <= length (oedges c))%nat -> (ang < oN_ang c)%nat -> (i < length (oxs c))%nat ->
  let x := nth i (oxs c) 0 in
  x < nth 0 (oedges c) 0 \/ nth (length (oedges c) - 1) (oedges c) 0 < x -> nth i (nth ang rows nil) 0 = 0.
Proof.
  intros c rows ang i E L Ha Hi x Hx. pose proof (psi_entry c rows ang i E Ha Hi) as K. rewrite psi_at_outside in K by auto. now injection K as <-.
Qed.
Print Assumptions C51_zero_outside.
(** a point in the half-open cell (left edge, right edge], and the leftmost edge in the first cell *)
Theorem C51_cell_polynomial_inside : forall c rows ang i k, psi_out c = Ok rows -> rising (oedges c) -> (ogeom c = Sphere -> (outM c <= 12)%nat) ->
  (ang < oN_ang c)%nat -> (i < length (oxs c))%nat -> (S k < length (oedges c))%nat ->
  let x := nth i (oxs c) 0 in let a := nth k (oedges c) 0 in let b := nth (S k) (oedges c) 0 in
  a < x <= b \/ (k = 0%nat /\ x = a) ->
  nth i (nth ang rows nil) 0 = field (ogeom c) (outM c) (ou c ang k) a b x.
Proof.
  intros c rows ang i k E H HM Ha Hi Hk x a b Hx. pose proof (psi_entry c rows ang i E Ha Hi) as K. fold x in K.
  rewrite (psi_at_cell c ang x k) in K; auto.
  - now injection K as <-.
  - destruct Hx as [[A B]|[-> ->]]; [now apply cell_index_inside|now apply cell_index_first].
  - destruct Hx as [[A B]|[-> ->]]; [split; unfold a, b in *; lra|]. unfold a. split; [lra|]. left. apply H. auto.
Qed.
Print Assumptions C51_cell_polynomial_inside.
(** every point of the mesh is in exactly one of these cells *)
Theorem C51_exactly_one_cell : forall l x, rising l -> nth 0 l 0 <= x <= nth (length l - 1) l 0 ->
  let inside k := (S k < length l)%nat /\ (nth k l 0 < x <= nth (S k) l 0 \/ (k = 0%nat /\ x = nth 0 l 0)) in
  exists k, inside k /\ forall k', inside k' -> k' = k.
Proof.
  intros l x H Hx inside. destruct (Req_dec x (nth 0 l 0)) as [E|N].
  - exists 0%nat. split; [split; [destruct H; lia|now right]|]. intros k' [L [[A B]|[A _]]]; [|auto].
    destruct k' as [|k']; auto. pose proof (rising_lt l 0 (S k') H ltac:(lia) ltac:(lia)). lra.
  - destruct (in_some_cell l x H) as (k & Hk & A); [lra|lra|]. exists k. split; [split; auto|].
    intros k' [L [[B C]|[B C]]]; [|lra]. destruct (Nat.lt_trichotomy k' k) as [Q|[Q|Q]]; auto.
    + pose proof (rising_le l (S k') k H Q ltac:(lia)). lra.
    + pose proof (rising_le l (S k) k' H Q ltac:(lia)). lra.
Qed.
Print Assumptions C51_exactly_one_cell.
Lemma normTn_err n x a b : (12 < n)%nat -> normTn n x a b = Err AssertionError.
Proof. intros H. unfold normTn, eval_Tn. cbv zeta. do 13 (destruct n as [|n]; [lia|]). reflexivity. Qed.
(** in the sphere an order above 12 makes the output fail as soon as a point lies in the mesh *)
Theorem C51_sphere_high_order_fails : forall c i, rising (oedges c) -> ogeom c = Sphere -> (12 < outM c)%nat -> (0 < oN_ang c)%nat -> (i < length (oxs c))%nat ->
  nth 0 (oedges c) 0 <= nth i (oxs c) 0 <= nth (length (oedges c) - 1) (oedges c) 0 -> exists e, psi_out c = Err e.
Proof.
  intros c i H G HM Ha Hi Hx. destruct (psi_out c) as [rows|e] eqn:E; [|eauto]. exfalso.
  pose proof (psi_entry c rows 0 i E Ha Hi) as K. unfold psi_at in K. destruct H as [L H].
  rewrite (getitem_nth _ 0 0), (getneg_nth _ 1 0) in K by lia. cbn [bind] in K. rewrite !Rleb_true in K by lra. cbn [andb] in K.
  destruct (sum_result_inv _ _ _ K) as (v & A & _). specialize (A (outM c) ltac:(lia)). cbv beta in A.
  destruct (getitem _ _) as [a|]; cbn [bind] in A; [|discriminate]. destruct (getitem _ _) as [b|]; cbn [bind] in A; [|discriminate].
  unfold obasis in A. rewrite G, normTn_err in A by auto. discriminate.
Qed.
Print Assumptions C51_sphere_high_order_fails.
Lemma field_const u0 a b x : a < b -> field Slab 1 (fun j => if (j =? 0)%nat then u0 else 0) a b x = u0 / sqrt (b - a).
Proof. intros H. unfold field. cbn [Nat.add sumn Nat.eqb]. rewrite basis0 by auto. field. apply Rgt_not_eq, sqrt_lt_R0. lra. Qed.
(** the interior edge 1 belongs to the left cell, -1 is outside *)
Example C51_example : psi_out (oc0 false (-1 :: 1 :: 3 / 2 :: nil)) = Ok ((0 :: 0 :: 3 :: nil) :: (0 :: 1 :: 4 :: nil) :: nil).
Proof.
  assert (F : forall ang k x, (k < 2)%nat -> cell_field (oc0 false (-1 :: 1 :: 3 / 2 :: nil)) ang k x = INR (ang + 3 * k)).
  { intros ang k x Hk. unfold cell_field, oc0. cbn [ogeom outM ou oedges]. rewrite field_const.
    - assert (E : nth (S k) (0 :: 1 :: 2 :: nil) 0 - nth k (0 :: 1 :: 2 :: nil) 0 = 1) by (destruct k as [|[|k]]; simpl; lra || lia).
      rewrite E, sqrt_1. field.
    - destruct k as [|[|k]]; simpl; lra || lia. }
  unfold psi_out. cbn [oc0 oN_ang seq map_result oxs].
  rewrite !(psi_at_outside _ _ (-1)) by (simpl; lra || lia).
  rewrite !(psi_at_cell (oc0 false (-1 :: 1 :: 3 / 2 :: nil)) _ 1 0), !(psi_at_cell (oc0 false (-1 :: 1 :: 3 / 2 :: nil)) _ (3 / 2) 1);
    try exact rising0; try discriminate; try (simpl; lia); try (simpl; lra);
    try (apply cell_index_inside; [exact rising0|simpl; lia|simpl; lra|simpl; lra]).
  rewrite !F by lia. cbn [bind]. simpl INR. repeat f_equal; lra.
Qed.

(* ---------------------------------------------------------------- C52 *)
Definition with_u (c : out_cfg) (u : nat -> nat -> nat -> R) : out_cfg :=
  {| ot := ot c; oN_ang := oN_ang c; ows := ows c; oxs := oxs c; ou := u; outM := outM c; oedges := oedges c;
     ouncollided := ouncollided c; ogeom := ogeom c; unc := unc c |}.
Definition with_unc (c : out_cfg) (b : bool) : out_cfg :=
  {| ot := ot c; oN_ang := oN_ang c; ows := ows c; oxs := oxs c; ou := ou c; outM := outM c; oedges := oedges c;
     ouncollided := b; ogeom := ogeom c; unc := unc c |}.
Theorem C52_weighted_sum : forall c phi rows i, ouncollided c = false -> make_phi c = Ok phi -> psi_out c = Ok rows -> (i < length (oxs c))%nat ->
  length phi = length (oxs c) /\ nth i phi 0 = sumn (oN_ang c) (fun ang => nth i (nth ang rows nil) 0 * ows c ang).
Proof.
  intros c phi rows i U E P Hi. unfold make_phi in E. destruct (map_result (phi_at c) (oxs c)) as [out|] eqn:O; cbn [bind] in E; [|discriminate].
  rewrite U in E. injection E as <-. split; [apply (map_result_len _ _ _ O)|].
  pose proof (map_result_nth_ok _ _ _ 0 0 O i Hi) as K. unfold phi_at in K. rewrite (sum_result_ok _ _ (fun ang => nth i (nth ang rows nil) 0 * ows c ang)) in K.
  - now injection K as <-.
  - intros ang Ha. rewrite (psi_entry c rows ang i P Ha Hi). reflexivity.
Qed.
Print Assumptions C52_weighted_sum.
Lemma psi_at_lin c u v p q ang x s w : psi_at (with_u c u) ang x = Ok s -> psi_at (with_u c v) ang x = Ok w ->
  psi_at (with_u c (fun a k j => p * u a k j + q * v a k j)) ang x = Ok (p * s + q * w).
Proof.
  unfold psi_at, with_u; cbn [oedges outM ou]. intros A B. destruct (getitem (oedges c) 0) as [e0|]; cbn [bind] in *; [|discriminate].
  destruct (getneg (oedges c) 1) as [el|]; cbn [bind] in *; [|discriminate]. destruct (_ && _).
  - destruct (sum_result_inv _ _ _ A) as (f & F & ->). destruct (sum_result_inv _ _ _ B) as (g & G & ->).
    rewrite <- !sumn_scal, <- sumn_plus. apply sum_result_ok. intros i Hi. specialize (F i Hi). specialize (G i Hi).
    destruct (getitem (oedges c) (_ - 1)) as [a|]; cbn [bind] in *; [|discriminate]. destruct (getitem (oedges c) _) as [b|]; cbn [bind] in *; [|discriminate].
    change (obasis _ i x a b) with (obasis c i x a b) in *. destruct (obasis c i x a b) as [t|]; cbn [bind] in *; [|discriminate].
    injection F as <-. injection G as <-. f_equal. ring.
  - injection A as <-. injection B as <-. f_equal. ring.
Qed.
Theorem C52_linear : forall c u v p q s w, ouncollided c = false -> make_phi (with_u c u) = Ok s -> make_phi (with_u c v) = Ok w ->
  exists r, make_phi (with_u c (fun a k j => p * u a k j + q * v a k j)) = Ok r /\ length r = length (oxs c) /\ forall i, nth i r 0 = p * nth i s 0 + q * nth i w 0.
Proof.
  intros c u v p q s w U. unfold make_phi. cbn [with_u ouncollided oxs]. rewrite U.
  assert (L : forall l s w, map_result (phi_at (with_u c u)) l = Ok s -> map_result (phi_at (with_u c v)) l = Ok w ->
    exists r, map_result (phi_at (with_u c (fun a k j => p * u a k j + q * v a k j))) l = Ok r /\ length r = length l /\ forall i, nth i r 0 = p * nth i s 0 + q * nth i w 0).
  { clear s w. induction l as [|x l IH]; intros s w A B.
    - injection A as <-. injection B as <-. exists nil. split; [reflexivity|]. split; [reflexivity|]. intros [|i]; simpl; ring.
    - cbn [map_result] in *. destruct (phi_at (with_u c u) x) as [a|] eqn:Ea; cbn [bind] in A; [|discriminate]. destruct (phi_at (with_u c v) x) as [b|] eqn:Eb; cbn [bind] in B; [|discriminate].
      destruct (map_result (phi_at (with_u c u)) l) as [s'|]; cbn [bind] in A; [|discriminate]. destruct (map_result (phi_at (with_u c v)) l) as [w'|]; cbn [bind] in B; [|discriminate].
      injection A as <-. injection B as <-. destruct (IH s' w' eq_refl eq_refl) as (r & R1 & R2 & R3).
      assert (E : phi_at (with_u c (fun a k j => p * u a k j + q * v a k j)) x = Ok (p * a + q * b)).
      { unfold phi_at in *. cbn [with_u oN_ang ows] in *. destruct (sum_result_inv _ _ _ Ea) as (f & F & ->). destruct (sum_result_inv _ _ _ Eb) as (g & G & ->).
        rewrite <- !sumn_scal, <- sumn_plus. apply sum_result_ok. intros ang Ha. specialize (F ang Ha). specialize (G ang Ha). cbv beta in F, G.
        destruct (psi_at (with_u c u) ang x) as [s1|] eqn:E1; cbn [bind] in F; [|discriminate]. destruct (psi_at (with_u c v) ang x) as [w1|] eqn:E2; cbn [bind] in G; [|discriminate].
        rewrite (psi_at_lin c u v p q ang x s1 w1) by auto. cbn [bind]. injection F as <-. injection G as <-. f_equal. ring. }
      rewrite E, R1. eexists. split; [reflexivity|]. split; [simpl; lia|]. intros [|i]; simpl; auto. }
  intros A B. destruct (map_result (phi_at (with_u c u)) (oxs c)) as [s'|] eqn:Es; cbn [bind] in A; [|discriminate]. destruct (map_result (phi_at (with_u c v)) (oxs c)) as [w'|] eqn:Ew; cbn [bind] in B; [|discriminate].
  injection A as <-. injection B as <-. destruct (L _ _ _ Es Ew) as (r & R1 & R2 & R3). exists r. rewrite R1. auto.
Qed.
Print Assumptions C52_linear.
Theorem C52_uncollided_added_iff_flag : forall c phi f, (forall x, unc c x (ot c) = Ok (f x)) -> make_phi (with_unc c false) = Ok phi ->
  make_phi (with_unc c true) = Ok (map2 Rplus phi (map f (oxs c))) /\ length phi = length (oxs c).
Proof.
  intros c phi f F E. unfold make_phi in *. cbn [with_unc ouncollided oxs unc ot] in *. change (phi_at (with_unc c true)) with (phi_at (with_unc c false)).
  destruct (map_result (phi_at (with_unc c false)) (oxs c)) as [out|] eqn:O; cbn [bind] in *; [|discriminate]. injection E as <-.
  rewrite (map_result_ok_in _ f) by auto. cbn [bind]. pose proof (map_result_len _ _ _ O) as L. split; [|auto]. apply vop_same. now rewrite map_length.
Qed.
Print Assumptions C52_uncollided_added_iff_flag.
Example C52_example : make_phi (oc0 true (1 :: 3 :: nil)) = Ok (21 / 2 :: 30 :: nil).
Proof.
  assert (E : make_phi (oc0 false (1 :: 3 :: nil)) = Ok (1 / 2 :: 0 :: nil)).
  { unfold make_phi. cbn [oc0 oxs ouncollided map_result]. unfold phi_at. cbn [oc0 oN_ang sum_result ows].
    rewrite !(psi_at_outside _ _ 3) by (simpl; lra || lia).
    rewrite !(psi_at_cell (oc0 false (1 :: 3 :: nil)) _ 1 0); try exact rising0; try discriminate; try (simpl; lia); try (simpl; lra);
      try (apply cell_index_inside; [exact rising0|simpl; lia|simpl; lra|simpl; lra]).
    unfold cell_field, oc0. cbn [ogeom outM ou oedges]. rewrite !field_const by (simpl; lra). simpl (nth _ _ _). replace (1 - 0) with 1 by ring. rewrite sqrt_1. cbn [bind].
    simpl INR. f_equal; f_equal; [|f_equal]; lra. }
  destruct (C52_uncollided_added_iff_flag (oc0 false (1 :: 3 :: nil)) _ (fun x => 10 * x) (fun _ => eq_refl) E) as [A _].
  change (with_unc (oc0 false (1 :: 3 :: nil)) true) with (oc0 true (1 :: 3 :: nil)) in A. rewrite A. cbn [oc0 oxs map map2]. f_equal; f_equal; [|f_equal]; lra.
Qed.

(* ---------------------------------------------------------------- C53 *)
(** the solver's quadrature: any rule exact to degree 2M in a slab, more than M Chebyshev points in a sphere; nodes inside *)
Definition rule_ok (c : scfg) : Prop :=
  (match sgeom c with Slab => exact_to (squad c) (2 * sM c) | Sphere => (sM c <= 12)%nat /\ exists n, (sM c < n)%nat /\ squad c = quadrature_chebyshev n end) /\
  (forall p, In p (squad c) -> -1 < fst p < 1).
(** the output object of the initial state *)
Definition initial_output (c : scfg) (rows : list (list (nat -> R))) (edges : list R) (N_ang : nat) (ws : nat -> R) (xs : list R) : out_cfg :=
  {| ot := 0; oN_ang := N_ang; ows := ws; oxs := xs; ou := fun ang k j => nth k (nth ang rows nil) (fun _ => 0) j; outM := sM c;
     oedges := edges; ouncollided := false; ogeom := sgeom c; unc := fun _ _ => Ok 0 |}.
(** if in cell k the initial condition is a polynomial, the output at every point of the cell is that polynomial *)
Theorem C53_project_then_evaluate : forall c mus edges rows x0 x1 ws xs psi ang k i v, rule_ok c -> rising edges ->
  ic_x0 c edges = Ok x0 -> ic_x1 c edges = Ok x1 -> make_IC c mus edges = Ok rows ->
  psi_out (initial_output c rows edges (length mus) ws xs) = Ok psi ->
  (ang < length mus)%nat -> (S k < length edges)%nat -> (i < length xs)%nat ->
  let a := nth k edges 0 in let b := nth (S k) edges 0 in let x := nth i xs 0 in
  (forall y, a < y < b -> IC_function c x0 x1 y (nth ang mus 0) = Ok (field (sgeom c) (sM c) v a b y)) ->
  a < x <= b \/ (k = 0%nat /\ x = a) ->
  nth i (nth ang psi nil) 0 = field (sgeom c) (sM c) v a b x.
Proof.
  intros c mus edges rows x0 x1 ws xs psi ang k i v [Q1 Q2] H E0 E1 HI HP Ha Hk Hi a b x HF Hx.
  rewrite (C51_cell_polynomial_inside (initial_output c rows edges (length mus) ws xs) psi ang i k HP H); auto.
  - unfold initial_output. cbn [ogeom outM ou oedges oxs]. fold a b x. unfold field. apply sumn_ext. intros j Hj. f_equal.
    unfold make_IC in HI. rewrite E0, E1 in HI. cbn [bind] in HI.
    pose proof (map_result_nth_ok _ _ _ 0 nil HI ang Ha) as K. pose proof (ic_cells_nth _ _ _ _ _ _ K k Hk j ltac:(lia)) as K2. fold a b in K2.
    rewrite (ic_entry_field c x0 x1 a b (nth ang mus 0) v j) in K2; auto; [now injection K2 as <-|apply H; auto|lia].
  - cbn. intro G. rewrite G in Q1. apply Q1.
Qed.
Print Assumptions C53_project_then_evaluate.
Lemma field_constant g M k a b : a < b -> exists v, forall y, field g M v a b y = k.
Proof.
  intros H. assert (N : forall n, basis g 0 n a b <> 0).
  { intro y. unfold basis. destruct g; cbn [Nat.eqb].
    - rewrite leg_0. apply Rgt_not_eq. apply Rmult_lt_0_compat; [|lra]. apply sqrt_lt_R0. simpl (INR 0). apply Rdiv_lt_0_compat; lra.
    - rewrite cheb_0. apply Rgt_not_eq. pose proof PI_RGT_0. apply Rmult_lt_0_compat; [|lra]. apply sqrt_lt_R0. apply Rdiv_lt_0_compat; [lra|]. apply Rmult_lt_0_compat; lra. }
  exists (fun j => if (j =? 0)%nat then k / basis g 0 0 a b else 0). intro y. unfold field. rewrite (sumn_single _ _ 0%nat).
  - cbn [Nat.eqb]. assert (E : basis g 0 y a b = basis g 0 0 a b) by (unfold basis; destruct g; cbn [Nat.eqb]; rewrite ?leg_0, ?cheb_0; auto). rewrite E. field. apply N.
  - lia.
  - intros j _ Hj. apply Nat.eqb_neq in Hj. rewrite Hj. ring.
Qed.
(** the square pulse on a mesh that has edges at both ends of the pulse: the initial output is the pulse at every point right of the first edge *)
Theorem C53_square_pulse_reported_exactly : forall c mus edges rows ws xs psi ang i, rule_ok c -> rising edges -> sgeom c = Slab -> uncollided c = false ->
  sty_is c 0 1 = false -> sty_is c 1 1 = true -> sty_is c 0 2 = false -> 0 < sx0 c -> In (- sx0 c) edges -> In (sx0 c) edges -> make_IC c mus edges = Ok rows ->
  psi_out (initial_output c rows edges (length mus) ws xs) = Ok psi -> (ang < length mus)%nat -> (i < length xs)%nat ->
  nth 0 edges 0 < nth i xs 0 <= nth (length edges - 1) edges 0 ->
  nth i (nth ang psi nil) 0 = if Rltb (- sx0 c) (nth i xs 0) && Rleb (nth i xs 0) (sx0 c) then strength_s c / 2 else 0.
Proof.
  intros c mus edges rows ws xs psi ang i Q H G U T0 T1 T2 P I1 I2 HI HP Ha Hi Hx.
  assert (E0 : ic_x0 c edges = Ok (sx0 c)) by (unfold ic_x0; rewrite T0, Bool.andb_false_r; reflexivity).
  assert (E1 : ic_x1 c edges = Ok 0) by (unfold ic_x1; rewrite T2, Bool.andb_false_r; reflexivity).
  destruct (in_some_cell edges (nth i xs 0) H) as (k & Hk & Hxk); [lra|lra|].
  assert (V : forall y, nth k edges 0 < y <= nth (S k) edges 0 -> plane_and_square_IC c (sx0 c) y = plane_and_square_IC c (sx0 c) (nth i xs 0)).
  { assert (S : forall e y z, In e edges -> nth k edges 0 < y <= nth (S k) edges 0 -> nth k edges 0 < z <= nth (S k) edges 0 -> greater y e = greater z e).
    { intros e y z Ie Hy Hz. destruct (In_nth _ _ 0 Ie) as (n & Hn & <-). unfold greater. destruct (le_lt_dec n k) as [L|L].
      - pose proof (rising_le edges n k H L ltac:(lia)). rewrite !Rltb_true by lra. auto.
      - pose proof (rising_le edges (Datatypes.S k) n H L ltac:(lia)). rewrite !Rltb_false by lra. auto. }
    intros y Hy. unfold plane_and_square_IC. rewrite (S _ y (nth i xs 0) I1 Hy Hxk), (S _ y (nth i xs 0) I2 Hy Hxk). auto. }
  assert (Hab : nth k edges 0 < nth (S k) edges 0) by (apply H; auto).
  destruct (field_constant Slab (sM c) (plane_and_square_IC c (sx0 c) (nth i xs 0)) _ _ Hab) as [v Hv].
  pose proof (C53_project_then_evaluate c mus edges rows (sx0 c) 0 ws xs psi ang k i v Q H E0 E1 HI HP Ha Hk Hi) as K. cbv zeta in K.
  rewrite K; [|intros y Hy|auto].
  - rewrite G, Hv. unfold plane_and_square_IC. rewrite greater_window by lra. unfold SourceProofs.ind. destruct (_ && _); field.
  - unfold IC_function. rewrite G, U, T0, T1, Hv. f_equal. rewrite V by lra. ring.
Qed.
Print Assumptions C53_square_pulse_reported_exactly.
Example C53_example : let c := SCfg Slab [0; 1]%Z false true 0 1 1 1 1 3 2 midpoint_rule nil (fun _ => 0) (fun _ => 0) (fun _ _ => 0) in
  exists rows psi, make_IC c (1 / 2 :: nil) (-2 :: -1 :: 1 :: 2 :: nil) = Ok rows /\
  psi_out (initial_output c rows (-2 :: -1 :: 1 :: 2 :: nil) 1 (fun _ => 1) (1 :: 2 :: nil)) = Ok psi /\ nth 0 (nth 0 psi nil) 0 = 3 / 2 /\ nth 1 (nth 0 psi nil) 0 = 0.
Proof.
  intro c. assert (R0 : rising (-2 :: -1 :: 1 :: 2 :: nil)) by (split; [simpl; lia|]; intros [|[|[|n]]] Hn; simpl in *; lra || lia).
  assert (Q : rule_ok c).
  { split; [cbn; intros k Hk; apply midpoint_exact; lia|]. cbn. intros p [<-|[]]. simpl. lra. }
  assert (I : exists rows, make_IC c (1 / 2 :: nil) (-2 :: -1 :: 1 :: 2 :: nil) = Ok rows) by (cbn; eexists; reflexivity).
  destruct I as [rows I]. destruct (C51_output_succeeds (initial_output c rows (-2 :: -1 :: 1 :: 2 :: nil) 1 (fun _ => 1) (1 :: 2 :: nil)) R0) as (psi & P & _); [discriminate|].
  exists rows, psi. split; [exact I|]. split; [exact P|].
  rewrite !(C53_square_pulse_reported_exactly c (1 / 2 :: nil) (-2 :: -1 :: 1 :: 2 :: nil) rows (fun _ => 1) (1 :: 2 :: nil) psi); auto; try (cbn; lia); try (cbn; lra); try (cbn; auto 10; fail).
  cbn. split.
  - rewrite Rltb_true, Rleb_true by lra. reflexivity.
  - rewrite (Rleb_false 2 1) by lra. now rewrite Bool.andb_false_r.
Qed.

(* ---------------------------------------------------------------- C54 *)
Lemma psi_at_ends c ang : rising (oedges c) -> (ogeom c = Sphere -> (outM c <= 12)%nat) -> let n := length (oedges c) in
  psi_at c ang (nth 0 (oedges c) 0) = Ok (cell_field c ang 0 (nth 0 (oedges c) 0)) /\
  psi_at c ang (nth (n - 1) (oedges c) 0) = Ok (cell_field c ang (n - 2) (nth (n - 1) (oedges c) 0)).
Proof.
  intros H HM n. assert (H' := H). destruct H' as [L I]. split.
  - apply psi_at_cell; auto; [now apply cell_index_first|]. split; [lra|]. left. apply I. lia.
  - replace (n - 1)%nat with (S (n - 2)) by (unfold n in *; lia). assert (nth (n - 2) (oedges c) 0 < nth (S (n - 2)) (oedges c) 0) by (apply I; unfold n in *; lia).
    apply psi_at_cell; auto; [unfold n in *; lia|apply cell_index_inside; auto; [unfold n in *; lia|lra]|lra].
Qed.
(** the two entries of every direction are the expansions of the outermost cells at the outermost edges *)
Theorem C54_exit_distribution : forall check c, rising (oedges c) -> (ogeom c = Sphere -> (outM c <= 12)%nat) -> ouncollided c = false ->
  let n := length (oedges c) in let at0 := fun ang => cell_field c ang 0 (nth 0 (oedges c) 0) in let at1 := fun ang => cell_field c ang (n - 2) (nth (n - 1) (oedges c) 0) in
  get_exit_dist check c = Ok (map (fun ang => (at0 ang, at1 ang)) (seq 0 (oN_ang c)),
    sumn (oN_ang c) (fun ang => at0 ang * ows c ang) :: sumn (oN_ang c) (fun ang => at1 ang * ows c ang) :: nil).
Proof.
  intros check c H HM U n at0 at1. unfold get_exit_dist. assert (H' := H). destruct H' as [L _].
  rewrite (getitem_nth _ 0 0), (getneg_nth _ 1 0) by lia. cbn [bind]. fold n.
  rewrite (map_result_ok_in _ (fun ang => (at0 ang, at1 ang))).
  - cbn [bind]. unfold phi_at. rewrite (sum_result_ok _ _ (fun ang => at0 ang * ows c ang)).
    + cbn [bind]. rewrite (sum_result_ok _ _ (fun ang => at1 ang * ows c ang)); [rewrite U; reflexivity|].
      intros ang _. destruct (psi_at_ends c ang H HM) as [_ E]. fold n in E. rewrite E. reflexivity.
    + intros ang _. destruct (psi_at_ends c ang H HM) as [E _]. rewrite E. reflexivity.
  - intros ang _. destruct (psi_at_ends c ang H HM) as [E F]. fold n in F. rewrite E, F. reflexivity.
Qed.
Print Assumptions C54_exit_distribution.
(** with the uncollided flux: its values at the output points are added *)
Theorem C54_uncollided_part_uses_output_points : forall check c f d l r, rising (oedges c) -> (ogeom c = Sphere -> (outM c <= 12)%nat) ->
  (forall x, unc c x (ot c) = Ok (f x)) -> get_exit_dist check (with_unc c false) = Ok (d, l :: r :: nil) ->
  get_exit_dist check (with_unc c true) =
    match oxs c with
    | nil => Err (if check then ValueError else IndexError)
    | x0 :: nil => Ok (d, (l + f x0) :: (r + f x0) :: nil)
    | x0 :: x1 :: nil => Ok (d, (l + f x0) :: (r + f x1) :: nil)
    | x0 :: x1 :: _ => if check then Err ValueError else Ok (d, (l + f x0) :: (r + f x1) :: nil)
    end.
Proof.
  intros check c f d l r H HM F E. unfold get_exit_dist in *. cbn [with_unc oedges oN_ang oxs ouncollided unc ot] in *.
  change (psi_at (with_unc c true)) with (psi_at (with_unc c false)). change (phi_at (with_unc c true)) with (phi_at (with_unc c false)).
  destruct (getitem (oedges c) 0) as [e0|]; cbn [bind] in *; [|discriminate]. destruct (getneg (oedges c) 1) as [el|]; cbn [bind] in *; [|discriminate].
  destruct (map_result _ (seq 0 (oN_ang c))) as [d'|]; cbn [bind] in *; [|discriminate].
  destruct (phi_at _ e0) as [l'|]; cbn [bind] in *; [|discriminate]. destruct (phi_at _ el) as [r'|]; cbn [bind] in *; [|discriminate].
  injection E as <- <- <-. rewrite (map_result_ok_in _ f) by auto. cbn [bind]. unfold iadd.
  destruct (oxs c) as [|x0 [|x1 [|x2 xs]]]; destruct check; reflexivity.
Qed.
Print Assumptions C54_uncollided_part_uses_output_points.
Theorem C54_shape_check_fails_iff : forall c f, rising (oedges c) -> (ogeom c = Sphere -> (outM c <= 12)%nat) -> ouncollided c = true ->
  (forall x, unc c x (ot c) = Ok (f x)) -> (get_exit_dist true c = Err ValueError <-> (length (oxs c) <> 1 /\ length (oxs c) <> 2)%nat).
Proof.
  intros c f H HM U F. pose proof (C54_exit_distribution true (with_unc c false) H HM eq_refl) as E. cbv zeta in E.
  pose proof (C54_uncollided_part_uses_output_points true c f _ _ _ H HM F E) as K.
  assert (W : with_unc c true = c) by (destruct c; cbn in U; subst; reflexivity). rewrite W in K. rewrite K.
  destruct (oxs c) as [|x0 [|x1 [|x2 xs]]]; cbn [length]; split; intros; try lia; try discriminate; auto.
Qed.
Print Assumptions C54_shape_check_fails_iff.
Lemma phi02 : make_phi (oc0 false (0 :: 2 :: nil)) = Ok (1 / 2 :: 7 / 2 :: nil).
Proof.
  unfold make_phi. cbn [oc0 oxs ouncollided map_result]. unfold phi_at. cbn [oc0 oN_ang sum_result ows].
  rewrite !(psi_at_cell (oc0 false (0 :: 2 :: nil)) _ 0 0), !(psi_at_cell (oc0 false (0 :: 2 :: nil)) _ 2 1); try exact rising0; try discriminate; try (simpl; lia); try (simpl; lra);
    try (apply cell_index_inside; [exact rising0|simpl; lia|simpl; lra|simpl; lra]); try (apply (cell_index_first (0 :: 1 :: 2 :: nil)); exact rising0).
  unfold cell_field, oc0. cbn [ogeom outM ou oedges]. rewrite !field_const by (simpl; lra). simpl (nth _ _ _). replace (1 - 0) with 1 by ring. replace (2 - 1) with 1 by ring. rewrite sqrt_1. cbn [bind].
  simpl INR. f_equal. f_equal; [|f_equal]; lra.
Qed.
(** the exit scalar flux should be the scalar flux reported at the outermost edges *)
Theorem C54_exit_flux_is_the_flux_at_the_edges_refuted : exists c d l r phi0 phi1, rising (oedges c) /\ get_exit_dist false c = Ok (d, l :: r :: nil) /\
  make_phi {| ot := ot c; oN_ang := oN_ang c; ows := ows c; oxs := nth 0 (oedges c) 0 :: nth (length (oedges c) - 1) (oedges c) 0 :: nil; ou := ou c; outM := outM c; oedges := oedges c;
     ouncollided := ouncollided c; ogeom := ogeom c; unc := unc c |} = Ok (phi0 :: phi1 :: nil) /\ r <> phi1.
Proof.
  exists (oc0 true (1 :: 1 :: 1 :: nil)).
  pose proof (C54_exit_distribution false (oc0 false (1 :: 1 :: 1 :: nil)) rising0 ltac:(discriminate) eq_refl) as E. cbv zeta in E.
  pose proof (C54_uncollided_part_uses_output_points false (oc0 false (1 :: 1 :: 1 :: nil)) (fun x => 10 * x) _ _ _ rising0 ltac:(discriminate) (fun _ => eq_refl) E) as K.
  change (with_unc (oc0 false (1 :: 1 :: 1 :: nil)) true) with (oc0 true (1 :: 1 :: 1 :: nil)) in K. cbn [oxs oc0] in K.
  match type of K with _ = Ok (?d, ?l :: ?r :: nil) => exists d, l, r end.
  exists (1 / 2), (47 / 2). split; [exact rising0|]. split; [exact K|]. cbn [oc0 oedges length Nat.sub nth]. split.
  - destruct (C52_uncollided_added_iff_flag (oc0 false (0 :: 2 :: nil)) _ (fun x => 10 * x) (fun _ => eq_refl) phi02) as [A _].
    change (make_phi (oc0 true (0 :: 2 :: nil)) = Ok (1 / 2 :: 47 / 2 :: nil)).
    change (with_unc (oc0 false (0 :: 2 :: nil)) true) with (oc0 true (0 :: 2 :: nil)) in A. rewrite A. cbn [oc0 oxs map map2]. f_equal. f_equal; [|f_equal]; lra.
  - unfold cell_field. cbn [oc0 ogeom outM ou oedges length Nat.sub nth oN_ang sumn ows]. rewrite !field_const by lra. replace (2 - 1) with 1 by ring. rewrite sqrt_1. simpl INR. lra.
Qed.
Print Assumptions C54_exit_flux_is_the_flux_at_the_edges_refuted.
Example C54_example : get_exit_dist true (oc0 false nil) = Ok ((0, 3) :: (1, 4) :: nil, 1 / 2 :: 7 / 2 :: nil).
Proof.
  pose proof (C54_exit_distribution true (oc0 false nil) rising0 ltac:(discriminate) eq_refl) as E. cbv zeta in E. rewrite E.
  unfold cell_field. cbn [oc0 ogeom outM ou oedges length Nat.sub nth oN_ang sumn ows seq map]. rewrite !field_const by lra. replace (1 - 0) with 1 by ring. replace (2 - 1) with 1 by ring. rewrite sqrt_1. simpl INR.
  f_equal. f_equal; [f_equal; [f_equal; lra|f_equal; f_equal; lra]|]. f_equal; [lra|f_equal; lra].
Qed.

(* ---------------------------------------------------------------- C55 *)
Theorem C55_energy_never_reported : forall X check (p : post_cfg X) r, solve_output check p = Ok r -> List.Forall (List.Forall (fun e => e = 0)) (r_e r).
Proof.
  intros X check p r H. unfold solve_output in H. destruct (thermal_couple p) as [z|dict] eqn:T; [discriminate|].
  destruct (py_index (PyDict dict) "none") as [z|]; cbn [bind] in H; [|discriminate]. cbn [py_eq_int] in H.
  destruct (mesh_move p _ _) as [m|]; cbn [bind] in H; [|discriminate]. destruct (points p 3 _) as [xs|]; cbn [bind] in H; [|discriminate].
  assert (Z : forall l : list R, List.Forall (fun e => e = 0) (map (fun v => v * 0) l)) by (intro l; induction l; constructor; auto; ring).
  assert (ZZ : forall l : list (list R), List.Forall (List.Forall (fun e => e = 0)) (map (map (fun v => v * 0)) l)) by (intro l; induction l; cbn [map]; constructor; auto).
  destruct (eval_times p).
  - destruct (eval_loop _ _ _ _ _) as [[rows m']|]; cbn [bind] in H; [|discriminate]. destruct rows as [|row rows]; [discriminate|].
    injection H as <-. cbn [r_e map]. constructor; [apply Z|apply ZZ].
  - destruct (outputs _ _) as [[[phi psi] ex]|]; cbn [bind] in H; [|discriminate]. injection H as <-. cbn [r_e]. constructor; auto.
Qed.
Print Assumptions C55_energy_never_reported.
Definition post0 (evt : bool) (ch : bool) (arr : list R) : post_cfg (list R) :=
  {| tfin := 5; pN_ang := 2; pws := fun _ => 1; pM := 1; pgeom := Slab; puncollided := false; punc := fun _ _ => Ok 0;
     mesh0 := 0 :: 1 :: 2 :: nil; mesh_move := fun m _ => Ok m; mesh_edges := fun m => m; leg_rule := fun _ => midpoint_rule;
     choose_xs := ch; specified_xs := 1 / 2 :: nil; eval_times := evt; eval_array := arr; thermal_couple := PyDict (("none"%string, 0%Z) :: nil);
     y_last := fun _ _ _ => 1; y_at := fun _ _ _ _ => 1 |}.
(** a coupled run (thermal_couple['none'] = 0) reports an energy row, and the row is zero *)
Example C55_example : exists r e, solve_output true (post0 false true nil) = Ok r /\ r_e r = (e :: nil) :: nil /\ e = 0.
Proof.
  assert (R0 : rising (oedges (output_of (post0 false true nil) 5 (1 / 2 :: nil) (fun _ _ _ => 1) (0 :: 1 :: 2 :: nil)))) by exact rising0.
  unfold solve_output. cbn [post0 thermal_couple py_index find fst snd String.eqb Ascii.eqb Bool.eqb bind mesh_move mesh0 tfin mesh_edges points choose_xs specified_xs eval_times y_last].
  set (c := output_of _ _ _ _ _). destruct (phi_at_total c (1 / 2) R0 ltac:(discriminate)) as [v V].
  assert (M : make_phi c = Ok (v :: nil)) by (unfold make_phi; cbn [c output_of oxs map_result]; fold c; rewrite V; reflexivity).
  destruct (C51_output_succeeds c R0 ltac:(discriminate)) as (psi & P & _).
  pose proof (C54_exit_distribution true c R0 ltac:(discriminate) eq_refl) as G. cbv zeta in G.
  unfold outputs. rewrite M, P, G. cbn [bind py_eq_int]. eexists. exists (v * 0). split; [reflexivity|]. split; [reflexivity|]. ring.
Qed.

(* ---------------------------------------------------------------- C90 *)
(** default points: the second call of find_nodes lacks the geometry *)
Theorem C90_series_with_default_points_fails : forall X check (p : post_cfg X), eval_times p = true -> choose_xs p = false ->
  forall r, solve_output check p <> Ok r.
Proof.
  intros X check p T C r H. unfold solve_output in H. destruct (py_index _ _); cbn [bind] in H; [|discriminate].
  destruct (mesh_move p _ _) as [m|]; cbn [bind] in H; [|discriminate]. destruct (points p 3 _); cbn [bind] in H; [|discriminate].
  rewrite T in H. destruct (eval_array p) as [|tm l]; cbn [eval_loop bind] in H; [discriminate|].
  destruct (mesh_move p m tm); cbn [bind] in H; [|discriminate]. unfold points in H. rewrite C in H. discriminate.
Qed.
Print Assumptions C90_series_with_default_points_fails.
Theorem C90_empty_series_fails : forall X check (p : post_cfg X), eval_times p = true -> eval_array p = nil -> forall r, solve_output check p <> Ok r.
Proof.
  intros X check p T C r H. unfold solve_output in H. destruct (py_index _ _); cbn [bind] in H; [|discriminate].
  destruct (mesh_move p _ _) as [m|]; cbn [bind] in H; [|discriminate]. destruct (points p 3 _); cbn [bind] in H; [|discriminate].
  rewrite T, C in H. discriminate.
Qed.
Print Assumptions C90_empty_series_fails.
(** the mesh after moving to a list of times in order *)
Fixpoint moved {X} (p : post_cfg X) (m : X) (ts : list R) : result X :=
  match ts with nil => Ok m | t :: r => m' <- mesh_move p m t ;; moved p m' r end.
Lemma eval_loop_rows {X} check (p : post_cfg X) : choose_xs p = true -> forall times m it rows m', eval_loop check p m it times = Ok (rows, m') ->
  length rows = length times /\ moved p m times = Ok m' /\ forall i, (i < length times)%nat -> exists mi out, moved p m (firstn (S i) times) = Ok mi /\
    nth_error rows i = Some (specified_xs p, out) /\ outputs check (output_of p (nth i times 0) (specified_xs p) (y_at p (it + i)%nat) (mesh_edges p mi)) = Ok out.
Proof.
  intro C. induction times as [|tm times IH]; intros m it rows m' H.
  - injection H as <- <-. split; [auto|]. split; [auto|]. simpl. intros; lia.
  - cbn [eval_loop] in H. destruct (mesh_move p m tm) as [m1|] eqn:Em; cbn [bind] in H; [|discriminate].
    unfold points in H. rewrite C in H. cbn [bind] in H. destruct (outputs check _) as [out|] eqn:Eo; cbn [bind] in H; [|discriminate].
    destruct (eval_loop check p m1 (S it) times) as [[rows' m2]|] eqn:El; cbn [bind] in H; [|discriminate]. injection H as <- <-.
    destruct (IH _ _ _ _ El) as (A & B & D). split; [simpl; lia|]. split; [cbn [moved]; rewrite Em; exact B|].
    intros i Hi. destruct i as [|i].
    + exists m1, out. cbn [firstn moved]. rewrite Em. split; [reflexivity|]. split; [reflexivity|]. cbn [nth]. rewrite Nat.add_0_r. exact Eo.
    + destruct (D i ltac:(simpl in Hi; lia)) as (mi & out' & D1 & D2 & D3). exists mi, out'. split; [|split].
      * change (firstn (S (S i)) (tm :: times)) with (tm :: firstn (S i) times). cbn [moved]. rewrite Em. exact D1.
      * exact D2.
      * cbn [nth]. replace (it + S i)%nat with (S it + i)%nat by lia. exact D3.
Qed.
(** with chosen points row i holds the outputs of state i on the mesh moved to tfinal and then through the times up to i *)
Theorem C90_series_rows : forall X check (p : post_cfg X) r, eval_times p = true -> choose_xs p = true -> solve_output check p = Ok r ->
  let n := length (eval_array p) in
  length (r_phi r) = n /\ length (r_psi r) = n /\ length (r_exit r) = n /\ forall i, (i < n)%nat ->
  exists mi phi psi ex, moved p (mesh0 p) (tfin p :: firstn (S i) (eval_array p)) = Ok mi /\
    nth_error (r_xs r) i = Some (specified_xs p) /\ nth_error (r_phi r) i = Some phi /\ nth_error (r_psi r) i = Some psi /\ nth_error (r_exit r) i = Some (snd ex) /\
    let c := output_of p (nth i (eval_array p) 0) (specified_xs p) (y_at p i) (mesh_edges p mi) in
    make_phi c = Ok phi /\ psi_out c = Ok psi /\ get_exit_dist check c = Ok ex.
Proof.
  intros X check p r T C H n. unfold solve_output in H. destruct (py_index _ _) eqn:PI; cbn [bind] in H; [|discriminate].
  destruct (mesh_move p _ _) as [m|] eqn:Em; cbn [bind] in H; [|discriminate]. destruct (points p 3 _); cbn [bind] in H; [|discriminate].
  rewrite T in H. destruct (eval_loop _ _ _ _ _) as [[rows m']|] eqn:El; cbn [bind] in H; [|discriminate].
  destruct (eval_loop_rows check p C _ _ _ _ _ El) as (A & _ & D).
  assert (Q : exists es, Ok {| r_xs := map fst rows; r_phi := map (fun r => fst (fst (snd r))) rows; r_psi := map (fun r => snd (fst (snd r))) rows;
              r_dist := map (fun r => fst (snd (snd r))) rows; r_exit := map (fun r => snd (snd (snd r))) rows; r_e := es; r_edges := mesh_edges p m' |} = Ok r).
  { destruct rows; [discriminate|]. match type of H with bind ?e _ = _ => destruct e as [es|]; cbn [bind] in H; [|discriminate] end. exists es. exact H. }
  destruct Q as [es Q]. injection Q as <-. cbn [r_xs r_phi r_psi r_exit]. rewrite !map_length. split; [auto|]. split; [auto|]. split; [auto|].
  intros i Hi. destruct (D i Hi) as (mi & out & D1 & D2 & D3). exists mi. unfold outputs in D3.
  destruct (make_phi _) as [phi|] eqn:E1; cbn [bind] in D3; [|discriminate]. destruct (psi_out _) as [psi|] eqn:E2; cbn [bind] in D3; [|discriminate].
  destruct (get_exit_dist _ _) as [ex|] eqn:E3; cbn [bind] in D3; [|discriminate]. injection D3 as <-.
  exists phi, psi, ex. split; [cbn [moved]; rewrite Em; exact D1|]. rewrite !nth_error_map, D2. cbn [option_map fst snd]. auto 10.
Qed.
Print Assumptions C90_series_rows.
Example C90_example : exists r, solve_output true (post0 true true (1 :: 2 :: nil)) = Ok r /\ length (r_phi r) = 2%nat.
Proof.
  assert (O : forall t u, exists out, outputs true (output_of (post0 true true (1 :: 2 :: nil)) t (1 / 2 :: nil) u (0 :: 1 :: 2 :: nil)) = Ok out).
  { intros t u. set (c := output_of _ _ _ _ _). assert (R0 : rising (oedges c)) by exact rising0.
    destruct (phi_at_total c (1 / 2) R0 ltac:(discriminate)) as [v V].
    assert (M : make_phi c = Ok (v :: nil)) by (unfold make_phi; cbn [c output_of oxs map_result]; fold c; rewrite V; reflexivity).
    destruct (C51_output_succeeds c R0 ltac:(discriminate)) as (psi & P & _).
    pose proof (C54_exit_distribution true c R0 ltac:(discriminate) eq_refl) as G. cbv zeta in G.
    unfold outputs. rewrite M, P, G. cbn [bind]. eexists. reflexivity. }
  destruct (O 1 (fun _ _ _ => 1)) as [o1 O1]. destruct (O 2 (fun _ _ _ => 1)) as [o2 O2].
  assert (H : exists r, solve_output true (post0 true true (1 :: 2 :: nil)) = Ok r).
  { unfold solve_output. cbn [post0 thermal_couple py_index find fst snd String.eqb Ascii.eqb Bool.eqb bind mesh_move mesh0 tfin mesh_edges points choose_xs specified_xs eval_times eval_array eval_loop y_at].
    fold (post0 true true (1 :: 2 :: nil)). rewrite O1. cbn [bind]. rewrite O2. cbn [bind py_eq_int]. eexists. reflexivity. }
  destruct H as [r H]. exists r. split; [exact H|]. apply (C90_series_rows _ true (post0 true true (1 :: 2 :: nil)) r eq_refl eq_refl H).
Qed.

(* ---------------------------------------------------------------- C91 *)
(** the particle number in the report: the integral of the collided scalar flux over the mesh *)
Definition reported_phi (c : out_cfg) (x : R) : R := match phi_at c x with Ok v => v | Err _ => 0 end.
Lemma reported_cell c x k : rising (oedges c) -> (ogeom c = Sphere -> (outM c <= 12)%nat) -> (S k < length (oedges c))%nat -> nth k (oedges c) 0 < x <= nth (S k) (oedges c) 0 ->
  reported_phi c x = sumn (oN_ang c) (fun ang => ows c ang * cell_field c ang k x).
Proof.
  intros H HM Hk Hx. unfold reported_phi, phi_at. rewrite (sum_result_ok _ _ (fun ang => ows c ang * cell_field c ang k x)); [auto|].
  intros ang _. rewrite (psi_at_cell c ang x k); auto; [cbn [bind]; f_equal; ring|apply cell_index_inside; tauto|lra].
Qed.
Theorem C91_reported_particle_number : forall c, rising (oedges c) -> ogeom c = Slab ->
  is_RInt (reported_phi c) (nth 0 (oedges c) 0) (nth (length (oedges c) - 1) (oedges c) 0)
    (sumn (length (oedges c) - 1) (fun k => sqrt (nth (S k) (oedges c) 0 - nth k (oedges c) 0) * sumn (oN_ang c) (fun ang => ows c ang * ou c ang k 0%nat))).
Proof.
  intros c H G. assert (K : forall n, (n < length (oedges c))%nat -> is_RInt (reported_phi c) (nth 0 (oedges c) 0) (nth n (oedges c) 0)
    (sumn n (fun k => sqrt (nth (S k) (oedges c) 0 - nth k (oedges c) 0) * sumn (oN_ang c) (fun ang => ows c ang * ou c ang k 0%nat)))).
  { induction n as [|n IH]; intro Hn; [exact (@is_RInt_point R_NormedModule (reported_phi c) _)|]. cbn [sumn].
    refine (@is_RInt_Chasles R_NormedModule (reported_phi c) _ (nth n (oedges c) 0) _ _ _ (IH ltac:(lia)) _).
    assert (L : nth n (oedges c) 0 < nth (S n) (oedges c) 0) by (apply H; auto).
    apply (is_RInt_ext (fun x => sumn (oN_ang c) (fun ang => ows c ang * cell_field c ang n x))).
    - intros x Hx. rewrite Rmin_left, Rmax_right in Hx by lra. symmetry. apply reported_cell; auto; [intro E; congruence|lra].
    - rewrite <- sumn_scal. eapply int_eq; [apply (int_sumn (oN_ang c) (fun ang x => ows c ang * cell_field c ang n x)); intros ang _; apply int_scal; unfold cell_field; rewrite G; apply int_field; auto|].
      apply sumn_ext. intros; cbv beta; ring. }
  apply K. destruct H. lia.
Qed.
Print Assumptions C91_reported_particle_number.
Example C91_example : is_RInt (reported_phi (oc0 false nil)) 0 2 4.
Proof.
  eapply int_eq; [exact (C91_reported_particle_number (oc0 false nil) rising0 eq_refl)|].
  cbn [oc0 oedges length Nat.sub nth oN_ang sumn ows ou Nat.eqb]. replace (1 - 0) with 1 by ring. replace (2 - 1) with 1 by ring. rewrite sqrt_1. simpl INR. lra.
Qed.
