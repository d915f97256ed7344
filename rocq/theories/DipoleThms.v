(** C176: initial coefficients of the dipole and of the pulses in a sphere, as the output reports them. *)
From Verif Require Import Py PyLemmas FuncModel DGModel DGSpec SourceModel SourceProofs SourceIC SourceThms ClosureThms OutModel OutProofs OutThms.
Local Open Scope R_scope.

Lemma seqM_first n f e : f 0%nat = Err e -> (0 < n)%nat -> seqM n f = Err e.
Proof. intros H Hn. induction n as [|n IH]; [lia|]. cbn [seqM]. destruct n as [|n]; [cbn [seqM bind]; now rewrite H|]. rewrite IH by lia. reflexivity. Qed.
Lemma seqM_total n f : (forall j, (j < n)%nat -> exists v, f j = Ok v) -> exists g, seqM n f = Ok g.
Proof.
  induction n as [|n IH]; intros H; [eexists; reflexivity|]. destruct IH as [g G]; [intros; apply H; lia|]. destruct (H n) as [v E]; [lia|].
  cbn [seqM]. rewrite G, E. cbn [bind]. eexists. reflexivity.
Qed.
Lemma map_result_all_ok {A B} (f : A -> result B) l : (forall x, In x l -> exists y, f x = Ok y) -> exists r, map_result f l = Ok r.
Proof.
  induction l as [|x l IH]; intros H; [now exists nil|]. destruct (H x) as [y E]; [now left|]. destruct IH as [r R]; [intros; apply H; now right|].
  exists (y :: r). cbn [map_result]. now rewrite E, R.
Qed.
(** an initial condition with a value everywhere gives coefficients *)
Lemma make_IC_total c mus edges x0 x1 (F : R -> R -> R) : (sgeom c = Sphere -> (sM c <= 12)%nat) -> ic_x0 c edges = Ok x0 -> ic_x1 c edges = Ok x1 ->
  (forall y mu, IC_function c x0 x1 y mu = Ok (F y mu)) -> exists rows, make_IC c mus edges = Ok rows.
Proof.
  intros HM E0 E1 HF. unfold make_IC. rewrite E0, E1. cbn [bind]. apply map_result_all_ok. intros mu _.
  induction edges as [|a edges IH] in E0, E1 |- *; [eexists; reflexivity|]. clear E0 E1 IH. revert a. induction edges as [|b rest IH]; intros a; [eexists; reflexivity|].
  change (ic_cells c x0 x1 mu (a :: b :: rest)) with (u <- seqM (sM c + 1) (ic_entry c x0 x1 a b mu) ;; us <- ic_cells c x0 x1 mu (b :: rest) ;; Ok (u :: us)).
  destruct (seqM_total (sM c + 1) (ic_entry c x0 x1 a b mu)) as [u Eu].
  { intros j Hj. unfold ic_entry. destruct (sgeom c) eqn:G.
    - erewrite (map_result_ok_in _ (fun p => snd p * F ((b - a) / 2 * fst p + (a + b) / 2) mu * normPn j ((b - a) / 2 * fst p + (a + b) / 2) a b)); [cbn [bind]; eexists; reflexivity|].
      intros p _. cbv zeta. now rewrite HF.
    - match goal with |- context [map_result ?f ?q] => destruct (map_result_all_ok f q) as [r R] end; [|rewrite R; cbn [bind]; eexists; reflexivity].
      intros p _. cbv zeta. rewrite HF. cbn [bind]. unfold normTn, eval_Tn. specialize (HM eq_refl).
      do 13 (destruct j as [|j]; [cbn [bind]; eexists; reflexivity|]). lia. }
  rewrite Eu. cbn [bind]. destruct (IH b) as [us Es]. rewrite Es. cbn [bind]. eexists. reflexivity.
Qed.
(** a condition that is constant on every cell is reported as it is *)
Lemma stepwise_reported c mus edges rows x0 x1 ws xs psi ang i (F : R -> R) : rule_ok c -> rising edges ->
  ic_x0 c edges = Ok x0 -> ic_x1 c edges = Ok x1 -> make_IC c mus edges = Ok rows ->
  psi_out (initial_output c rows edges (length mus) ws xs) = Ok psi -> (ang < length mus)%nat -> (i < length xs)%nat ->
  nth 0 edges 0 < nth i xs 0 <= nth (length edges - 1) edges 0 ->
  (forall y, IC_function c x0 x1 y (nth ang mus 0) = Ok (F y)) ->
  (forall k y z, (S k < length edges)%nat -> nth k edges 0 < y <= nth (S k) edges 0 -> nth k edges 0 < z <= nth (S k) edges 0 -> F y = F z) ->
  nth i (nth ang psi nil) 0 = F (nth i xs 0).
Proof.
  intros Q H E0 E1 HI HP Ha Hi Hx HF HC. destruct (in_some_cell edges (nth i xs 0) H) as (k & Hk & Hxk); [lra|lra|].
  assert (Hab : nth k edges 0 < nth (S k) edges 0) by (apply H; auto).
  destruct (field_constant (sgeom c) (sM c) (F (nth i xs 0)) _ _ Hab) as [v Hv].
  pose proof (C53_project_then_evaluate c mus edges rows x0 x1 ws xs psi ang k i v Q H E0 E1 HI HP Ha Hk Hi) as K. cbv zeta in K.
  rewrite K; [now rewrite Hv|intros y Hy|auto]. rewrite HF, Hv. f_equal. apply (HC k); auto; lra.
Qed.
Lemma greater_cell edges k e y z : rising edges -> In e edges -> (S k < length edges)%nat -> nth k edges 0 < y <= nth (S k) edges 0 -> nth k edges 0 < z <= nth (S k) edges 0 ->
  greater y e = greater z e.
Proof.
  intros H Ie Hk Hy Hz. destruct (In_nth _ _ 0 Ie) as (n & Hn & <-). unfold greater. destruct (le_lt_dec n k) as [L|L].
  - pose proof (rising_le edges n k H L ltac:(lia)). now rewrite !Rltb_true by lra.
  - pose proof (rising_le edges (S k) n H L ltac:(lia)). now rewrite !Rltb_false by lra.
Qed.
Lemma getitem_nth (l : list R) k : (k < length l)%nat -> getitem l k = Ok (nth k l 0).
Proof. intros H. unfold getitem. now rewrite (nth_error_nth' _ 0) by auto. Qed.

(** the search before the width of the dipole is taken succeeds exactly if a cell holds -x0 *)
Theorem C176_dipole_search : forall edges x0,
  (dipole_search edges x0 = Ok tt <-> exists k, (S k < length edges)%nat /\ nth k edges 0 <= - x0 <= nth (S k) edges 0) /\
  (dipole_search edges x0 <> Ok tt -> dipole_search edges x0 = Err IndexError).
Proof.
  intros edges x0. induction edges as [|a [|b rest] IH].
  - split; [split; [discriminate|intros (k & Hk & _); simpl in Hk; lia]|reflexivity].
  - split; [split; [discriminate|intros (k & Hk & _); simpl in Hk; lia]|reflexivity].
  - change (dipole_search (a :: b :: rest) x0) with (if Rleb a (- x0) && Rleb (- x0) b then Ok tt else dipole_search (b :: rest) x0).
    destruct (Rleb_spec a (- x0)) as [A|A]; [destruct (Rleb_spec (- x0) b) as [B|B]|]; cbn [andb].
    + split; [|congruence]. split; [|auto]. intros _. exists 0%nat. cbn. split; [lia|lra].
    + destruct IH as [I1 I2]. split; [|exact I2]. rewrite I1. split.
      * intros (k & Hk & Hb). exists (S k). split; [cbn [length] in *; lia|exact Hb].
      * intros ([|k] & Hk & Hb); [cbn in Hb; lra|]. exists k. split; [cbn [length] in *; lia|exact Hb].
    + destruct IH as [I1 I2]. split; [|exact I2]. rewrite I1. split.
      * intros (k & Hk & Hb). exists (S k). split; [cbn [length] in *; lia|exact Hb].
      * intros ([|k] & Hk & Hb); [cbn in Hb; lra|]. exists k. split; [cbn [length] in *; lia|exact Hb].
Qed.
Print Assumptions C176_dipole_search.

Definition is_dipole (c : scfg) : Prop := sgeom c = Slab /\ uncollided c = false /\ sty_is c 0 1 = false /\ sty_is c 1 1 = false /\ sty_is c 2 1 = false /\
  sty_is c 3 1 = false /\ sty_is c 4 1 && sty_is c 3 0 = false /\ sty_is c 0 2 = true.
Lemma dipole_function c x0 x1 y mu : is_dipole c -> x1 <> 0 -> IC_function c x0 x1 y mu = Ok (dipole c x1 y / Rabs x1).
Proof. intros (G & U & T0 & T1 & T2 & T3 & T4 & T5) H. unfold IC_function. now rewrite G, U, T0, T1, T2, T3, T4, T5, Reqb_false. Qed.

(** Static dipole on an even number of cells with an edge in the middle at 0 and the two middle cells equally wide: each
    direction gets -strength/2 and +strength/2 spread evenly over the two middle cells and nothing elsewhere. *)
Theorem C176_dipole_reported : forall c mus edges n ws xs, is_dipole c -> smoving c = false -> rule_ok c -> rising edges -> (1 <= n)%nat -> length edges = (2 * n + 1)%nat ->
  nth n edges 0 = 0 -> nth (n - 1) edges 0 = - nth (n + 1) edges 0 -> (exists k, (S k < length edges)%nat /\ nth k edges 0 <= - sx0 c <= nth (S k) edges 0) ->
  let h := nth (n + 1) edges 0 in
  exists rows, make_IC c mus edges = Ok rows /\
  forall psi ang i, psi_out (initial_output c rows edges (length mus) ws xs) = Ok psi -> (ang < length mus)%nat -> (i < length xs)%nat ->
  nth 0 edges 0 < nth i xs 0 <= nth (length edges - 1) edges 0 ->
  nth i (nth ang psi nil) 0 = (if Rltb (- h) (nth i xs 0) && Rleb (nth i xs 0) 0 then - (strength_s c / (2 * h))
                               else if Rltb 0 (nth i xs 0) && Rleb (nth i xs 0) h then strength_s c / (2 * h) else 0).
Proof.
  intros c mus edges n ws xs D Mv Q H Hn L Z0 Zs HS h. pose proof D as (G & U & T0 & T1 & T2 & T3 & T4 & T5).
  assert (Hh : 0 < h). { unfold h. pose proof (rising_lt edges n (n + 1) H ltac:(lia) ltac:(lia)). lra. }
  assert (E0 : ic_x0 c edges = Ok (sx0 c)) by (unfold ic_x0; rewrite T0, Bool.andb_false_r; reflexivity).
  assert (E1 : ic_x1 c edges = Ok (- h)).
  { unfold ic_x1. rewrite Mv, T5, U, L. replace (2 * n + 1 - 1)%nat with (2 * n)%nat by lia.
    assert (Ev : Nat.even (2 * n) = true) by (apply Nat.even_spec; now exists n). rewrite Ev. cbn [negb andb].
    destruct (C176_dipole_search edges (sx0 c)) as [S _]. rewrite (proj2 S HS). cbn [bind]. rewrite Nat.mul_comm, Nat.div_mul by lia.
    rewrite !getitem_nth by lia. cbn [bind]. rewrite Z0. unfold h. f_equal. ring. }
  assert (N : - h <> 0) by lra. assert (A : Rabs (- h) = h) by (rewrite Rabs_Ropp; apply Rabs_pos_eq; lra).
  destruct (make_IC_total c mus edges (sx0 c) (- h) (fun y _ => dipole c (- h) y / Rabs (- h))) as [rows R]; auto; [congruence|intros; now apply dipole_function|].
  exists rows. split; [auto|]. intros psi ang i HP Ha Hi Hx.
  rewrite (stepwise_reported c mus edges rows (sx0 c) (- h) ws xs psi ang i (fun y => dipole c (- h) y / Rabs (- h)) Q H E0 E1 R HP Ha Hi Hx).
  - unfold dipole. cbv zeta. rewrite A, !greater_window by lra. unfold ind.
    destruct (Rltb_spec (- h) (nth i xs 0)), (Rleb_spec (nth i xs 0) 0), (Rltb_spec 0 (nth i xs 0)), (Rleb_spec (nth i xs 0) h); cbn [andb]; try lra; field; lra.
  - intros y. now apply dipole_function.
  - intros k y z Hk Hy Hz. unfold dipole. cbv zeta. rewrite A.
    assert (I0 : In 0 edges) by (rewrite <- Z0; apply nth_In; lia). assert (Ih : In h edges) by (unfold h; apply nth_In; lia).
    assert (Im : In (- h) edges) by (unfold h; rewrite <- Zs; apply nth_In; lia).
    rewrite (greater_cell edges k (- h) y z), (greater_cell edges k 0 y z), (greater_cell edges k h y z) by auto. reflexivity.
Qed.
Print Assumptions C176_dipole_reported.
(** without cells of their own (a moving mesh or an odd number of cells) the dipole has width zero, and the coefficients are 0/0 *)
Theorem C176_dipole_without_width : forall c mus edges, is_dipole c -> smoving c = true \/ Nat.even (length edges - 1) = false -> (2 <= length edges)%nat -> mus <> nil -> squad c <> nil ->
  make_IC c mus edges = Err NaN.
Proof.
  intros c mus edges D HM L Hm Hq. pose proof D as (G & U & T0 & T1 & T2 & T3 & T4 & T5).
  assert (E0 : ic_x0 c edges = Ok (sx0 c)) by (unfold ic_x0; rewrite T0, Bool.andb_false_r; reflexivity).
  assert (E1 : ic_x1 c edges = Ok 0) by (unfold ic_x1; destruct HM as [->| ->]; cbn [negb andb]; rewrite ?Bool.andb_false_r; reflexivity).
  unfold make_IC. rewrite E0, E1. cbn [bind]. destruct mus as [|mu mus]; [congruence|]. cbn [map_result].
  destruct edges as [|a [|b rest]]; [simpl in L; lia|simpl in L; lia|].
  change (ic_cells c (sx0 c) 0 mu (a :: b :: rest)) with (u <- seqM (sM c + 1) (ic_entry c (sx0 c) 0 a b mu) ;; us <- ic_cells c (sx0 c) 0 mu (b :: rest) ;; Ok (u :: us)).
  rewrite (seqM_first (sM c + 1) (ic_entry c (sx0 c) 0 a b mu) NaN); [reflexivity| |lia].
  unfold ic_entry. rewrite G. destruct (squad c) as [|p q]; [congruence|]. cbn [map_result]. cbv zeta. unfold IC_function. rewrite G, U, T0, T1, T2, T3, T4, T5, Reqb_refl. reflexivity.
Qed.
Print Assumptions C176_dipole_without_width.

(** Point pulse in a sphere, static mesh with an even number of cells starting at the centre: the value strength/h^3 in the first
    cell, whatever the configured radius *)
Theorem C176_point_pulse_reported : forall c mus edges n ws xs, sgeom c = Sphere -> uncollided c = false -> sty_is c 0 1 = true -> smoving c = false ->
  rule_ok c -> rising edges -> length edges = (2 * n + 1)%nat -> nth 0 edges 0 = 0 ->
  let h := nth 1 edges 0 in
  exists rows, make_IC c mus edges = Ok rows /\
  forall psi ang i, psi_out (initial_output c rows edges (length mus) ws xs) = Ok psi -> (ang < length mus)%nat -> (i < length xs)%nat ->
  0 < nth i xs 0 <= nth (length edges - 1) edges 0 ->
  nth i (nth ang psi nil) 0 = if Rleb (nth i xs 0) h then strength_s c / h ^ 3 else 0.
Proof.
  intros c mus edges n ws xs G U T Mv Q H L Z0 h. assert (L2 : (2 <= length edges)%nat) by apply H.
  assert (Hh : 0 < h). { unfold h. pose proof (rising_lt edges 0 1 H ltac:(lia) ltac:(lia)). lra. }
  assert (E0 : ic_x0 c edges = Ok h).
  { unfold ic_x0. rewrite Mv, T, U, L. replace (2 * n + 1 - 1)%nat with (2 * n)%nat by lia.
    assert (Ev : Nat.even (2 * n) = true) by (apply Nat.even_spec; now exists n). rewrite Ev. cbn [negb andb]. rewrite G.
    rewrite !getitem_nth by lia. cbn [bind]. rewrite Z0. unfold h. f_equal. ring. }
  assert (T2 : sty_is c 0 2 = false).
  { unfold sty_is in *. apply Z.eqb_eq in T. rewrite T. reflexivity. }
  assert (E1 : ic_x1 c edges = Ok 0) by (unfold ic_x1; rewrite T2, Bool.andb_false_r; reflexivity).
  assert (F : forall y mu, IC_function c h 0 y mu = Ok (point_pulse c h y / h ^ 3)) by (intros; unfold IC_function; rewrite G, U, T, Reqb_false by lra; reflexivity).
  destruct (make_IC_total c mus edges h 0 (fun y _ => point_pulse c h y / h ^ 3)) as [rows R]; auto.
  { intros _. destruct Q as [Q _]. rewrite G in Q. apply Q. }
  exists rows. split; [auto|]. intros psi ang i HP Ha Hi Hx.
  rewrite (stepwise_reported c mus edges rows h 0 ws xs psi ang i (fun y => point_pulse c h y / h ^ 3) Q H E0 E1 R HP Ha Hi); [|rewrite Z0; exact Hx|auto|].
  - unfold point_pulse. rewrite greater_window by lra. unfold ind. rewrite Rltb_true by lra. cbn [andb]. destruct (Rleb _ _); field; lra.
  - intros k y z Hk Hy Hz. unfold point_pulse.
    assert (I0 : In 0 edges) by (rewrite <- Z0; apply nth_In; lia). assert (Ih : In h edges) by (unfold h; apply nth_In; lia).
    rewrite (greater_cell edges k 0 y z), (greater_cell edges k h y z) by auto. reflexivity.
Qed.
Print Assumptions C176_point_pulse_reported.
(** Shell source: half of strength over the volume of the ball of radius x0, inside it, if x0 is an edge *)
Theorem C176_shell_reported : forall c mus edges ws xs, sgeom c = Sphere -> uncollided c = false -> sty_is c 0 1 = false -> sty_is c 1 1 = true -> sty_is c 0 2 = false ->
  rule_ok c -> rising edges -> nth 0 edges 0 = 0 -> 0 < sx0 c -> In (sx0 c) edges ->
  exists rows, make_IC c mus edges = Ok rows /\
  forall psi ang i, psi_out (initial_output c rows edges (length mus) ws xs) = Ok psi -> (ang < length mus)%nat -> (i < length xs)%nat ->
  0 < nth i xs 0 <= nth (length edges - 1) edges 0 ->
  nth i (nth ang psi nil) 0 = if Rleb (nth i xs 0) (sx0 c) then strength_s c / (4 / 3 * PI * sx0 c ^ 3) / 2 else 0.
Proof.
  intros c mus edges ws xs G U T0 T1 T2 Q H Z0 Hp Ip. assert (L2 : (2 <= length edges)%nat) by apply H. pose proof PI_RGT_0.
  assert (E0 : ic_x0 c edges = Ok (sx0 c)) by (unfold ic_x0; rewrite T0, Bool.andb_false_r; reflexivity).
  assert (E1 : ic_x1 c edges = Ok 0) by (unfold ic_x1; rewrite T2, Bool.andb_false_r; reflexivity).
  assert (F : forall y mu, IC_function c (sx0 c) 0 y mu = Ok (shell_IC c (sx0 c) y)) by (intros; unfold IC_function; rewrite G, U, T0, T1, Reqb_false by lra; reflexivity).
  destruct (make_IC_total c mus edges (sx0 c) 0 (fun y _ => shell_IC c (sx0 c) y)) as [rows R]; auto.
  { intros _. destruct Q as [Q _]. rewrite G in Q. apply Q. }
  exists rows. split; [auto|]. intros psi ang i HP Ha Hi Hx.
  rewrite (stepwise_reported c mus edges rows (sx0 c) 0 ws xs psi ang i (shell_IC c (sx0 c)) Q H E0 E1 R HP Ha Hi); [|rewrite Z0; exact Hx|auto|].
  - unfold shell_IC. rewrite greater_window by lra. unfold ind. rewrite Rltb_true by lra. cbn [andb]. destruct (Rleb _ _); field; lra.
  - intros k y z Hk Hy Hz. unfold shell_IC.
    assert (I0 : In 0 edges) by (rewrite <- Z0; apply nth_In; lia).
    rewrite (greater_cell edges k 0 y z), (greater_cell edges k (sx0 c) y z) by auto. reflexivity.
Qed.
Print Assumptions C176_shell_reported.

(** the weights of the directions, build_problem.py 103 *)
Theorem C49_list_of_weights : forall ws, rsum ws <> 0 -> rsum (normalise ws) = 1 /\ length (normalise ws) = length ws /\
  forall i j, nth i (normalise ws) 0 * nth j ws 0 = nth j (normalise ws) 0 * nth i ws 0.
Proof.
  intros ws H. unfold normalise. split; [|split; [apply map_length|]].
  - assert (K : forall s l, rsum (map (fun w => w / s) l) = rsum l / s).
    { intros s l. induction l as [|w l IH]; cbn [map]; [unfold rsum; cbn [fold_right]; unfold Rdiv; ring|].
      change (rsum (w / s :: map (fun w => w / s) l)) with (w / s + rsum (map (fun w => w / s) l)). rewrite IH. change (rsum (w :: l)) with (w + rsum l). unfold Rdiv. ring. }
    rewrite K. field. auto.
  - assert (K : forall i, nth i (map (fun w => w / rsum ws) ws) 0 = nth i ws 0 / rsum ws).
    { intros i. rewrite <- (map_nth (fun w => w / rsum ws)). f_equal. field. auto. }
    intros i j. rewrite !K. unfold Rdiv. ring.
Qed.
Print Assumptions C49_list_of_weights.

Definition dip (moving : bool) : scfg := SCfg Slab [2; 0; 0; 0; 0]%Z false moving 0 (1 / 2) 1 1 1 3 2 midpoint_rule nil (fun _ => 0) (fun _ => 0) (fun _ _ => 0).
Example C176_example : exists rows psi, make_IC (dip false) (1 / 2 :: nil) (-1 :: 0 :: 1 :: nil) = Ok rows /\
  psi_out (initial_output (dip false) rows (-1 :: 0 :: 1 :: nil) 1 (fun _ => 1) (- (1 / 2) :: 1 :: nil)) = Ok psi /\
  nth 0 (nth 0 psi nil) 0 = - (3 / 2) /\ nth 1 (nth 0 psi nil) 0 = 3 / 2 /\ make_IC (dip true) (1 / 2 :: nil) (-1 :: 0 :: 1 :: nil) = Err NaN.
Proof.
  assert (R0 : rising (-1 :: 0 :: 1 :: nil)) by (split; [simpl; lia|]; intros [|[|n]] Hn; simpl in *; lra || lia).
  assert (D : forall m, is_dipole (dip m)) by (intro; repeat split).
  destruct (C176_dipole_reported (dip false) (1 / 2 :: nil) (-1 :: 0 :: 1 :: nil) 1 (fun _ => 1) (- (1 / 2) :: 1 :: nil)) as (rows & I & K); auto; try (cbn; lra).
  - split; [cbn; intros k Hk; apply midpoint_exact; lia|]. cbn. intros p [<-|[]]. simpl. lra.
  - exists 0%nat. cbn. split; [lia|lra].
  - destruct (C51_output_succeeds (initial_output (dip false) rows (-1 :: 0 :: 1 :: nil) 1 (fun _ => 1) (- (1 / 2) :: 1 :: nil)) R0) as (psi & P & _); [discriminate|].
    exists rows, psi. split; [exact I|]. split; [exact P|]. split; [|split].
    + rewrite K; auto; try (cbn; lia); try (cbn; lra). cbn. rewrite Rltb_true, Rleb_true by lra. cbn [andb]. field.
    + rewrite K; auto; try (cbn; lia); try (cbn; lra). cbn. rewrite (Rleb_false 1 0), Bool.andb_false_r, Rltb_true, Rleb_true by lra. cbn [andb]. field.
    + apply C176_dipole_without_width; auto; try discriminate; cbn; lia.
Qed.
