(** What the number printed for the boundary-driven shock measures. *)
From Verif Require Import Py PyLemmas MeshSpec FuncModel OutProofs BenchModel BenchProofs SedovModel SedovRunModel.

(** (q, v) is on the straight line between two neighbouring points of the polygon through (xs, ys) *)
Definition on_polygon (xs ys : list R) (q v : R) : Prop :=
  exists j, (S j < length xs)%nat /\ nth j xs 0 <= q <= nth (S j) xs 0 /\
    v * (nth (S j) xs 0 - nth j xs 0) = nth j ys 0 * (nth (S j) xs 0 - q) + nth (S j) ys 0 * (q - nth j xs 0).
(** the i-th of fifty equidistant points from the first entry of a list to its last *)
Definition place (row : list R) (i : nat) : R := nth 0 row 0 + INR i * ((nth (length row - 1) row 0 - nth 0 row 0) / 49).

Lemma chord_on : forall xs ys q, increasing xs -> length ys = length xs -> (2 <= length xs)%nat ->
  nth 0 xs 0 <= q <= nth (length xs - 1) xs 0 -> on_polygon xs ys q (chord xs ys q).
Proof.
  induction xs as [|x0 xs IH]; intros ys q Hi Hl H2 Hq; [cbn in H2; lia|].
  destruct xs as [|x1 rest]; [cbn in H2; lia|]. destruct ys as [|y0 [|y1 ys]]; cbn [length] in Hl; try lia.
  assert (L : x0 < x1) by (apply (Hi 0%nat 1%nat); cbn [length]; lia).
  assert (D : x0 <= q <= x1 -> on_polygon (x0 :: x1 :: rest) (y0 :: y1 :: ys) q (y0 + (y1 - y0) / (x1 - x0) * (q - x0))).
  { intros B. exists 0%nat. cbn [nth length]. split; [lia|]. split; [lra|]. field. lra. }
  cbn [chord]. destruct (Rle_dec q x1) as [C|C].
  - rewrite Rleb_true by lra. apply D. cbn [nth] in Hq. lra.
  - rewrite Rleb_false by lra. destruct rest as [|x2 rest].
    + cbn in Hq. lra.
    + assert (G : on_polygon (x1 :: x2 :: rest) (y1 :: ys) q (chord (x1 :: x2 :: rest) (y1 :: ys) q)).
      { apply IH; cbn [length] in *; try lia.
        - intros i j Hij. apply (Hi (S i) (S j)). cbn [length] in *. lia.
        - destruct Hq as [_ Hq]. replace (S (S (S (length rest))) - 1)%nat with (S (S (length rest))) in Hq by lia.
          replace (S (S (length rest)) - 1)%nat with (S (length rest)) by lia. split; [cbn; lra|exact Hq]. }
      destruct G as (j & A & B & E). exists (S j). cbn [length] in *. split; [lia|]. split; [exact B|exact E].
Qed.

Lemma rsum_app l m : rsum (l ++ m) = rsum l + rsum m.
Proof. induction l as [|x l IH]; cbn [rsum fold_right app]; [unfold rsum; lra|]. fold (rsum (l ++ m)). fold (rsum l). lra. Qed.
Lemma rsum_sumn {A} (F : A -> R) d l : rsum (map F l) = sumn (length l) (fun k => F (nth k l d)).
Proof. induction l as [|x l IH]; [reflexivity|]. cbn [length]. rewrite sumn_S_l. cbn [map rsum fold_right nth]. fold (rsum (map F l)). lra. Qed.
Lemma rsum_concat {A} (h : A -> list R) l : rsum (map (fun x => x ^ 2) (concat (map h l))) = rsum (map (fun r => rsum (map (fun x => x ^ 2) (h r))) l).
Proof. induction l as [|x l IH]; [reflexivity|]. cbn [map concat]. rewrite map_app, rsum_app, IH. reflexivity. Qed.
Lemma concat_len {A} (h : A -> list R) n l : (forall r, In r l -> length (h r) = n) -> length (concat (map h l)) = (length l * n)%nat.
Proof. induction l as [|x l IH]; intros H; [reflexivity|]. cbn [map concat length]. rewrite app_length, IH by (intros; apply H; now right). rewrite H by now left. lia. Qed.
Lemma sq_diff : forall n l b, length l = n -> length b = n ->
  rsum (map (fun x => x ^ 2) (map2 Rminus l b)) = sumn n (fun i => (nth i l 0 - nth i b 0) ^ 2).
Proof.
  induction n as [|n IH]; intros l b Hl Hb; destruct l, b; try discriminate; [reflexivity|].
  rewrite sumn_S_l. cbn [map2 map rsum fold_right nth]. fold (rsum (map (fun x => x ^ 2) (map2 Rminus l b))). rewrite IH by (cbn in *; lia). reflexivity.
Qed.
Lemma vsub_rows {A} (g : A -> list R) b l : (forall r, In r l -> length (g r) = length b) ->
  map_result (fun r => vsub r b) (map g l) = Ok (map (fun r => map2 Rminus (g r) b) l).
Proof.
  induction l as [|x l IH]; intros H; [reflexivity|]. cbn [map map_result]. unfold vsub at 1, vop. rewrite H by now left. rewrite Nat.eqb_refl. cbn [bind].
  rewrite IH by (intros; apply H; now right). reflexivity.
Qed.
Lemma rmse_value {A} (g : A -> list R) b n (l : list A) d p : length b = S n -> (forall r, In r l -> length (g r) = S n) -> rmse_rows (map g l) b = Ok p ->
  (1 <= length l)%nat /\ p = sqrt (sumn (length l) (fun k => sumn (S n) (fun i => (nth i (g (nth k l d)) 0 - nth i b 0) ^ 2) / INR (S n)) / INR (length l)).
Proof.
  intros Hb Hg. unfold rmse_rows. rewrite vsub_rows by (intros; rewrite Hb; auto). cbn [bind].
  set (h := fun r => map2 Rminus (g r) b).
  assert (Hh : forall r, In r l -> length (h r) = S n) by (intros r I; unfold h; rewrite map2_length, Hb, Hg by auto; lia).
  pose proof (concat_len h (S n) l Hh) as C. pose proof (rsum_concat h l) as S1.
  destruct l as [|r l]; [discriminate|]. destruct (concat (map h (r :: l))) as [|z zs] eqn:E; [discriminate|]. intros F. injection F as F.
  split; [cbn; lia|]. rewrite <- F. f_equal. change (fold_right Rplus 0) with rsum.
  replace ((z * (z * 1) + rsum (map (fun x : R => x * (x * 1)) zs))) with (rsum (map (fun x => x ^ 2) (z :: zs))) by reflexivity.
  rewrite S1. replace (length zs) with (length (r :: l) * S n - 1)%nat by (cbn [length] in *; lia).
  match goal with |- _ / ?a = _ => replace a with (INR (length (r :: l) * S n)) end.
  2:{ destruct (length (r :: l) * S n)%nat eqn:Z; [cbn [length] in Z; lia|]. rewrite Nat.sub_succ, Nat.sub_0_r. now rewrite S_INR; destruct n0; cbn; try rewrite Rplus_0_l. }
  rewrite mult_INR. assert (P1 : 0 < INR (S n)) by (apply lt_0_INR; lia). assert (P2 : 0 < INR (length (r :: l))) by (apply lt_0_INR; cbn; lia).
  unfold Rdiv. rewrite sumn_scal_r. rewrite Rinv_mult. rewrite (rsum_sumn (fun r => rsum (map (fun x => x ^ 2) (h r))) d).
  rewrite (sumn_ext _ _ (fun k => sumn (S n) (fun i => (nth i (g (nth k (r :: l) d)) 0 - nth i b 0) ^ 2))).
  - ring.
  - intros k Hk. unfold h. apply sq_diff; auto. apply Hg. now apply nth_In.
Qed.

Lemma getneg_last {A} (l : list A) d r : getneg l 1 = Ok r -> (1 <= length l)%nat /\ r = nth (length l - 1) l d.
Proof.
  unfold getneg, getitem. destruct (Nat.ltb_spec (length l) 1); [discriminate|]. destruct (nth_error l (length l - 1)) eqn:E; [|discriminate].
  intros F. injection F as <-. split; auto. symmetry. now apply nth_error_nth.
Qed.
Lemma getitem_first (l : list R) r : getitem l 0 = Ok r -> r = nth 0 l 0.
Proof. unfold getitem. destruct l; cbn; intros F; [discriminate|]. now injection F. Qed.
Lemma place_nth row i : (i < 50)%nat -> nth i (linspace (nth 0 row 0) (nth (length row - 1) row 0) 50) 0 = place row i.
Proof.
  intros Hi. rewrite linspace_tab, nth_tab by auto. unfold place. replace (INR (50 - 1)) with 49 by (cbn; lra). reflexivity.
Qed.
Lemma mean_ge T e k : (k < T)%nat -> (forall i, (i < T)%nat -> 0 <= e i) -> e k <= sumn T e.
Proof.
  intros Hk He. pose proof (sumn_nonneg T (fun i => if (i =? k)%nat then 0 else e i) ltac:(intros i Hi; cbv beta; destruct (i =? k)%nat; [lra|auto])) as A.
  assert (B : sumn T e = sumn T (fun i => if (i =? k)%nat then e i else 0) + sumn T (fun i => if (i =? k)%nat then 0 else e i)).
  { rewrite <- sumn_plus. apply sumn_ext. intros i _. destruct (i =? k)%nat; lra. }
  rewrite B. rewrite (sumn_single T _ k Hk). { rewrite Nat.eqb_refl. lra. }
  intros i _ N. destruct (Nat.eqb_spec i k); [contradiction|reflexivity].
Qed.

(** The number printed is the root of the mean, over ALL output times, of the squared distance between the flux at that
    time and the benchmark of the final time.  So it is the error at the final time if there is one output time; in
    general that error is at most sqrt(number of times) times what is printed, and 0 is printed exactly if the flux of
    every time agrees with the benchmark of the final time. *)
Theorem C186_printed : forall erf v0 ts tfinal dirs xs phi p, let row := nth (length xs - 1) xs [] in increasing row ->
  fake_sedov_benchmark erf v0 ts tfinal dirs xs phi = Ok p ->
  exists (b : nat -> R) (v : nat -> nat -> R),
    (forall i, (i < 50)%nat -> bench_phi erf v0 ts tfinal dirs (place row i) = Ok (b i)) /\
    (forall k i, (k < length phi)%nat -> (i < 50)%nat -> on_polygon row (nth k phi []) (place row i) (v k i)) /\
    let err k := sumn 50 (fun i => (v k i - b i) ^ 2) / 50 in
    (1 <= length phi)%nat /\ 0 <= p /\ p ^ 2 = sumn (length phi) err / INR (length phi) /\
    (length phi = 1%nat -> p = sqrt (err 0%nat)) /\
    (forall k, (k < length phi)%nat -> sqrt (err k) <= sqrt (INR (length phi)) * p) /\
    (p = 0 <-> forall k i, (k < length phi)%nat -> (i < 50)%nat -> v k i = b i).
Proof.
  intros erf v0 ts tfinal dirs xs phi p row Hi. unfold fake_sedov_benchmark.
  destruct (rargmin _) as [am|]; [|discriminate]. cbn [bind].
  destruct (getneg xs 1) as [row'|] eqn:E1; [|discriminate]. cbn [bind]. destruct (getneg_last xs [] row' E1) as [_ ->]. fold row.
  destruct (getitem row 0) as [a|] eqn:E2; [|discriminate]. cbn [bind]. pose proof (getitem_first _ _ E2) as ->.
  destruct (getneg row 1) as [z|] eqn:E3; [|discriminate]. cbn [bind]. destruct (getneg_last row 0 z E3) as [L0 ->].
  set (pts := linspace _ _ 50).
  destruct (map_result (bench_phi erf v0 ts tfinal dirs) pts) as [bl|] eqn:E4; [|discriminate]. cbn [bind].
  unfold interp_rows. rewrite E2, E3. cbn [bind].
  destruct (forallb (fun r => (length r =? length row)%nat) phi) eqn:E5; cbn [negb]; [|discriminate].
  destruct (Nat.ltb_spec (length row) 2) as [|L2]; [discriminate|].
  destruct (forallb _ pts) eqn:E6; [|discriminate]. cbn [bind]. intros E7.
  assert (Lp : length pts = 50%nat) by (unfold pts; rewrite linspace_tab; apply tab_length).
  assert (Lb : length bl = 50%nat) by (rewrite (map_result_len _ _ _ E4); auto).
  destruct (rmse_value (fun r => map (chord row r) pts) bl 49 phi [] p Lb ltac:(intros; cbv beta; rewrite map_length; auto) E7) as [T1 Ep].
  exists (fun i => nth i bl 0), (fun k i => nth i (map (chord row (nth k phi [])) pts) 0).
  assert (Hb : forall i, (i < 50)%nat -> bench_phi erf v0 ts tfinal dirs (place row i) = Ok (nth i bl 0)).
  { intros i H. rewrite <- place_nth by auto. apply (map_result_nth_ok _ _ _ 0 0 E4). unfold pts in *. lia. }
  split; [exact Hb|]. split.
  { intros k i Hk H. rewrite (nth_indep _ 0 (chord row (nth k phi []) 0)) by (rewrite map_length, Lp; auto). rewrite map_nth.
    unfold pts. rewrite place_nth by auto. apply chord_on; auto.
    - rewrite forallb_forall in E5. apply Nat.eqb_eq. apply E5. now apply nth_In.
    - rewrite forallb_forall in E6. specialize (E6 (place row i)). rewrite andb_true_iff in E6.
      destruct E6 as [Q1 Q2]. { rewrite <- (place_nth row i H). apply nth_In. fold pts. lia. }
      destruct (Rleb_spec (nth 0 row 0) (place row i)); [|discriminate]. destruct (Rleb_spec (place row i) (nth (length row - 1) row 0)); [|discriminate]. lra. }
  replace (INR 50) with 50 in Ep by (cbn; lra).
  set (v := fun k i => nth i (map (chord row (nth k phi [])) pts) 0) in *. set (b := fun i => nth i bl 0) in *.
  set (err := fun k => sumn 50 (fun i => (v k i - b i) ^ 2) / 50).
  change ((1 <= length phi)%nat /\ 0 <= p /\ p ^ 2 = sumn (length phi) err / INR (length phi) /\
    (length phi = 1%nat -> p = sqrt (err 0%nat)) /\
    (forall k, (k < length phi)%nat -> sqrt (err k) <= sqrt (INR (length phi)) * p) /\
    (p = 0 <-> forall k i, (k < length phi)%nat -> (i < 50)%nat -> v k i = b i)).
  change (p = sqrt (sumn (length phi) err / INR (length phi))) in Ep.
  assert (P : 0 < INR (length phi)) by (apply lt_0_INR; lia).
  assert (E0 : forall k, 0 <= err k).
  { intros k. unfold err. apply Rmult_le_pos; [|lra]. apply sumn_nonneg. intros. apply pow2_ge_0. }
  assert (S0 : 0 <= sumn (length phi) err) by (apply sumn_nonneg; auto).
  assert (M0 : 0 <= sumn (length phi) err / INR (length phi)) by (apply Rmult_le_pos; [auto|apply Rlt_le, Rinv_0_lt_compat; auto]).
  split; [auto|]. split; [rewrite Ep; apply sqrt_pos|]. split; [rewrite Ep; apply pow2_sqrt; auto|]. split.
  { intros T. rewrite Ep, T. change (sumn 1 err) with (0 + err 0%nat). change (INR 1) with 1. f_equal. field. }
  split.
  { intros k Hk. rewrite Ep, <- sqrt_mult by (auto; lra). apply sqrt_le_1_alt.
    replace (INR (length phi) * (sumn (length phi) err / INR (length phi))) with (sumn (length phi) err) by (field; lra). apply mean_ge; auto. }
  split.
  - intros Z. rewrite Ep in Z. apply sqrt_eq_0 in Z; auto.
    assert (S1 : sumn (length phi) err = 0). { replace (sumn (length phi) err) with (sumn (length phi) err / INR (length phi) * INR (length phi)) by (field; lra). rewrite Z. ring. }
    intros k i Hk H. pose proof (mean_ge (length phi) err k Hk ltac:(auto)) as A. rewrite S1 in A. unfold err in A.
    pose proof (mean_ge 50 (fun i => (v k i - b i) ^ 2) i H ltac:(intros; apply pow2_ge_0)) as B. cbv beta in B.
    pose proof (pow2_ge_0 (v k i - b i)) as C. assert (D : (v k i - b i) ^ 2 = 0) by lra.
    change ((v k i - b i) ^ 2) with ((v k i - b i) * ((v k i - b i) * 1)) in D. rewrite Rmult_1_r in D. apply Rmult_integral in D. lra.
  - intros H. rewrite Ep. rewrite (sumn_zero _ err); [unfold Rdiv; rewrite Rmult_0_l; apply sqrt_0|].
    intros k Hk. unfold err. rewrite sumn_zero; [lra|]. intros i Hi'. rewrite H by auto. ring.
Qed.
Print Assumptions C186_printed.

Lemma bench_defined erf v0 ts tfinal dirs x : tfinal <> 0 -> (forall mu w, In (mu, w) dirs -> mu <> 0 /\ mu <> - v0) ->
  exists b, bench_phi erf v0 ts tfinal dirs x = Ok b.
Proof.
  intros Ht H. unfold bench_phi.
  assert (G : exists l, map_result (fun p => f <- bench_sedov erf v0 ts (fst p) tfinal x ;; Ok (snd p * f)) dirs = Ok l).
  { induction dirs as [|[mu w] dirs IH]; [now exists []|]. cbn [map_result fst snd]. destruct (H mu w) as [A B]; [now left|].
    destruct IH as [l ->]; [intros m u I; apply (H m u); now right|]. unfold bench_sedov. rewrite !Reqb_false by lra.
    destruct (Rltb 40 _); cbn [bind]; [eauto|]. destruct (Rltb 0 mu); cbn [bind]; eauto. }
  destruct G as [l ->]. cbn [bind]. eauto.
Qed.
Lemma place_range row i : increasing row -> (2 <= length row)%nat -> (i < 50)%nat -> nth 0 row 0 <= place row i <= nth (length row - 1) row 0.
Proof.
  intros Hi H2 H. unfold place. assert (A : nth 0 row 0 < nth (length row - 1) row 0) by (apply Hi; lia).
  pose proof (pos_INR i) as P. assert (Q : INR i <= 49) by (replace 49 with (INR 49) by (cbn; lra); apply le_INR; lia).
  set (h := (nth (length row - 1) row 0 - nth 0 row 0) / 49). assert (Hh : 0 < h) by (unfold h; lra).
  assert (E : nth (length row - 1) row 0 = nth 0 row 0 + 49 * h) by (unfold h; field). rewrite E. split; nra.
Qed.
(** A number is printed for every run with rows of matching lengths whose directions avoid 0 and the opposite of the
    shock speed. *)
Theorem C186_defined : forall erf v0 ts tfinal dirs xs phi, let row := nth (length xs - 1) xs [] in
  tfinal <> 0 -> dirs <> [] -> (forall mu w, In (mu, w) dirs -> mu <> 0 /\ mu <> - v0) ->
  xs <> [] -> (2 <= length row)%nat -> increasing row -> phi <> [] -> (forall r, In r phi -> length r = length row) ->
  exists p, fake_sedov_benchmark erf v0 ts tfinal dirs xs phi = Ok p.
Proof.
  intros erf v0 ts tfinal dirs xs phi row Ht Hd Hdir Hx H2 Hi Hp Hr. unfold fake_sedov_benchmark.
  destruct (rargmin_ok (map (fun p => Rabs (fst p - 6 / 10)) dirs)) as (am & -> & _). { rewrite map_length. destruct dirs; [congruence|cbn; lia]. }
  cbn [bind].
  assert (G : forall A (l : list A) d, (1 <= length l)%nat -> getneg l 1 = Ok (nth (length l - 1) l d)).
  { intros A l d L. unfold getneg, getitem. destruct (Nat.ltb_spec (length l) 1); [lia|]. rewrite (nth_error_nth' l d) by lia. reflexivity. }
  rewrite (G _ xs []) by (destruct xs; [congruence|cbn; lia]). cbn [bind]. fold row.
  assert (G0 : getitem row 0 = Ok (nth 0 row 0)) by (unfold getitem; rewrite (nth_error_nth' row 0) by lia; reflexivity).
  rewrite G0. cbn [bind]. rewrite (G _ row 0) by lia. cbn [bind]. set (pts := linspace _ _ 50).
  assert (M : exists bl, map_result (bench_phi erf v0 ts tfinal dirs) pts = Ok bl).
  { generalize pts. intros l. induction l as [|x l [bl IH]]; [now exists []|]. destruct (bench_defined erf v0 ts tfinal dirs x Ht Hdir) as [b E].
    exists (b :: bl). cbn [map_result]. now rewrite E, IH. }
  destruct M as [bl M]. rewrite M. cbn [bind]. unfold interp_rows. rewrite G0, (G _ row 0) by lia. cbn [bind].
  replace (forallb (fun r => (length r =? length row)%nat) phi) with true by (symmetry; apply forallb_forall; intros r I; apply Nat.eqb_eq; auto).
  cbn [negb]. destruct (Nat.ltb_spec (length row) 2); [lia|].
  assert (Lp : length pts = 50%nat) by (unfold pts; rewrite linspace_tab; apply tab_length).
  match goal with |- context [forallb ?f pts] => replace (forallb f pts) with true end.
  2:{ symmetry. apply forallb_forall. intros q I. apply (In_nth _ _ 0) in I. destruct I as (i & Li & <-). rewrite Lp in Li. unfold pts.
      rewrite place_nth by auto. destruct (place_range row i Hi H2 Li). now rewrite !Rleb_true by auto. }
  cbn [bind]. unfold rmse_rows. rewrite vsub_rows by (intros; cbv beta; rewrite map_length, (map_result_len _ _ _ M); auto). cbn [bind].
  destruct phi as [|r phi]; [congruence|]. cbn [map concat].
  destruct (map2 Rminus (map (chord row r) pts) bl) as [|z zs] eqn:E.
  - exfalso. assert (C : length (map2 Rminus (map (chord row r) pts) bl) = 50%nat) by (rewrite map2_length, map_length, (map_result_len _ _ _ M), Lp; reflexivity).
    rewrite E in C. discriminate.
  - cbn [app]. eauto.
Qed.
Print Assumptions C186_defined.

Lemma ahead erf v0 ts x : 0 <= v0 <= / 2 -> -4 <= x -> bench_phi erf v0 ts 1 [(- 1, / 2); (1, / 2)] x = Ok 0.
Proof.
  intros Hv Hx. unfold bench_phi. cbn [map_result fst snd]. unfold bench_sedov. rewrite !Reqb_false by lra.
  rewrite (Rltb_false 0 (- 1)), (Rltb_true 0 1) by lra. unfold np_heaviside0 at 1. rewrite (Rabs_pos_eq (x - -5)) by lra. rewrite (Rltb_false 0 (1 - _)) by lra.
  destruct (Rltb 40 _), (Rltb 40 _); cbn [bind rsum fold_right]; f_equal; ring.
Qed.
(** The flux of the final time agrees with the benchmark at every point and the number printed is not 0. *)
Theorem C186_final_time_refuted : exists v0 ts tfinal dirs xs phi p, let row := nth (length xs - 1) xs [] in
  increasing row /\ (forall erf i, (i < 50)%nat -> exists b, bench_phi erf v0 ts tfinal dirs (place row i) = Ok b /\
    on_polygon row (nth (length phi - 1) phi []) (place row i) b) /\
  (forall erf, fake_sedov_benchmark erf v0 ts tfinal dirs xs phi = Ok p) /\ p <> 0.
Proof.
  set (xs := [[-3; 5]; [-3; 5]]). set (phi := [[1; 1]; [0; 0]]). set (dirs := [(- 1, / 2); (1, / 2)]).
  exists (/ 200), 10, 1, dirs, xs, phi, (sqrt (/ 2)). cbv zeta. cbn [xs length Nat.sub nth].
  assert (Hi : increasing [-3; 5]). { intros i j H. cbn [length] in H. assert (i = 0%nat) by lia. assert (j = 1%nat) by lia. subst. cbn. lra. }
  assert (Hp : forall i, (i < 50)%nat -> -3 <= place [-3; 5] i <= 5) by (intros i H; apply (place_range [-3; 5] i Hi); [cbn; lia|auto]).
  split; [exact Hi|]. split.
  { intros erf i H. exists 0. split; [apply ahead; [lra|]; destruct (Hp i H); lra|]. exists 0%nat. cbn. split; [lia|]. split; [apply Hp; auto|]. ring. }
  split; [|intros Z; apply sqrt_eq_0 in Z; lra].
  intros erf. destruct (C186_defined erf (/ 200) 10 1 dirs xs phi) as [p E]; try discriminate; try lra; try (cbn; lia); auto.
  { intros mu w [I|[I|[]]]; injection I as <- <-; lra. }
  { intros r [<-|[<-|[]]]; reflexivity. }
  rewrite E. f_equal. destruct (C186_printed erf (/ 200) 10 1 dirs xs phi p Hi E) as (b & v & B & V & _ & P0 & P2 & _).
  cbn [xs length Nat.sub nth] in B, V.
  assert (B0 : forall i, (i < 50)%nat -> b i = 0).
  { intros i H. specialize (B i H). unfold dirs in B. rewrite ahead in B by (try lra; destruct (Hp i H); lra). now injection B. }
  assert (V0 : forall k i, (k < 2)%nat -> (i < 50)%nat -> v k i = match k with 0%nat => 1 | _ => 0 end).
  { intros k i Hk H. destruct (V k i) as (j & J1 & J2 & J3); [exact Hk|exact H|]. cbn [length] in J1. assert (j = 0%nat) by lia. subst j. cbn [nth] in J2, J3.
    destruct k as [|[|]]; [| |lia]; cbn [phi nth] in J3; lra. }
  assert (Q : p ^ 2 = / 2).
  { rewrite P2. cbn [phi length]. rewrite (sumn_ext 2 _ (fun k => match k with 0%nat => 1 | _ => 0 end)); [cbn; lra|].
    intros k Hk. rewrite (sumn_ext 50 _ (fun i => match k with 0%nat => 1 | _ => 0 end)).
    - destruct k as [|]; [|rewrite sumn_zero; [lra|auto]]. cbn. lra.
    - intros i H. rewrite V0, B0 by auto. destruct k; ring. }
  rewrite <- Q. symmetry. apply sqrt_pow2; auto.
Qed.
Print Assumptions C186_final_time_refuted.
(** one output time: the same flux 1 ahead of the front, the error 1 is printed *)
Example C186_example : forall erf, fake_sedov_benchmark erf (/ 200) 10 1 [(- 1, / 2); (1, / 2)] [[-3; 5]] [[1; 1]] = Ok 1.
Proof.
  intros erf. assert (Hi : increasing [-3; 5]). { intros i j H. cbn [length] in H. assert (i = 0%nat) by lia. assert (j = 1%nat) by lia. subst. cbn. lra. }
  assert (Hp : forall i, (i < 50)%nat -> -3 <= place [-3; 5] i <= 5) by (intros i H; apply (place_range [-3; 5] i Hi); [cbn; lia|auto]).
  destruct (C186_defined erf (/ 200) 10 1 [(- 1, / 2); (1, / 2)] [[-3; 5]] [[1; 1]]) as [p E]; try discriminate; try lra; try (cbn; lia); auto.
  { intros mu w [I|[I|[]]]; injection I as <- <-; lra. }
  { intros r [<-|[]]; reflexivity. }
  rewrite E. f_equal. destruct (C186_printed erf (/ 200) 10 1 [(- 1, / 2); (1, / 2)] [[-3; 5]] [[1; 1]] p Hi E) as (b & v & B & V & _ & P0 & P2 & P1 & _).
  cbn [length Nat.sub nth] in B, V. rewrite P1 by reflexivity. rewrite <- sqrt_1. f_equal.
  rewrite (sumn_ext 50 _ (fun i => 1)); [cbn; lra|]. intros i H.
  specialize (B i H). rewrite ahead in B by (try lra; destruct (Hp i H); lra). injection B as <-.
  destruct (V 0%nat i) as (j & J1 & J2 & J3); [cbn; lia|exact H|]. cbn [length] in J1. assert (j = 0%nat) by lia. subst j. cbn [nth] in J2, J3.
  assert (W : v 0%nat i = 1) by lra. rewrite W. ring.
Qed.
