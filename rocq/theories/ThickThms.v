(** C183: two initial meshes for the thick square source that nothing calls. *)
From Coquelicot Require Import Coquelicot.
From Verif Require Import Py PyLemmas MeshSpec OldMeshModel OldMeshThms LeftoverModel ThickModel.

Lemma setitem_tab n f i v : (i < n)%nat -> setitem (tab n f) i v = Ok (tab n (fun k => if (k =? i)%nat then v else f k)).
Proof.
  intros Hi. unfold setitem. rewrite tab_length. destruct (Nat.ltb_spec i n); [|lia]. f_equal.
  rewrite firstn_tab, skipn_tab. change (v :: tab (n - S i) (fun k => f (S i + k)%nat)) with ((v :: nil) ++ tab (n - S i) (fun k => f (S i + k)%nat)).
  change (v :: nil) with (tab 1 (fun _ => v)). rewrite !app_tab. apply list_is_tab; rewrite ?tab_length; [lia|].
  intros k Hk. rewrite nth_tab by lia. replace (Nat.min i n) with i by lia.
  destruct (Nat.ltb_spec k i); destruct (Nat.eqb_spec k i); try lia; auto; destruct (Nat.ltb_spec (k - i) 1); try lia; auto. f_equal. lia.
Qed.
(** set_func on consecutive indices writes a block *)
Lemma set_block L m f g : forall n a c e d, (a + n <= L)%nat -> (c + n <= m)%nat ->
  set_func (seq a n) (tab m f) (tab m g) c (tab L e) (tab L d) =
  Ok (tab L (fun i => if ((a <=? i) && (i <? a + n))%nat then f (c + (i - a))%nat else e i),
      tab L (fun i => if ((a <=? i) && (i <? a + n))%nat then g (c + (i - a))%nat else d i)).
Proof.
  induction n as [|n IH]; intros a c e d Ha Hc; cbn [seq set_func].
  - f_equal. f_equal; apply tab_ext; intros i Hi; destruct (Nat.leb_spec a i); destruct (Nat.ltb_spec i (a + 0)); cbn [andb]; auto; lia.
  - rewrite getitem_tab by lia. cbn [bind]. rewrite setitem_tab by lia. cbn [bind]. rewrite getitem_tab by lia. cbn [bind]. rewrite setitem_tab by lia. cbn [bind].
    rewrite IH by lia. f_equal. f_equal; apply tab_ext; intros i Hi;
      destruct (Nat.leb_spec (S a) i); destruct (Nat.ltb_spec i (S a + n)); destruct (Nat.leb_spec a i); destruct (Nat.ltb_spec i (a + S n)); cbn [andb]; try lia;
      try (f_equal; lia); destruct (Nat.eqb_spec i a); try lia; auto; f_equal; lia.
Qed.

(** left edges and their speeds for [m] edges outside of the source *)
Definition left_edge (m : nat) (x0 : R) (i : nat) : R :=
  if (i <? m)%nat then - x0 - 2 * thick_dx + INR i * (thick_dx / INR (m - 1))
  else if (i =? m)%nat then - x0 else - x0 + thick_dx + INR (i - m - 1) * (thick_dx / INR (m - 2)).
Definition left_speed (m : nat) (v : R) (i : nat) : R :=
  if (i <? m)%nat then - v * ((INR m + INR i * ((1 - INR m) / INR (m - 1))) / INR m)
  else if (i =? m)%nat then 0 else v * ((1 + INR (i - m - 1) * ((INR m - 1) / INR (m - 2))) / INR m).
Lemma thick_left_ok m x0 v : (2 <= m)%nat -> thick_left (2 * m) x0 v = Ok (tab (2 * m) (left_edge m x0), tab (2 * m) (fun i => - left_speed m v i)).
Proof.
  intros Hm. assert (PM : 0 < INR m) by (apply lt_0_INR; lia). unfold thick_left. replace (Nat.div (2 * m) 2) with m by (rewrite Nat.mul_comm; now rewrite Nat.div_mul). cbv zeta.
  rewrite zeros_tab, !linspace_tab, !setitem_tab by lia. cbn [bind]. rewrite setslice_tab by lia. cbn [bind].
  destruct (Nat.eqb_spec m 0); [lia|]. rewrite setslice_tab by lia. cbn [bind]. rewrite vdivs_tab by lra. cbn [bind]. rewrite setslice_tab by lia. cbn [bind].
  rewrite vscale_tab, vdivs_tab by lra. cbn [bind]. rewrite setslice_tab by lia. cbn [bind]. rewrite vscale_tab.
  f_equal. f_equal; apply tab_ext; intros i Hi; unfold left_edge, left_speed.
  - destruct (Nat.ltb_spec i (m + 1)); [destruct (Nat.ltb_spec i 0); [lia|]; destruct (Nat.ltb_spec i (0 + m)); destruct (Nat.ltb_spec i m); try lia|].
    + rewrite Nat.sub_0_r. replace (- x0 - thick_dx - (- x0 - 2 * thick_dx)) with thick_dx by ring. reflexivity.
    + destruct (Nat.eqb_spec i m); [reflexivity|lia].
    + destruct (Nat.ltb_spec i (m + 1 + (m - 1))); [|lia]. destruct (Nat.ltb_spec i m); [lia|]. destruct (Nat.eqb_spec i m); [lia|].
      replace (- x0 + 2 * thick_dx - (- x0 + thick_dx)) with thick_dx by ring. replace (i - (m + 1))%nat with (i - m - 1)%nat by lia. replace (m - 1 - 1)%nat with (m - 2)%nat by lia. reflexivity.
  - destruct (Nat.ltb_spec i (m + 1)); [destruct (Nat.ltb_spec i 0); [lia|]; destruct (Nat.ltb_spec i (0 + m)); destruct (Nat.ltb_spec i m); try lia|].
    + rewrite Nat.sub_0_r. unfold Rdiv. ring.
    + destruct (Nat.eqb_spec i m); [ring|lia].
    + destruct (Nat.ltb_spec i (m + 1 + (m - 1))); [|lia]. destruct (Nat.ltb_spec i m); [lia|]. destruct (Nat.eqb_spec i m); [lia|].
      replace (i - (m + 1))%nat with (i - m - 1)%nat by lia. replace (m - 1 - 1)%nat with (m - 2)%nat by lia. unfold Rdiv. ring.
Qed.
Definition both (m : nat) (f : nat -> R) (i : nat) : R := if (i <? 2 * m)%nat then f i else if (i =? 2 * m)%nat then 0 else - f (4 * m - i)%nat.
Lemma thick_ok m x0 v t0 t1 ts : (2 <= m)%nat ->
  thick_init true (4 * m) x0 v (t0 :: t1 :: ts) = Ok (tab (4 * m + 1) (both m (left_edge m x0)), tab (4 * m + 1) (both m (left_speed m v)), Some (t1 - t0)).
Proof.
  intros Hm. unfold thick_init. replace (Nat.div (4 * m) 2) with (2 * m)%nat by (replace (4 * m)%nat with (2 * m * 2)%nat by lia; now rewrite Nat.div_mul). cbv zeta.
  rewrite zeros_tab, setitem_tab by lia. cbn [bind]. destruct (Nat.eqb_spec (2 * m) 2); [lia|]. rewrite thick_left_ok by lia. cbn [bind negb].
  rewrite vscale_tab, set_block by lia. cbn [bind fst snd].
  replace (thick_right_index (4 * m) (2 * m)) with (seq (2 * m + 1) (2 * m)).
  2: { unfold thick_right_index. apply (nth_ext _ _ 0%nat 0%nat); [now rewrite map_length, !seq_length|]. intros i Hi. rewrite seq_length in Hi.
       rewrite seq_nth by lia. rewrite nth_indep with (d' := (2 * m + 1 + Nat.div (0 * (4 * m - (2 * m + 1))) (2 * m - 1))%nat) by (rewrite map_length, seq_length; lia).
       rewrite (map_nth (fun i => (2 * m + 1 + Nat.div (i * (4 * m - (2 * m + 1))) (2 * m - 1))%nat)). rewrite seq_nth by lia.
       replace (4 * m - (2 * m + 1))%nat with (2 * m - 1)%nat by lia. rewrite Nat.div_mul by lia. lia. }
  rewrite !rev_tab, vscale_tab, set_block by lia. cbn [bind fst snd getitem nth_error].
  f_equal. f_equal. f_equal; apply tab_ext; intros i Hi; unfold both;
    destruct (Nat.leb_spec (2 * m + 1) i); destruct (Nat.ltb_spec i (2 * m + 1 + 2 * m)); cbn [andb]; try lia; destruct (Nat.ltb_spec i (2 * m)); try lia; destruct (Nat.eqb_spec i (2 * m)); try lia.
  - replace (2 * m - 1 - (0 + (i - (2 * m + 1))))%nat with (4 * m - i)%nat by lia. ring.
  - destruct (Nat.leb_spec 0 i); [|lia]. destruct (Nat.ltb_spec i (0 + 2 * m)); [|lia]. cbn [andb]. now rewrite Nat.sub_0_r.
  - destruct (Nat.leb_spec 0 i); [|lia]. destruct (Nat.ltb_spec i (0 + 2 * m)); [lia|]. reflexivity.
  - replace (2 * m - 1 - (0 + (i - (2 * m + 1))))%nat with (4 * m - i)%nat by lia. reflexivity.
  - destruct (Nat.leb_spec 0 i); [|lia]. destruct (Nat.ltb_spec i (0 + 2 * m)); [|lia]. cbn [andb]. rewrite Nat.sub_0_r. cbn [Nat.add]. ring.
  - destruct (Nat.leb_spec 0 i); [|lia]. destruct (Nat.ltb_spec i (0 + 2 * m)); [lia|]. reflexivity.
Qed.

(** As the file stands the class has no method set_func, so only four and five cells pass. *)
Theorem C183_no_method : forall N x0 v times r, (N <> 4 /\ N <> 5)%nat -> thick_init false N x0 v times <> Ok r.
Proof.
  intros N x0 v times r HN. unfold thick_init. cbv zeta. assert (L : (Nat.div N 2 < N + 1)%nat) by (pose proof (Nat.div_le_upper_bound N 2 N ltac:(lia) ltac:(lia)); lia).
  rewrite zeros_tab, setitem_tab by exact L. cbn [bind]. destruct (Nat.eqb_spec (Nat.div N 2) 2) as [E|E].
  - exfalso. pose proof (Nat.div_mod N 2 ltac:(lia)) as Q. pose proof (Nat.mod_upper_bound N 2 ltac:(lia)). rewrite E in Q. lia.
  - destruct (thick_left _ _ _) as [[xs sp]|]; cbn [bind negb]; discriminate.
Qed.
Print Assumptions C183_no_method.
(** With four cells both outermost edges are left at zero, between the edges of the source: not a mesh. *)
Theorem C183_four_cells_refuted : exists method N x0 v times e d q, 0 < x0 /\ thick_init method N x0 v times = Ok (e, d, q) /\ ~ increasing e.
Proof.
  exists false, 4%nat, 1, 1, nil. cbn. do 3 eexists. split; [lra|]. split; [reflexivity|]. intros H. specialize (H 0%nat 1%nat). cbn in H. specialize (H ltac:(lia)). lra.
Qed.
Print Assumptions C183_four_cells_refuted.
Theorem C183_four_cells : forall method x0 v times, thick_init method 4 x0 v times = Ok ([0; - x0; 0; x0; 0], [0; -1 * v; 0; 1 * v; 0], None).
Proof. reflexivity. Qed.
Print Assumptions C183_four_cells.

(** With the method, for a multiple of four cells from eight on: a mirrored mesh, the edges of the source at rest on it, the
    outermost edges moving out with the speed; and until the inner edges meet in the middle its edges are in order. *)
Lemma increasing_adj l : (forall i, (S i < length l)%nat -> nth i l 0 < nth (S i) l 0) -> increasing l.
Proof.
  intros H i j [Hij Hj]. induction j as [|j IH]; [lia|]. destruct (Nat.eq_dec i j) as [->|]; [auto|]. apply (Rlt_trans _ (nth j l 0)); [apply IH; lia|auto].
Qed.
Definition edge (e d : list R) (t : R) (i : nat) : R := nth i e 0 + nth i d 0 * t.
Lemma lerp_lt m i j : (i < j)%nat -> (j <= m)%nat -> INR i / INR m < INR j / INR m.
Proof. intros H1 H2. apply Rmult_lt_compat_r; [apply Rinv_0_lt_compat, lt_0_INR; lia|]. now apply lt_INR. Qed.
Lemma dx_pos : 0 < thick_dx.
Proof. unfold thick_dx. lra. Qed.
Lemma left_speed_out m v i : (2 <= m)%nat -> (i < m)%nat -> left_speed m v i = - v * (1 - INR i / INR m).
Proof.
  intros Hm Hi. unfold left_speed. destruct (Nat.ltb_spec i m); [|lia]. rewrite minus_INR by lia. cbn [INR]. assert (1 < INR m) by (change 1 with (INR 1); apply lt_INR; lia). field. lra.
Qed.
Lemma left_next m x0 v t i : (2 <= m)%nat -> 0 <= v -> 0 <= t -> (S i < 2 * m)%nat ->
  left_edge m x0 i + left_speed m v i * t < left_edge m x0 (S i) + left_speed m v (S i) * t.
Proof.
  intros Hm Hv Ht Hi. pose proof dx_pos as Dp. assert (M1 : 1 < INR m) by (change 1 with (INR 1); apply lt_INR; lia). assert (VT : 0 <= v * t) by now apply Rmult_le_pos.
  assert (IM : 0 < / INR m) by (apply Rinv_0_lt_compat; lra).
  destruct (Nat.lt_ge_cases (S i) m) as [A|A].
  - rewrite !left_speed_out by lia. unfold left_edge. destruct (Nat.ltb_spec i m); [|lia]. destruct (Nat.ltb_spec (S i) m); [|lia]. rewrite S_INR.
    assert (0 < thick_dx / INR (m - 1)) by (apply Rdiv_lt_0_compat; auto; apply lt_0_INR; lia).
    assert (0 <= v * t * / INR m) by (apply Rmult_le_pos; lra). unfold Rdiv in *. lra.
  - destruct (Nat.eq_dec (S i) m) as [E|E].
    + rewrite left_speed_out by lia. unfold left_edge, left_speed. destruct (Nat.ltb_spec i m); [|lia]. destruct (Nat.ltb_spec (S i) m); [lia|]. rewrite (proj2 (Nat.eqb_eq (S i) m) E).
      replace (m - 1)%nat with i by lia. assert (0 < INR i) by (apply lt_0_INR; lia). replace (INR i * (thick_dx / INR i)) with thick_dx by (field; lra).
      assert (INR i / INR m < 1). { apply Rlt_div_l; [lra|]. rewrite Rmult_1_l. apply lt_INR. lia. }
      assert (0 <= v * t * (1 - INR i / INR m)) by (apply Rmult_le_pos; lra). lra.
    + assert (B : (m <= i)%nat) by lia. assert (Q : (i = m \/ 3 <= m /\ m < i)%nat) by lia. destruct Q as [->|[M3 Q]].
      * unfold left_edge, left_speed. destruct (Nat.ltb_spec m m); [lia|]. rewrite Nat.eqb_refl. destruct (Nat.ltb_spec (S m) m); [lia|]. destruct (Nat.eqb_spec (S m) m); [lia|].
        replace (S m - m - 1)%nat with 0%nat by lia. cbn [INR]. assert (0 <= v * t * / INR m) by (apply Rmult_le_pos; lra). unfold Rdiv in *. lra.
      * unfold left_edge, left_speed. destruct (Nat.ltb_spec i m); [lia|]. destruct (Nat.eqb_spec i m); [lia|]. destruct (Nat.ltb_spec (S i) m); [lia|]. destruct (Nat.eqb_spec (S i) m); [lia|].
        replace (S i - m - 1)%nat with (S (i - m - 1)) by lia. rewrite S_INR. assert (P2 : 0 < INR (m - 2)) by (apply lt_0_INR; lia).
        assert (0 < thick_dx / INR (m - 2)) by (apply Rdiv_lt_0_compat; auto).
        assert (0 <= v * t * ((INR m - 1) / INR (m - 2) * / INR m)). { apply Rmult_le_pos; auto. apply Rmult_le_pos; [|lra]. left. apply Rdiv_lt_0_compat; lra. }
        unfold Rdiv in *. lra.
Qed.
Lemma left_last m x0 v t : (2 <= m)%nat -> 0 <= v -> 0 <= t -> v * t < x0 - 2 * thick_dx -> left_edge m x0 (2 * m - 1) + left_speed m v (2 * m - 1) * t < 0.
Proof.
  intros Hm Hv Ht H. pose proof dx_pos as Dp. assert (M1 : 1 < INR m) by (change 1 with (INR 1); apply lt_INR; lia). assert (VT : 0 <= v * t) by now apply Rmult_le_pos.
  unfold left_edge, left_speed. destruct (Nat.ltb_spec (2 * m - 1) m); [lia|]. destruct (Nat.eqb_spec (2 * m - 1) m); [lia|]. replace (2 * m - 1 - m - 1)%nat with (m - 2)%nat by lia.
  assert (IM : / INR m <= 1) by (rewrite <- Rinv_1; apply Rinv_le_contravar; lra). assert (I0 : 0 < / INR m) by (apply Rinv_0_lt_compat; lra).
  destruct (Nat.eq_dec m 2) as [->|].
  - replace (2 - 2)%nat with 0%nat by lia. cbn [INR] in *. unfold Rdiv in *. assert (v * t * / (1 + 1) <= v * t * 1) by (apply Rmult_le_compat_l; auto). lra.
  - assert (P2 : 0 < INR (m - 2)) by (apply lt_0_INR; lia). replace (INR (m - 2) * (thick_dx / INR (m - 2))) with thick_dx by (field; lra).
    replace ((1 + INR (m - 2) * ((INR m - 1) / INR (m - 2))) / INR m) with 1 by (field; lra). lra.
Qed.
Theorem C183_with_method : forall m x0 v t0 t1 ts, (2 <= m)%nat -> exists e d, thick_init true (4 * m) x0 v (t0 :: t1 :: ts) = Ok (e, d, Some (t1 - t0)) /\
  length e = (4 * m + 1)%nat /\ length d = (4 * m + 1)%nat /\
  (forall t i, (i <= 4 * m)%nat -> edge e d t (4 * m - i) = - edge e d t i) /\
  (forall t, edge e d t m = - x0 /\ edge e d t 0 = - x0 - 2 / 10 ^ 5 - v * t) /\
  (0 <= v -> forall t, 0 <= t -> v * t < x0 - 2 / 10 ^ 5 -> forall i, (i < 4 * m)%nat -> edge e d t i < edge e d t (S i)).
Proof.
  intros m x0 v t0 t1 ts Hm. eexists _, _. split; [now apply thick_ok|]. rewrite !tab_length. split; [auto|]. split; [auto|].
  assert (F : forall t i, (i <= 4 * m)%nat -> edge (tab (4 * m + 1) (both m (left_edge m x0))) (tab (4 * m + 1) (both m (left_speed m v))) t i = both m (left_edge m x0) i + both m (left_speed m v) i * t).
  { intros t i Hi. unfold edge. now rewrite !nth_tab by lia. }
  assert (M1 : 1 < INR m) by (change 1 with (INR 1); apply lt_INR; lia).
  assert (Mir : forall t i, (i <= 4 * m)%nat -> edge (tab (4 * m + 1) (both m (left_edge m x0))) (tab (4 * m + 1) (both m (left_speed m v))) t (4 * m - i) = - edge (tab (4 * m + 1) (both m (left_edge m x0))) (tab (4 * m + 1) (both m (left_speed m v))) t i).
  { intros t i Hi. rewrite !F by lia. unfold both.
    destruct (Nat.ltb_spec (4 * m - i) (2 * m)); destruct (Nat.ltb_spec i (2 * m)); try lia; destruct (Nat.eqb_spec (4 * m - i) (2 * m)); try lia; destruct (Nat.eqb_spec i (2 * m)); try lia; try ring;
      replace (4 * m - (4 * m - i))%nat with i by lia; ring. }
  split; [exact Mir|]. split.
  - intros t. rewrite !F by lia. unfold both. destruct (Nat.ltb_spec m (2 * m)); [|lia]. destruct (Nat.ltb_spec 0 (2 * m)); [|lia]. rewrite (left_speed_out m v 0) by lia. unfold left_edge, left_speed.
    destruct (Nat.ltb_spec m m); [lia|]. rewrite Nat.eqb_refl. destruct (Nat.ltb_spec 0 m); [|lia]. cbn [INR]. split; [ring|unfold thick_dx, Rdiv; ring].
  - intros Hv t Ht Hx i Hi. replace (x0 - 2 / 10 ^ 5) with (x0 - 2 * thick_dx) in Hx by (unfold thick_dx; field).
    assert (Lo : forall k, (k < 2 * m)%nat -> edge (tab (4 * m + 1) (both m (left_edge m x0))) (tab (4 * m + 1) (both m (left_speed m v))) t k < edge (tab (4 * m + 1) (both m (left_edge m x0))) (tab (4 * m + 1) (both m (left_speed m v))) t (S k)).
    { intros k Hk. rewrite !F by lia. unfold both. destruct (Nat.ltb_spec k (2 * m)); [|lia]. destruct (Nat.ltb_spec (S k) (2 * m)).
      - now apply left_next.
      - destruct (Nat.eqb_spec (S k) (2 * m)); [|lia]. replace k with (2 * m - 1)%nat by lia. pose proof (left_last m x0 v t Hm Hv Ht Hx). lra. }
    destruct (Nat.lt_ge_cases i (2 * m)) as [A|A]; [auto|].
    pose proof (Lo (4 * m - S i)%nat ltac:(lia)) as B. replace (S (4 * m - S i)) with (4 * m - i)%nat in B by lia. rewrite !Mir in B by lia. lra.
Qed.
Print Assumptions C183_with_method.
(** With the method, an odd half number of cells passes only for ten and eleven cells. *)
Theorem C183_other_counts : forall N k x0 v times r, Nat.div N 2 = (2 * k + 1)%nat -> k <> 2%nat -> thick_init true N x0 v times <> Ok r.
Proof.
  intros N k x0 v times r HN Hk. unfold thick_init. cbv zeta. assert (L : (Nat.div N 2 < N + 1)%nat) by (pose proof (Nat.div_le_upper_bound N 2 N ltac:(lia) ltac:(lia)); lia).
  rewrite zeros_tab, setitem_tab by exact L. cbn [bind]. rewrite HN. destruct (Nat.eqb_spec (2 * k + 1) 2); [lia|].
  assert (F : exists e, thick_left (2 * k + 1) x0 v = Err e).
  { unfold thick_left. replace (Nat.div (2 * k + 1) 2) with k by (rewrite Nat.add_comm, Nat.mul_comm; now rewrite Nat.div_add). cbv zeta.
    rewrite zeros_tab, !linspace_tab, !setitem_tab by lia. cbn [bind]. rewrite setslice_tab by lia. cbn [bind]. destruct (Nat.eqb_spec k 0); [eauto|].
    unfold setslice at 1. rewrite slice_tab, !tab_length. destruct (Nat.eqb_spec (k - 1) (Nat.min (2 * k + 1 - (k + 1)) (2 * k + 1 - (k + 1)))); [lia|].
    destruct (k - 1)%nat as [|[|j]] eqn:E; [cbn; eauto|lia|cbn; eauto]. }
  destruct F as [e ->]. discriminate.
Qed.
Print Assumptions C183_other_counts.

(** simple_thick_square_init_func_2: for a multiple of four cells a mesh in order and at rest, with the edges of the source
    among its edges and all that lies outside of the source within 1e-14 of it. *)
Theorem C183_sliver : forall k x0 v, (0 < k)%nat -> 0 < x0 -> exists e d, thick_init_2 (4 * k) x0 v = Ok (e, d) /\ length e = (4 * k + 1)%nat /\ length d = (4 * k + 1)%nat /\
  (forall i, (i <= 4 * k)%nat -> nth i d 0 = 0) /\ nth k e 0 = - x0 /\ nth (3 * k) e 0 = x0 /\ nth 0 e 0 = - x0 - 1 / 10 ^ 14 /\ nth (4 * k) e 0 = x0 + 1 / 10 ^ 14 /\ increasing e.
Proof.
  intros k x0 v Hk Hx. assert (Dp : 0 < 1 / 10 ^ 14) by lra. destruct (square_init k x0 (v * 0) (1 / 10 ^ 14) Hk Dp) as (E & D & I & LE & LD & FE & FD).
  exists E, D. unfold thick_init_2. destruct (Nat.eqb_spec (4 * k) 2); [lia|]. rewrite I. cbn [bind om_edges om_D]. split; [reflexivity|]. split; [auto|]. split; [auto|].
  assert (PK : 0 < INR k) by (apply lt_0_INR; lia). set (dx := 1 / 10 ^ 14) in *.
  split. { intros i Hi. rewrite FD by lia. destruct (i <? k)%nat; [ring|]. destruct (i <? 3 * k)%nat; ring. }
  split. { rewrite FE by lia. destruct (Nat.ltb_spec k k); [lia|]. destruct (Nat.ltb_spec k (3 * k)); [|lia]. rewrite Nat.sub_diag. cbn [INR]. ring. }
  split. { rewrite FE by lia. destruct (Nat.ltb_spec (3 * k) k); [lia|]. destruct (Nat.ltb_spec (3 * k) (3 * k)); [lia|]. rewrite Nat.sub_diag. cbn [INR]. ring. }
  split. { rewrite FE by lia. destruct (Nat.ltb_spec 0 k); [|lia]. cbn [INR]. ring. }
  split. { rewrite FE by lia. destruct (Nat.ltb_spec (4 * k) k); [lia|]. destruct (Nat.ltb_spec (4 * k) (3 * k)); [lia|]. replace (4 * k - 3 * k)%nat with k by lia. field. lra. }
  apply increasing_adj. intros i Hi. rewrite LE in Hi. rewrite !FE by lia. assert (0 < dx / INR k) by now apply Rdiv_lt_0_compat. assert (0 < x0 / INR k) by now apply Rdiv_lt_0_compat.
  assert (KD : INR k * (dx / INR k) = dx) by (field; lra). assert (KX : INR k * (x0 / INR k) = x0) by (field; lra).
  destruct (Nat.ltb_spec i k); destruct (Nat.ltb_spec (S i) k); try lia.
  - rewrite S_INR. lra.
  - destruct (Nat.ltb_spec (S i) (3 * k)); [|lia]. replace (S i - k)%nat with 0%nat by lia. assert (K : INR k = INR i + 1) by (rewrite <- S_INR; f_equal; lia). cbn [INR]. rewrite K in KD at 1. lra.
  - destruct (Nat.ltb_spec i (3 * k)); destruct (Nat.ltb_spec (S i) (3 * k)); try lia.
    + replace (S i - k)%nat with (S (i - k)) by lia. rewrite S_INR. lra.
    + replace (S i - 3 * k)%nat with 0%nat by lia. assert (K : INR (i - k) + 1 = 2 * INR k) by (rewrite <- S_INR; replace (S (i - k)) with (2 * k)%nat by lia; rewrite mult_INR; cbn; ring).
      cbn [INR]. replace (INR (i - k)) with (2 * INR k - 1) by lra. lra.
    + replace (S i - 3 * k)%nat with (S (i - 3 * k)) by lia. rewrite S_INR. lra.
Qed.
Print Assumptions C183_sliver.
(** two cells are refused *)
Theorem C183_two_cells : forall x0 v, thick_init_2 2 x0 v = Err AssertionError.
Proof. reflexivity. Qed.
Print Assumptions C183_two_cells.
(** eight cells around a source of half-width one: in order for 9/10 of the time in which an edge crosses the source *)
Example C183_example : exists e d q, thick_init true 8 1 1 [0; 1] = Ok (e, d, q) /\ forall i, (i < 8)%nat -> edge e d (9 / 10) i < edge e d (9 / 10) (S i).
Proof.
  destruct (C183_with_method 2 1 1 0 1 nil ltac:(lia)) as (e & d & H & _ & _ & _ & _ & O). exists e, d, (Some (1 - 0)). split; [exact H|].
  apply (O ltac:(lra) (9 / 10)); [lra|]. lra.
Qed.
