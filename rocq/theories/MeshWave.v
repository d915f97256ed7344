(** The mesh that follows a recorded wave front (mesh.py 304-341), over every history of calls. *)
From Verif Require Import Py PyLemmas MeshModel MeshSpec MeshProofs MeshSquare MeshOther MeshFinite MeshFinal FrontSpec.

(** ** Interpolation *)
Lemma nth_getitem (l : list R) i : (i < length l)%nat -> getitem l i = Ok (nth i l 0).
Proof. intro H. unfold getitem. rewrite (nth_error_nth' l 0 H). reflexivity. Qed.
Lemma getitem_end {A} (l : list A) i : (length l <= i)%nat -> getitem l i = Err IndexError.
Proof. intro H. unfold getitem. apply nth_error_None in H. now rewrite H. Qed.

Lemma interp_index_ok x xs j : (j < length xs)%nat -> x < nth j xs 0 ->
  forall fuel i, (i <= j)%nat -> (j - i < fuel)%nat -> (forall m, (i <= m < j)%nat -> nth m xs 0 <= x) -> interp_index fuel x xs i = Ok j.
Proof.
  intros Hj Hx. induction fuel as [|f IH]; intros i Hi Hf Hm; [lia|].
  cbn [interp_index]. rewrite nth_getitem by lia. cbn [bind]. destruct (Nat.eq_dec i j) as [->|N].
  - unfold Rgeb. rewrite Rleb_false by lra. reflexivity.
  - unfold Rgeb. rewrite Rleb_true by (apply Hm; lia). apply IH; try lia. intros; apply Hm; lia.
Qed.
Lemma interp_index_end x xs : forall fuel i, (length xs - i < fuel)%nat -> (i <= length xs)%nat ->
  (forall m, (i <= m < length xs)%nat -> nth m xs 0 <= x) -> interp_index fuel x xs i = Err IndexError.
Proof.
  induction fuel as [|f IH]; intros i Hf Hi Hm; [lia|].
  cbn [interp_index]. destruct (Nat.eq_dec i (length xs)) as [->|N].
  - rewrite getitem_end by lia. reflexivity.
  - rewrite nth_getitem by lia. cbn [bind]. unfold Rgeb. rewrite Rleb_true by (apply Hm; lia). apply IH; try lia. intros; apply Hm; lia.
Qed.
Lemma incr_le (l : list R) i j : increasing l -> (i <= j < length l)%nat -> nth i l 0 <= nth j l 0.
Proof. intros H Hij. destruct (Nat.eq_dec i j) as [->|N]; [lra|]. left. apply H. lia. Qed.

Lemma bracket (l : list R) t : nth 0 l 0 <= t -> forall n, (n < length l)%nat -> t < nth n l 0 ->
  exists i, (S i <= n)%nat /\ nth i l 0 <= t < nth (S i) l 0.
Proof.
  intros H0. induction n as [|n IH]; intros Hn Ht; [lra|].
  destruct (Rle_lt_dec (nth n l 0) t) as [H|H]; [exists n; split; [lia|lra]|].
  destruct (IH ltac:(lia) H) as (i & Hi & B). exists i. split; [lia|auto].
Qed.
Lemma interp1d_linear t xs ys v : increasing xs -> length ys = length xs -> linear xs ys t v -> interp1d t xs ys = Ok v.
Proof.
  intros Hi Hl (i & Hlen & [H1 H2] & ->). unfold interp1d. rewrite nth_getitem by lia. cbn [bind].
  assert (nth 0 xs 0 <= t) by (pose proof (incr_le xs 0 i Hi ltac:(lia)); lra).
  rewrite Rltb_false by lra.
  rewrite (interp_index_ok t xs (S i)) by (try lia; try lra; intros m Hm; pose proof (incr_le xs m i Hi ltac:(lia)); lra).
  cbn [bind]. replace (S i - 1)%nat with i by lia. rewrite !nth_getitem by lia. cbn [bind].
  rewrite Reqb_false by lra. f_equal. ring.
Qed.
Lemma interp1d_end t xs ys : (1 <= length xs)%nat -> increasing xs -> nth (length xs - 1) xs 0 <= t -> interp1d t xs ys = Err IndexError.
Proof.
  intros Hl Hi Ht. unfold interp1d. rewrite nth_getitem by lia. cbn [bind].
  pose proof (incr_le xs 0 (length xs - 1) Hi ltac:(lia)). rewrite Rltb_false by lra.
  rewrite interp_index_end; try lia; [reflexivity|]. intros m Hm. pose proof (incr_le xs m (length xs - 1) Hi ltac:(lia)). lra.
Qed.
Lemma linear_exists xs ys t : (1 <= length xs)%nat -> nth 0 xs 0 <= t < nth (length xs - 1) xs 0 -> exists v, linear xs ys t v.
Proof.
  intros Hl [H1 H2]. destruct (bracket xs t H1 (length xs - 1) ltac:(lia) H2) as (i & Hi & B).
  eexists. exists i. split; [lia|]. split; [exact B|reflexivity].
Qed.
Lemma linear_fun xs ys t v v' : increasing xs -> length ys = length xs -> linear xs ys t v -> linear xs ys t v' -> v = v'.
Proof. intros Hi Hl H H'. apply (interp1d_linear t xs ys) in H, H'; auto. congruence. Qed.

(** ** One call *)
Lemma setneg_tab n f k v : (1 <= k <= n)%nat -> setneg (tab n f) k v = Ok (tab n (fun i => if (i =? n - k)%nat then v else f i)).
Proof.
  intro H. unfold setneg, setitem. rewrite tab_length. destruct (Nat.ltb_spec n k); [lia|]. destruct (Nat.ltb_spec (n - k) n); [|lia].
  f_equal. rewrite firstn_tab, skipn_tab. apply list_is_tab.
  - rewrite app_length. cbn [length]. rewrite !tab_length. lia.
  - intros i Hi. replace (v :: tab (n - S (n - k)) (fun i => f (S (n - k) + i)%nat)) with (tab (S (n - S (n - k))) (fun i => if (i =? 0)%nat then v else f (n - k + i)%nat)).
    2: { symmetry. apply list_is_tab; [cbn [length]; now rewrite tab_length|]. intros [|j] Hj; [reflexivity|]. cbn [nth Nat.eqb]. rewrite nth_tab by lia. f_equal. lia. }
    rewrite app_tab, nth_tab by lia. destruct (Nat.ltb_spec i (Nat.min (n - k) n)).
    + destruct (Nat.eqb_spec i (n - k)); [lia|reflexivity].
    + destruct (Nat.eqb_spec i (n - k)) as [->|N]; [destruct (Nat.eqb_spec (n - k - Nat.min (n - k) n) 0); [reflexivity|lia]|].
      destruct (Nat.eqb_spec (i - Nat.min (n - k) n) 0); [lia|]. f_equal. lia.
Qed.
Lemma clamp_max v lo : clamp_below v lo = Rmax v lo.
Proof. unfold clamp_below. destruct (Rltb_spec v lo); [rewrite Rmax_right|rewrite Rmax_left]; lra. Qed.

Section Call.
Variable c : cfg.
Variable k : nat.
Hypothesis HN : N_space c = (4 * k)%nat.
Hypothesis Hk : (3 <= k)%nat.
Let n := (4 * k + 1)%nat.
(** right half and whole mesh for a front at w; g the current, z the stored initial positions *)
Definition wr (g z : nat -> R) (w : R) (i : nat) : R :=
  if (i <? 3 * k)%nat then g i
  else if (i <? 4 * k - 3)%nat then x0 c + INR (i - 3 * k) * ((Rmax (w - pad c) (z (4 * k - 3)%nat) - x0 c) / INR (k - 3))
  else if (i =? 4 * k - 3)%nat then Rmax (w - pad c) (z (4 * k - 3)%nat)
  else if (i =? 4 * k - 2)%nat then Rmax w (z (4 * k - 2)%nat)
  else if (i =? 4 * k - 1)%nat then Rmax (w + pad c) (z (4 * k - 1)%nat)
  else Rmax (w + leader_pad c) (z (4 * k)%nat).
Definition wv (g z : nat -> R) (w : R) (i : nat) : R := if (i <? k)%nat then - wr g z w (4 * k - i) else wr g z w i.

Lemma wave_edges_ok s t g z w : edges s = tab n g -> edges0 s = tab n z -> interp1d t (wave_t c) (wave_T c) = Ok w ->
  thick_wave_edges c s t = Ok (if Reqb t 0 || Rltb w (x0 c) then tab n z else tab n (wv g z w)).
Proof.
  intros Eg Ez Hw. unfold thick_wave_edges. rewrite Hw. cbn [bind]. rewrite Ez.
  destruct (Reqb t 0 || Rltb w (x0 c)); [reflexivity|].
  rewrite Eg, HN. replace (4 * k / 4)%nat with k by (apply (Nat.div_unique_exact (4 * k) 4); lia).
  replace (4 * k / 2)%nat with (2 * k)%nat by (apply (Nat.div_unique_exact (4 * k) 2); lia).
  unfold n. rewrite !getneg_tab by lia. cbn [bind]. rewrite setneg_tab by lia. cbn [bind].
  rewrite setneg_tab by lia. cbn [bind]. rewrite setneg_tab by lia. cbn [bind]. rewrite setneg_tab by lia. cbn [bind].
  destruct (Nat.ltb_spec k 2); [lia|]. rewrite getneg_tab by lia. cbn [bind]. rewrite linspace_tab, drop_last_tab.
  rewrite setslice_tab by lia. cbn [bind]. unfold slice_from. rewrite skipn_tab, rev_tab, map_tab.
  rewrite setslice_tab by lia. f_equal. apply tab_ext. intros i Hi. unfold wv, wr. rewrite !clamp_max.
  repeat (match goal with |- context [(?a <? ?b)%nat] => destruct (Nat.ltb_spec a b) | |- context [(?a =? ?b)%nat] => destruct (Nat.eqb_spec a b) end; try lia);
  try reflexivity; try (f_equal; lia).
  all: repeat (first [lia|f_equal]).
Qed.

(** ordering *)
Hypothesis Hpad : 0 < pad c.
Hypothesis Hlead : pad c < leader_pad c.
Lemma wr_incr g z w i : (forall j, (3 * k <= j < 4 * k)%nat -> z j < z (S j)) -> z (3 * k)%nat = x0 c -> 
  (k <= i < 4 * k)%nat -> (forall j, (k <= j < 3 * k)%nat -> g j = z j) -> (forall j, (k <= j < 3 * k)%nat -> z j < z (S j)) ->
  x0 c <= w -> wr g z w i < wr g z w (S i).
Proof.
  intros Hz H3 Hi Hg Hzm Hw. assert (Hl : x0 c <= Rmax (w - pad c) (z (4 * k - 3)%nat)).
  { eapply Rle_trans; [|apply Rmax_r]. rewrite <- H3. assert (K : forall d, (3 * k + d <= 4 * k)%nat -> z (3 * k)%nat <= z (3 * k + d)%nat).
    { induction d as [|d IH]; intros Hd; [rewrite Nat.add_0_r; lra|]. rewrite Nat.add_succ_r. pose proof (Hz (3 * k + d)%nat ltac:(lia)). specialize (IH ltac:(lia)). lra. }
    replace (4 * k - 3)%nat with (3 * k + (k - 3))%nat by lia. apply K. lia. }
  assert (Hl' : (4 <= k)%nat -> x0 c < Rmax (w - pad c) (z (4 * k - 3)%nat)).
  { intros H4. eapply Rlt_le_trans; [|apply Rmax_r]. rewrite <- H3. assert (K : forall d, (3 * k + S d <= 4 * k)%nat -> z (3 * k)%nat < z (3 * k + S d)%nat).
    { induction d as [|d IH]; intros Hd; [rewrite Nat.add_1_r; apply Hz; lia|]. rewrite Nat.add_succ_r. pose proof (Hz (3 * k + S d)%nat ltac:(lia)). specialize (IH ltac:(lia)). lra. }
    replace (4 * k - 3)%nat with (3 * k + S (k - 4))%nat by lia. apply K. lia. }
  unfold wr. set (l := Rmax (w - pad c) (z (4 * k - 3)%nat)) in *.
  destruct (Nat.ltb_spec i (3 * k)) as [A|A].
  - rewrite Hg by lia. destruct (Nat.ltb_spec (S i) (3 * k)) as [B|B]; [rewrite Hg by lia; apply Hzm; lia|].
    assert (S i = 3 * k)%nat as E by lia. pose proof (Hzm i ltac:(lia)) as Q. rewrite E, H3 in *.
    destruct (Nat.ltb_spec (3 * k) (4 * k - 3)); [rewrite Nat.sub_diag; simpl INR; lra|].
    destruct (Nat.eqb_spec (3 * k) (4 * k - 3)); [lra|lia].
  - destruct (Nat.ltb_spec (S i) (3 * k)); [lia|].
    destruct (Nat.ltb_spec i (4 * k - 3)) as [B|B].
    + specialize (Hl' ltac:(lia)). assert (P : 0 < INR (k - 3)) by (apply lt_0_INR; lia).
      destruct (Nat.ltb_spec (S i) (4 * k - 3)).
      * replace (S i - 3 * k)%nat with (S (i - 3 * k)) by lia. rewrite S_INR. assert (0 < (l - x0 c) / INR (k - 3)) by (apply Rdiv_lt_0_compat; lra). lra.
      * destruct (Nat.eqb_spec (S i) (4 * k - 3)); [|lia].
        replace l with (x0 c + INR (k - 3) * ((l - x0 c) / INR (k - 3))) at 2 by (field; lra).
        apply Rplus_lt_compat_l, Rmult_lt_compat_r; [apply Rdiv_lt_0_compat; lra|]. apply lt_INR. lia.
    + destruct (Nat.ltb_spec (S i) (4 * k - 3)); [lia|]. destruct (Nat.eqb_spec (S i) (4 * k - 3)); [lia|].
      assert (M : forall a b u v, a < b -> u < v -> Rmax a u < Rmax b v).
      { intros a b u v Hab Huv. unfold Rmax. destruct (Rle_dec a u), (Rle_dec b v); lra. }
      pose proof (Hz i ltac:(lia)) as Q.
      destruct (Nat.eqb_spec i (4 * k - 3)) as [->|N1].
      * destruct (Nat.eqb_spec (S (4 * k - 3)) (4 * k - 2)); [|lia]. unfold l. apply M; [lra|]. replace (S (4 * k - 3)) with (4 * k - 2)%nat in Q by lia. exact Q.
      * destruct (Nat.eqb_spec i (4 * k - 2)) as [->|N2].
        -- destruct (Nat.eqb_spec (S (4 * k - 2)) (4 * k - 2)); [lia|]. destruct (Nat.eqb_spec (S (4 * k - 2)) (4 * k - 1)); [|lia].
           apply M; [lra|]. replace (S (4 * k - 2)) with (4 * k - 1)%nat in Q by lia. exact Q.
        -- assert (i = 4 * k - 1)%nat as -> by lia. rewrite Nat.eqb_refl.
           destruct (Nat.eqb_spec (S (4 * k - 1)) (4 * k - 2)); [lia|]. destruct (Nat.eqb_spec (S (4 * k - 1)) (4 * k - 1)); [lia|].
           apply M; [lra|]. replace (S (4 * k - 1)) with (4 * k)%nat in Q by lia. exact Q.
Qed.
Lemma wv_incr g z w : (forall j, (j < 4 * k)%nat -> z j < z (S j)) -> z (3 * k)%nat = x0 c -> z k = - x0 c ->
  (forall j, (k <= j < 3 * k)%nat -> g j = z j) -> x0 c <= w -> increasing (tab n (wv g z w)).
Proof.
  intros Hz H3 H1 Hg Hw. apply incr_of_steps. rewrite tab_length. intros i Hi. unfold n in *. rewrite !nth_tab by lia. unfold wv.
  destruct (Nat.ltb_spec i k) as [A|A].
  - destruct (Nat.ltb_spec (S i) k) as [B|B].
    + apply Ropp_lt_contravar. replace (4 * k - i)%nat with (S (4 * k - S i)) by lia. apply wr_incr; auto; try lia; intros; apply Hz; lia.
    + assert (S i = k) as -> by lia.
      assert (E : wr g z w k = - x0 c). { unfold wr. destruct (Nat.ltb_spec k (3 * k)); [|lia]. rewrite Hg by lia. auto. }
      rewrite E. apply Ropp_lt_contravar.
      assert (K : forall d, (3 * k + S d <= 4 * k)%nat -> x0 c < wr g z w (3 * k + S d)).
      { assert (Q : x0 c <= wr g z w (3 * k)).
        { unfold wr. destruct (Nat.ltb_spec (3 * k) (3 * k)); [lia|]. destruct (Nat.ltb_spec (3 * k) (4 * k - 3)); [rewrite Nat.sub_diag; simpl INR; lra|].
          destruct (Nat.eqb_spec (3 * k) (4 * k - 3)); [|lia]. eapply Rle_trans; [|apply Rmax_r]. replace (4 * k - 3)%nat with (3 * k)%nat by lia. lra. }
        induction d as [|d IH]; intros Hd.
        - rewrite Nat.add_1_r. eapply Rle_lt_trans; [exact Q|]. apply wr_incr; auto; try lia; intros; apply Hz; lia.
        - rewrite Nat.add_succ_r. eapply Rlt_trans; [apply IH; lia|]. apply wr_incr; auto; try lia; intros; apply Hz; lia. }
      replace (4 * k - i)%nat with (3 * k + S (k - i - 1))%nat by lia. apply K. lia.
  - destruct (Nat.ltb_spec (S i) k); [lia|]. apply wr_incr; auto; try lia; intros; apply Hz; lia.
Qed.
End Call.

(** ** Histories *)
Section Hist.
Variable c : cfg.
Variable k : nat.
Hypothesis HN : N_space c = (4 * k)%nat.
Hypothesis Hk : (3 <= k)%nat.
Let n := (4 * k + 1)%nat.
Hypothesis H01 : st_is c 0 1 = false.
Hypothesis H02 : st_is c 0 2 = false.
Hypothesis H11 : st_is c 1 1 = false.
Hypothesis H21 : st_is c 2 1 = true.
Hypothesis Hf : finite_domain c = true.
Hypothesis Hmf : move_func c = 1%nat.
Variable z : nat -> R.
Definition fpos (t w : R) (i : nat) : R := if Reqb t 0 || Rltb w (x0 c) then z i else wv c k z z w i.
Definition FInv (s : state) : Prop :=
  moving s = true /\ edges0 s = tab n z /\ exists g, edges s = tab n g /\ (forall i, (k <= i < 3 * k)%nat -> g i = z i).

Lemma wv_only g w i : (forall j, (k <= j < 3 * k)%nat -> g j = z j) -> (i <= 4 * k)%nat -> wv c k g z w i = wv c k z z w i.
Proof.
  intros Hg Hi. unfold wv, wr. destruct (Nat.ltb_spec i k).
  - destruct (Nat.ltb_spec (4 * k - i) (3 * k)); [lia|reflexivity].
  - destruct (Nat.ltb_spec i (3 * k)); [apply Hg; lia|reflexivity].
Qed.
Lemma fpos_mid t w i : (k <= i < 3 * k)%nat -> fpos t w i = z i.
Proof.
  intro Hi. unfold fpos, wv, wr. destruct (_ || _); auto.
  destruct (Nat.ltb_spec i k); [lia|]. destruct (Nat.ltb_spec i (3 * k)); [auto|lia].
Qed.
Lemma wave_edges_pos s t g w : edges s = tab n g -> edges0 s = tab n z -> (forall i, (k <= i < 3 * k)%nat -> g i = z i) ->
  interp1d t (wave_t c) (wave_T c) = Ok w -> thick_wave_edges c s t = Ok (tab n (fpos t w)).
Proof.
  intros Eg Ez Hg Hw. rewrite (wave_edges_ok c k HN Hk s t g z w Eg Ez Hw). f_equal. unfold fpos.
  destruct (_ || _); apply tab_ext; intros i Hi; auto. apply wv_only; auto. unfold n in Hi. lia.
Qed.
Lemma front_call s t w w' : FInv s -> interp1d t (wave_t c) (wave_T c) = Ok w ->
  interp1d (t + 1 / 10000000) (wave_t c) (wave_T c) = Ok w' ->
  thick_square_moving_func_2 c s t = Ok (set_Dedges (set_edges s (tab n (fpos t w)))
     (tab n (fun i => (fpos (t + 1 / 10000000) w' i - fpos t w i) / (1 / 10000000)))).
Proof.
  intros (Mv & E0 & g & Eg & Hg) Hw Hw'. unfold thick_square_moving_func_2.
  rewrite (wave_edges_pos s t g w Eg E0 Hg Hw). cbn [bind].
  rewrite (wave_edges_pos (set_edges s (tab n (fpos t w))) (t + 1 / 10000000) (fpos t w) w');
    [|reflexivity|exact E0|intros; apply fpos_mid; auto|exact Hw']. cbn [bind].
  unfold vsub. rewrite vop_tab. cbn [bind]. rewrite vdivs_tab by lra. cbn [bind].
  rewrite !getneg_tab by (unfold n; lia). cbn [bind]. reflexivity.
Qed.
Lemma front_step s t : FInv s -> forall w w', interp1d t (wave_t c) (wave_T c) = Ok w ->
  interp1d (t + 1 / 10000000) (wave_t c) (wave_T c) = Ok w' ->
  exists s', move c t s = Ok s' /\ FInv s' /\
   (nth (4 * k) (edges s) 0 < domain_width c / 2 - 1/100 ->
     edges s' = tab n (fpos t w) /\ Dedges s' = tab n (fun i => (fpos (t + 1 / 10000000) w' i - fpos t w i) / (1 / 10000000))) /\
   (~ nth (4 * k) (edges s) 0 < domain_width c / 2 - 1/100 -> edges s' = edges s /\ Dedges s' = vscale (Dedges_const s) 0).
Proof.
  intros I w w' Hw Hw'. pose proof (front_call s t w w' I Hw Hw') as F. destruct I as (Mv & E0 & g & Eg & Hg).
  unfold move. rewrite Mv, H01, H02, H11, H21, Hf. cbn [orb andb].
  rewrite (stopped_tab c s (4 * k) g Eg), stop_test. cbn [bind]. rewrite Eg, nth_tab by (unfold n; lia).
  destruct (Rltb_spec (g (4 * k)%nat) (domain_width c / 2 - 1/100)) as [Hl|Hl]; cbn [negb].
  - rewrite Hmf, F. eexists. split; [reflexivity|]. split; [|split].
    + repeat split; auto. exists (fpos t w). split; auto. intros; apply fpos_mid; auto.
    + intros _. cbn. auto.
    + intro; contradiction.
  - eexists. split; [reflexivity|]. split; [|split].
    + repeat split; auto. exists g. auto.
    + intro; exfalso; lra.
    + intros _. cbn. auto.
Qed.
Lemma front_inv_move s t s' : FInv s -> move c t s = Ok s' -> FInv s'.
Proof.
  intros I M. pose proof I as (Mv & E0 & g & Eg & Hg). 
  destruct (Rlt_dec (g (4 * k)%nat) (domain_width c / 2 - 1/100)) as [Hl|Hl].
  - destruct (interp1d t (wave_t c) (wave_T c)) as [w|e] eqn:W.
    + destruct (interp1d (t + 1 / 10000000) (wave_t c) (wave_T c)) as [w'|e] eqn:W'.
      * destruct (front_step s t I w w' W W') as (s2 & M2 & I2 & _). congruence.
      * exfalso. unfold move in M. rewrite Mv, H01, H02, H11, H21, Hf in M. cbn [orb andb] in M.
        rewrite (stopped_tab c s (4 * k) g Eg), stop_test in M. cbn [bind] in M. rewrite Rltb_true in M by auto. cbn [negb] in M. rewrite Hmf in M.
        unfold thick_square_moving_func_2 in M. rewrite (wave_edges_pos s t g w Eg E0 Hg W) in M. cbn [bind] in M.
        unfold thick_wave_edges in M. rewrite W' in M. discriminate.
    + exfalso. unfold move in M. rewrite Mv, H01, H02, H11, H21, Hf in M. cbn [orb andb] in M.
      rewrite (stopped_tab c s (4 * k) g Eg), stop_test in M. cbn [bind] in M. rewrite Rltb_true in M by auto. cbn [negb] in M. rewrite Hmf in M.
      unfold thick_square_moving_func_2, thick_wave_edges in M. rewrite W in M. discriminate.
  - unfold move in M. rewrite Mv, H01, H02, H11, H21, Hf in M. cbn [orb andb] in M.
    rewrite (stopped_tab c s (4 * k) g Eg), stop_test in M. cbn [bind] in M. rewrite Rltb_false in M by lra. cbn [negb] in M.
    injection M as <-. repeat split; auto. exists g. auto.
Qed.
Lemma front_inv_moves ts : forall s s', FInv s -> moves c ts s = Ok s' -> FInv s'.
Proof.
  induction ts as [|t ts IH]; intros s s' I M; cbn [moves] in M; [congruence|].
  apply bind_ok in M as (s1 & M1 & M2). apply (IH s1); auto. apply (front_inv_move s t); auto.
Qed.
Definition in_range (t : R) : Prop := 0 <= t /\ t + 1 / 10000000 < nth (length (wave_t c) - 1) (wave_t c) 0.
Hypothesis Hw1 : increasing (wave_t c).
Hypothesis Hw2 : length (wave_T c) = length (wave_t c).
Hypothesis Hw3 : nth 0 (wave_t c) 0 <= 0.
Lemma range_ok t : in_range t -> exists w w', linear (wave_t c) (wave_T c) t w /\ linear (wave_t c) (wave_T c) (t + 1 / 10000000) w'.
Proof.
  intros [A B]. assert (1 <= length (wave_t c))%nat. { destruct (wave_t c); cbn in *; [lra|lia]. }
  destruct (linear_exists (wave_t c) (wave_T c) t ltac:(lia) ltac:(lra)) as (w & W).
  destruct (linear_exists (wave_t c) (wave_T c) (t + 1 / 10000000) ltac:(lia) ltac:(lra)) as (w' & W').
  eauto.
Qed.
Lemma front_moves_ok ts : Forall in_range ts -> forall s, FInv s -> exists s', moves c ts s = Ok s'.
Proof.
  induction 1 as [|t ts Ht _ IH]; intros s I; cbn [moves]; [eauto|].
  destruct (range_ok t Ht) as (w & w' & W & W').
  destruct (front_step s t I w w') as (s1 & M & I1 & _); try (apply interp1d_linear; auto). rewrite M. cbn [bind]. auto.
Qed.
End Hist.
