(** Lemmas about the array prelude. *)
From Verif Require Import Py.

(** Normal form of an array: tabulated function. *)
Definition tab (n : nat) (f : nat -> R) : list R := map f (seq 0 n).

Lemma tab_length n f : length (tab n f) = n.
Proof. unfold tab. now rewrite map_length, seq_length. Qed.

Lemma nth_tab n f i d : (i < n)%nat -> nth i (tab n f) d = f i.
Proof.
  intro H. unfold tab. rewrite nth_indep with (d' := f 0%nat) by (rewrite map_length, seq_length; lia).
  rewrite (map_nth f). rewrite seq_nth by lia. f_equal.
Qed.

Lemma nth_error_tab n f i : (i < n)%nat -> nth_error (tab n f) i = Some (f i).
Proof.
  intro H. rewrite nth_error_nth' with (d := 0) by (rewrite tab_length; lia).
  now rewrite nth_tab.
Qed.

Lemma list_ext (l1 l2 : list R) :
  length l1 = length l2 -> (forall i, (i < length l1)%nat -> nth i l1 0 = nth i l2 0) -> l1 = l2.
Proof. intros Hl H. apply nth_ext with (d := 0) (d' := 0); auto. Qed.

Lemma tab_ext n f g : (forall i, (i < n)%nat -> f i = g i) -> tab n f = tab n g.
Proof. intro H. apply list_ext; rewrite !tab_length; auto. intros i Hi. rewrite !nth_tab; auto. Qed.

Lemma tab_eta l : l = tab (length l) (fun i => nth i l 0).
Proof. apply list_ext; rewrite ?tab_length; auto. intros i Hi. now rewrite nth_tab. Qed.

Lemma list_is_tab l n f :
  length l = n -> (forall i, (i < n)%nat -> nth i l 0 = f i) -> l = tab n f.
Proof. intros Hl H. apply list_ext; rewrite ?tab_length; auto. intros i Hi. rewrite nth_tab by lia. apply H. lia. Qed.

Lemma map_tab g n f : map g (tab n f) = tab n (fun i => g (f i)).
Proof. unfold tab. now rewrite map_map. Qed.

Lemma map2_length {A B C} (f : A -> B -> C) xs ys :
  length (map2 f xs ys) = Nat.min (length xs) (length ys).
Proof. revert ys; induction xs; destruct ys; simpl; auto. Qed.

Lemma nth_map2 (f : R -> R -> R) xs ys i :
  (i < length xs)%nat -> (i < length ys)%nat -> nth i (map2 f xs ys) 0 = f (nth i xs 0) (nth i ys 0).
Proof.
  revert ys i; induction xs as [|x xs IH]; intros [|y ys] i H1 H2; simpl in *; try lia.
  destruct i; auto. apply IH; lia.
Qed.

Lemma vop_same f xs ys : length xs = length ys -> vop f xs ys = Ok (map2 f xs ys).
Proof. intro H. unfold vop. rewrite H, Nat.eqb_refl. reflexivity. Qed.

Lemma vop_tab f n g h : vop f (tab n g) (tab n h) = Ok (tab n (fun i => f (g i) (h i))).
Proof.
  rewrite vop_same by now rewrite !tab_length. f_equal. apply list_is_tab.
  - rewrite map2_length, !tab_length. lia.
  - intros i Hi. rewrite nth_map2 by now rewrite tab_length. now rewrite !nth_tab.
Qed.

Lemma vop_ok_length f xs ys zs : vop f xs ys = Ok zs ->
  (length xs = length ys \/ length xs = 1%nat \/ length ys = 1%nat) /\
  length zs = if (length xs =? length ys)%nat then length xs else if (length xs =? 1)%nat then length ys else length xs.
Proof.
  unfold vop. destruct (Nat.eqb_spec (length xs) (length ys)) as [E|E].
  - intro H; injection H as <-. rewrite map2_length. split; [now left|lia].
  - destruct xs as [|x [|x' xs]]; destruct ys as [|y [|y' ys]]; simpl in *; intro H; try discriminate;
      try (injection H as <-); simpl; rewrite ?map_length; split; auto; lia.
Qed.

Lemma vscale_tab n f k : vscale (tab n f) k = tab n (fun i => f i * k).
Proof. apply map_tab. Qed.
Lemma vshift_tab n f k : vshift (tab n f) k = tab n (fun i => f i + k).
Proof. apply map_tab. Qed.
Lemma vscale_length l k : length (vscale l k) = length l.
Proof. apply map_length. Qed.
Lemma vshift_length l k : length (vshift l k) = length l.
Proof. apply map_length. Qed.
Lemma nth_vscale l k i : (i < length l)%nat -> nth i (vscale l k) 0 = nth i l 0 * k.
Proof.
  intro H. unfold vscale. rewrite nth_indep with (d' := (fun x => x * k) 0) by (rewrite map_length; lia).
  now rewrite (map_nth (fun x => x * k)).
Qed.

Lemma vdivs_ok l k : k <> 0 -> vdivs l k = Ok (map (fun x => x / k) l).
Proof. intro H. unfold vdivs. destruct l; auto. destruct (Req_EM_T k 0); [contradiction|reflexivity]. Qed.
Lemma vdivs_tab n f k : k <> 0 -> vdivs (tab n f) k = Ok (tab n (fun i => f i / k)).
Proof. intro H. rewrite vdivs_ok by auto. now rewrite map_tab. Qed.

Lemma linspace_tab a b n : linspace a b n = tab n (fun i => a + INR i * ((b - a) / INR (n - 1))).
Proof. reflexivity. Qed.

Lemma zeros_tab n : zeros n = tab n (fun _ => 0).
Proof. apply list_is_tab. apply repeat_length. intros i Hi. unfold zeros. apply nth_repeat. Qed.

Lemma app_tab n f m g :
  tab n f ++ tab m g = tab (n + m) (fun i => if (i <? n)%nat then f i else g (i - n)%nat).
Proof.
  apply list_is_tab.
  - rewrite app_length, !tab_length. reflexivity.
  - intros i Hi. destruct (Nat.ltb_spec i n).
    + rewrite app_nth1 by now rewrite tab_length. now rewrite nth_tab.
    + rewrite app_nth2 by (rewrite tab_length; lia). rewrite tab_length, nth_tab by lia. reflexivity.
Qed.

Lemma skipn_tab n f a : skipn a (tab n f) = tab (n - a) (fun i => f (a + i)%nat).
Proof.
  apply list_is_tab.
  - rewrite skipn_length, tab_length. reflexivity.
  - intros i Hi. rewrite <- (nth_tab n f (a + i) 0) by lia.
    rewrite <- (firstn_skipn a (tab n f)) at 2. rewrite app_nth2; rewrite firstn_length, tab_length; [|lia].
    f_equal. lia.
Qed.

Lemma firstn_tab n f a : firstn a (tab n f) = tab (Nat.min a n) f.
Proof.
  apply list_is_tab.
  - rewrite firstn_length, tab_length. reflexivity.
  - intros i Hi. rewrite <- (nth_tab n f i 0) by lia.
    rewrite <- (firstn_skipn a (tab n f)) at 2. rewrite app_nth1; auto. rewrite firstn_length, tab_length. lia.
Qed.

Lemma slice_tab n f a b :
  slice (tab n f) a b = tab (Nat.min (b - a) (n - a)) (fun i => f (a + i)%nat).
Proof. unfold slice. now rewrite skipn_tab, firstn_tab. Qed.

Lemma drop_last_tab n f : drop_last (tab n f) = tab (n - 1) f.
Proof.
  unfold drop_last. destruct n as [|n]; [reflexivity|].
  replace (S n - 1)%nat with n by lia. unfold tab. rewrite seq_S, map_app. simpl.
  apply removelast_last.
Qed.

Lemma removelast_length {A} (l : list A) : length (removelast l) = (length l - 1)%nat.
Proof.
  destruct l as [|a l]; auto.
  rewrite (app_removelast_last a (l := a :: l)) at 2 by discriminate.
  rewrite app_length. simpl length at 3. lia.
Qed.

Lemma repeat_tab v n : repeat v n = tab n (fun _ => v).
Proof. apply list_is_tab. apply repeat_length. intros i Hi. rewrite nth_indep with (d' := v) by now rewrite repeat_length. apply nth_repeat. Qed.

Lemma getitem_tab n f i : (i < n)%nat -> getitem (tab n f) i = Ok (f i).
Proof. intro H. unfold getitem. now rewrite nth_error_tab. Qed.

Lemma getneg_tab n f k : (1 <= k <= n)%nat -> getneg (tab n f) k = Ok (f (n - k)%nat).
Proof.
  intro H. unfold getneg. rewrite tab_length.
  destruct (Nat.ltb_spec n k); [lia|]. apply getitem_tab. lia.
Qed.

Lemma setslice_tab n f a b m g :
  (a <= n)%nat -> m = Nat.min (b - a) (n - a) ->
  setslice (tab n f) a b (tab m g) =
  Ok (tab n (fun i => if (i <? a)%nat then f i else if (i <? a + m)%nat then g (i - a)%nat else f i)).
Proof.
  intros Ha Hm. unfold setslice. rewrite slice_tab, !tab_length, <- Hm, Nat.eqb_refl.
  f_equal. rewrite firstn_tab, skipn_tab, !app_tab.
  apply list_is_tab; rewrite ?tab_length; [lia|].
  intros i Hi. rewrite nth_tab by lia.
  destruct (Nat.ltb_spec i (Nat.min a n)); destruct (Nat.ltb_spec i a); try lia; auto.
  destruct (Nat.ltb_spec (i - Nat.min a n) m); destruct (Nat.ltb_spec i (a + m)); try lia; f_equal; lia.
Qed.

Lemma fillslice_tab n f a b v :
  (a <= n)%nat ->
  fillslice (tab n f) a b v =
  tab n (fun i => if (i <? a)%nat then f i else if (i <? a + Nat.min (b - a) (n - a))%nat then v else f i).
Proof.
  intros Ha. unfold fillslice. rewrite slice_tab, !tab_length.
  rewrite firstn_tab, skipn_tab, repeat_tab, !app_tab.
  apply list_is_tab; rewrite ?tab_length; [lia|].
  intros i Hi. rewrite nth_tab by lia. set (m := Nat.min (b - a) (n - a)).
  destruct (Nat.ltb_spec i (Nat.min a n)); destruct (Nat.ltb_spec i a); try lia; auto.
  destruct (Nat.ltb_spec (i - Nat.min a n) m); destruct (Nat.ltb_spec i (a + m)); try lia; auto; f_equal; lia.
Qed.

Lemma rev_tab n f : rev (tab n f) = tab n (fun i => f (n - 1 - i)%nat).
Proof.
  apply list_is_tab.
  - now rewrite rev_length, tab_length.
  - intros i Hi. rewrite rev_nth by (rewrite tab_length; lia). rewrite tab_length, nth_tab by lia.
    f_equal. lia.
Qed.

(** booleans on reals *)
Lemma Rltb_true a b : a < b -> Rltb a b = true.
Proof. unfold Rltb. destruct (Rlt_dec a b); tauto. Qed.
Lemma Rltb_false a b : b <= a -> Rltb a b = false.
Proof. unfold Rltb. destruct (Rlt_dec a b); auto. intros; lra. Qed.
Lemma Rleb_true a b : a <= b -> Rleb a b = true.
Proof. unfold Rleb. destruct (Rle_dec a b); tauto. Qed.
Lemma Rleb_false a b : b < a -> Rleb a b = false.
Proof. unfold Rleb. destruct (Rle_dec a b); auto. intros; lra. Qed.
Lemma Reqb_refl a : Reqb a a = true.
Proof. unfold Reqb. destruct (Req_EM_T a a); tauto. Qed.
Lemma Reqb_false a b : a <> b -> Reqb a b = false.
Proof. unfold Reqb. destruct (Req_EM_T a b); tauto. Qed.
Lemma Reqb_spec a b : reflect (a = b) (Reqb a b).
Proof. unfold Reqb. destruct (Req_EM_T a b); constructor; auto. Qed.
Lemma Rltb_spec a b : BoolSpec (a < b) (b <= a) (Rltb a b).
Proof. unfold Rltb. destruct (Rlt_dec a b); constructor; lra. Qed.
Lemma Rleb_spec a b : BoolSpec (a <= b) (b < a) (Rleb a b).
Proof. unfold Rleb. destruct (Rle_dec a b); constructor; lra. Qed.

Lemma bind_ok {A B} (r : result A) (f : A -> result B) b :
  bind r f = Ok b -> exists a, r = Ok a /\ f a = Ok b.
Proof. destruct r; simpl; intro H; [eauto|discriminate]. Qed.

(** finite sums *)
Lemma sumn_ext n f g : (forall i, (i < n)%nat -> f i = g i) -> sumn n f = sumn n g.
Proof. induction n; simpl; intro H; auto. rewrite IHn, H; auto. Qed.
Lemma sumn_plus n f g : sumn n (fun i => f i + g i) = sumn n f + sumn n g.
Proof. induction n; simpl; [lra|]. rewrite IHn. lra. Qed.
Lemma sumn_minus n f g : sumn n (fun i => f i - g i) = sumn n f - sumn n g.
Proof. induction n; simpl; [lra|]. rewrite IHn. lra. Qed.
Lemma sumn_scal n k f : sumn n (fun i => k * f i) = k * sumn n f.
Proof. induction n; simpl; [lra|]. rewrite IHn. lra. Qed.
Lemma sumn_scal_r n k f : sumn n (fun i => f i * k) = sumn n f * k.
Proof. induction n; simpl; [lra|]. rewrite IHn. lra. Qed.
Lemma sumn_zero n f : (forall i, (i < n)%nat -> f i = 0) -> sumn n f = 0.
Proof. induction n; simpl; intro H; auto. rewrite IHn, H; auto. lra. Qed.
Lemma sumn_S_l n f : sumn (S n) f = f 0%nat + sumn n (fun i => f (S i)).
Proof. induction n; simpl in *; [lra|]. rewrite IHn. lra. Qed.
Lemma sumn_telescope n f : sumn n (fun i => f (S i) - f i) = f n - f 0%nat.
Proof. induction n; simpl; [lra|]. rewrite IHn. lra. Qed.
Lemma sumn_swap n m f : sumn n (fun i => sumn m (fun j => f i j)) = sumn m (fun j => sumn n (fun i => f i j)).
Proof.
  induction n; simpl.
  - symmetry. now apply sumn_zero.
  - rewrite IHn. now rewrite <- sumn_plus.
Qed.
Lemma sumn_nonneg n f : (forall i, (i < n)%nat -> 0 <= f i) -> 0 <= sumn n f.
Proof. induction n; simpl; intro H; [lra|]. assert (0 <= sumn n f) by auto. assert (0 <= f n) by auto. lra. Qed.
Lemma sumn_single n f k : (k < n)%nat -> (forall i, (i < n)%nat -> i <> k -> f i = 0) -> sumn n f = f k.
Proof.
  revert k; induction n; intros k Hk H; [lia|]. simpl.
  destruct (Nat.eq_dec k n) as [->|E].
  - rewrite sumn_zero; [lra|]. intros i Hi. apply H; lia.
  - rewrite (IHn k); [|lia|]. rewrite (H n); try lia. lra. intros; apply H; lia.
Qed.
Lemma sumn_abs n f : Rabs (sumn n f) <= sumn n (fun i => Rabs (f i)).
Proof.
  induction n; simpl. rewrite Rabs_R0; lra.
  eapply Rle_trans; [apply Rabs_triang|]. lra.
Qed.
Lemma rsum_tab n f : rsum (tab n f) = sumn n f.
Proof.
  unfold tab, rsum. revert f. induction n; intro f; auto.
  rewrite sumn_S_l. simpl. f_equal. rewrite <- seq_shift, map_map. apply IHn.
Qed.
