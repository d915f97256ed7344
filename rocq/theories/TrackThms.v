(** C181: the two methods for following a wave which nothing calls any more. *)
From Verif Require Import Py PyLemmas OutModel OutProofs TrackModel.

(** the entries increase; the tables of a wave fit together *)
Definition rising (l : list R) : Prop := forall i, (S i < length l)%nat -> nth i l 0 < nth (S i) l 0.
Definition fits (W : waves) : Prop :=
  length (w_left W) = length (w_t W) /\ length (w_right W) = length (w_t W) /\ length (w_T W) = length (w_t W).
(** t lies in the interval which ends at entry k of the times (or before the first entry, for k = 0) *)
Definition interval (W : waves) (k : nat) (t : R) : Prop :=
  ((0 < k)%nat -> nth (k - 1) (w_t W) 0 < t) /\ t <= nth k (w_t W) 0.

Lemma rising_lt l i j : rising l -> (i < j)%nat -> (j < length l)%nat -> nth i l 0 < nth j l 0.
Proof.
  intros H Hij Hj. induction j as [|j IH]; [lia|]. destruct (Nat.eq_dec i j) as [->|]; [now apply H|].
  apply (Rlt_trans _ (nth j l 0)); [apply IH; lia|apply H; lia].
Qed.
Lemma interval_index W k t : rising (w_t W) -> (k < length (w_t W))%nat -> interval W k t -> searchsorted (w_t W) t = k.
Proof.
  intros Hr Hk [A B]. apply searchsorted_is; [lia| |auto]. intros i Hi. destruct (Nat.eq_dec i (k - 1)) as [->|]; [apply A; lia|].
  apply (Rlt_trans _ (nth (k - 1) (w_t W) 0)); [apply rising_lt; auto; lia|apply A; lia].
Qed.
Lemma getitem_nth l i : (i < length l)%nat -> getitem l i = Ok (nth i l 0).
Proof. intros H. rewrite (tab_eta l) at 1. now rewrite getitem_tab. Qed.
Lemma getitem_out {A} (l : list A) i : (length l <= i)%nat -> getitem l i = Err IndexError.
Proof. intros H. unfold getitem. now rewrite (proj2 (nth_error_None l i) H). Qed.
Lemma getneg_nth l k : (1 <= k <= length l)%nat -> getneg l k = Ok (nth (length l - k) l 0).
Proof. intros H. rewrite (tab_eta l) at 1. now rewrite getneg_tab. Qed.
Lemma no_back_max v : no_back v = Rmax 0 v.
Proof. unfold no_back. destruct (Rltb_spec v 0); [now rewrite Rmax_left by lra|now rewrite Rmax_right by lra]. Qed.
Lemma arrive e goal d : 0 < d -> e + no_back ((goal - e) / d) * d = Rmax e goal.
Proof.
  intros Hd. rewrite no_back_max. destruct (Rle_lt_dec e goal) as [L|L].
  - rewrite (Rmax_right e) by auto. rewrite Rmax_right; [field; lra|]. apply Rmult_le_pos; [lra|]. left. now apply Rinv_0_lt_compat.
  - rewrite (Rmax_left e) by lra. rewrite Rmax_left; [ring|]. assert (0 <= (e - goal) / d) by (apply Rmult_le_pos; [lra|]; left; now apply Rinv_0_lt_compat).
    replace ((goal - e) / d) with (- ((e - goal) / d)) by (field; lra). lra.
Qed.

(** ** recalculate_wavespeed *)
(** When the interval has changed the new speeds carry the last edge to the wave front, or to the temperature wave plus the
    leader pad, the last but one to the temperature wave and the one before to the wave minus the pad, all at the entry
    after the interval, unless an edge is there already; then it rests. *)
Theorem C181_on_time : forall W N x0 pad lpad edges Dc t s k,
  rising (w_t W) -> fits W -> (4 <= N)%nat -> length edges = (N + 1)%nat -> length Dc = (N + 1)%nat ->
  (k + 1 < length (w_t W))%nat -> interval W k t -> k <> index_old s ->
  exists s', recalc W N x0 pad lpad edges Dc t s = Ok s' /\ index_old s' = k /\ delta_t s' = nth (k + 1) (w_t W) 0 - t /\ 0 < delta_t s' /\
    nth N edges 0 + right_speed s' * delta_t s' = Rmax (nth N edges 0) (nth (k + 1) (w_right W) 0) /\
    nth N edges 0 + leader_speed s' * delta_t s' = Rmax (nth N edges 0) (nth (k + 1) (w_T W) 0 + lpad) /\
    nth (N - 1) edges 0 + T_speed s' * delta_t s' = Rmax (nth (N - 1) edges 0) (nth (k + 1) (w_T W) 0) /\
    nth (N - 2) edges 0 + follower_speed s' * delta_t s' = Rmax (nth (N - 2) edges 0) (nth (k + 1) (w_T W) 0 - pad) /\
    nth (N - 1) edges 0 + packet_speed s' * delta_t s' = nth (k + 1) (w_T W) 0 + pad.
Proof.
  intros W N x0 pad lpad edges Dc t s k Hr (F1 & F2 & F3) HN Le Ld Hk HI Hs.
  assert (T1 : t < nth (k + 1) (w_t W) 0) by (destruct HI as [_ B]; apply (Rle_lt_trans _ _ _ B); rewrite Nat.add_1_r; apply Hr; lia).
  unfold recalc. rewrite (interval_index W k t Hr ltac:(lia) HI).
  assert (C1 : check_index W t k = Ok tt).
  { unfold check_index. destruct (Nat.eqb_spec k 0); auto. rewrite getitem_nth by lia. cbn [bind]. destruct (Rleb _ _); auto. now rewrite getitem_nth by lia. }
  assert (C2 : check_location W edges t k = Ok tt).
  { unfold check_location. rewrite getitem_nth by lia. cbn [bind]. destruct (Rltb _ _); auto. rewrite !getitem_nth by lia. rewrite !getneg_nth by lia. reflexivity. }
  rewrite C1, C2. cbn [bind]. rewrite (proj2 (Nat.eqb_neq k (index_old s)) Hs).
  assert (Q : (1 <= N / 4)%nat) by (apply Nat.div_le_lower_bound; lia). assert (Q2 : (4 * (N / 4) <= N)%nat) by apply Nat.mul_div_le, Nat.neq_succ_0.
  assert (SE : exists v, span_edge edges (N / 4) = Ok v).
  { unfold span_edge. destruct (Nat.ltb_spec (N / 4) 3); [rewrite getitem_nth by lia|rewrite getneg_nth by lia]; eauto. }
  destruct SE as (es & SE).
  unfold new_speeds. rewrite !getitem_nth by lia. rewrite !getneg_nth by lia. cbn [bind]. rewrite Reqb_false by lra. rewrite SE. cbn [bind].
  destruct (Nat.eqb_spec (N / 4) 0) as [|_]; [lia|]. cbn [bind].
  eexists. split; [reflexivity|]. unfold forward. cbn [index_old delta_t right_speed T_speed leader_speed packet_speed follower_speed].
  rewrite Le. replace (N + 1 - 1)%nat with N by lia. replace (N + 1 - 2)%nat with (N - 1)%nat by lia. replace (N + 1 - 3)%nat with (N - 2)%nat by lia.
  rewrite !arrive by lra. repeat split; try lra. field. lra.
Qed.
Print Assumptions C181_on_time.
(** The sixth edge: the speed for the span takes the edge numbered N + 3 - N/4 (for at least twelve cells) to one step
    before the place where the follower arrives, by steps which divide the way from x0 to it into half of N/4 pieces. *)
Theorem C181_span : forall W N x0 pad lpad edges Dc t s k j,
  rising (w_t W) -> fits W -> (4 <= N)%nat -> length edges = (N + 1)%nat -> length Dc = (N + 1)%nat ->
  (k + 1 < length (w_t W))%nat -> interval W k t -> k <> index_old s ->
  ((12 <= N)%nat /\ j = (N + 3 - N / 4)%nat) \/ ((N < 8)%nat /\ j = 1%nat) \/ ((8 <= N < 12)%nat /\ j = 0%nat) ->
  let last := nth (N - 2) edges 0 + nth (N - 2) Dc 0 * (nth (k + 1) (w_T W) 0 - pad - nth (N - 2) edges 0) in
  exists s', recalc W N x0 pad lpad edges Dc t s = Ok s' /\
    nth j edges 0 + span_speed s' * delta_t s' = Rmax (nth j edges 0) (last - (last - x0) / (INR (N / 4) / 2)).
Proof.
  intros W N x0 pad lpad edges Dc t s k j Hr HF HN Le Ld Hk HI Hs Hj last.
  destruct (C181_on_time W N x0 pad lpad edges Dc t s k Hr HF HN Le Ld Hk HI Hs) as (s' & E & _ & Ed & Dp & _). exists s'. split; [exact E|].
  destruct HF as (F1 & F2 & F3). unfold recalc in E. rewrite (interval_index W k t Hr ltac:(lia) HI) in E. rewrite (proj2 (Nat.eqb_neq k (index_old s)) Hs) in E.
  apply bind_ok in E. destruct E as (u & _ & E). apply bind_ok in E. destruct E as (s1 & E1 & E). apply bind_ok in E. destruct E as (v & _ & E). injection E as <-.
  assert (D1 : 0 < nth (k + 1) (w_t W) 0 - t) by (rewrite <- Ed; exact Dp).
  assert (SE : span_edge edges (N / 4) = Ok (nth j edges 0)).
  { unfold span_edge. assert (Q2 : (4 * (N / 4) <= N)%nat) by apply Nat.mul_div_le, Nat.neq_succ_0. assert (Q3 : (N < 4 * (N / 4) + 4)%nat) by (pose proof (Nat.mul_succ_div_gt N 4 ltac:(lia)); lia).
    destruct (Nat.ltb_spec (N / 4) 3).
    - assert (j = 2 - N / 4)%nat as -> by lia. apply getitem_nth. lia.
    - rewrite getneg_nth by lia. do 2 f_equal. lia. }
  assert (Q : (1 <= N / 4)%nat) by (apply Nat.div_le_lower_bound; lia).
  unfold new_speeds in E1. rewrite !getitem_nth in E1 by lia. rewrite !getneg_nth in E1 by lia. cbn [bind] in E1. rewrite Reqb_false in E1 by lra. rewrite SE in E1. cbn [bind] in E1.
  destruct (Nat.eqb_spec (N / 4) 0) as [|_]; [lia|]. injection E1 as <-. unfold forward in *. cbn [span_speed delta_t] in *.
  rewrite arrive by lra. f_equal. rewrite Le, Ld. replace (N + 1 - 3)%nat with (N - 2)%nat by lia. unfold last.
  set (d := nth (k + 1) (w_t W) 0 - t) in *. set (T := nth (k + 1) (w_T W) 0). set (e := nth (N - 2) edges 0). set (c := nth (N - 2) Dc 0).
  assert (0 < INR (N / 4)) by (apply lt_0_INR; lia). change (fst (Nat.divmod N 3 0 3)) with (N / 4)%nat. field. split; lra.
Qed.
Print Assumptions C181_span.
(** None of the five speeds which move edges is negative, and during the whole interval the three last edges stay in
    order, if they are at its beginning and the pads are not negative. *)
Theorem C181_forward : forall W N x0 pad lpad edges Dc t s s', recalc W N x0 pad lpad edges Dc t s = Ok s' ->
  0 <= right_speed s' /\ 0 <= T_speed s' /\ 0 <= leader_speed s' /\ 0 <= follower_speed s' /\ 0 <= span_speed s'.
Proof.
  intros W N x0 pad lpad edges Dc t s s' H. unfold recalc in H. apply bind_ok in H. destruct H as (u & _ & H).
  apply bind_ok in H. destruct H as (s1 & _ & H). apply bind_ok in H. destruct H as (v & _ & H). injection H as <-.
  unfold forward. cbn [right_speed T_speed leader_speed follower_speed span_speed]. rewrite !no_back_max. repeat split; apply Rmax_l.
Qed.
Print Assumptions C181_forward.
Theorem C181_in_order : forall W N x0 pad lpad edges Dc t s k s',
  rising (w_t W) -> fits W -> (4 <= N)%nat -> length edges = (N + 1)%nat -> length Dc = (N + 1)%nat ->
  (k + 1 < length (w_t W))%nat -> interval W k t -> k <> index_old s -> recalc W N x0 pad lpad edges Dc t s = Ok s' ->
  0 <= pad -> 0 <= lpad -> nth (N - 2) edges 0 <= nth (N - 1) edges 0 <= nth N edges 0 ->
  forall tau, 0 <= tau <= delta_t s' ->
    nth (N - 2) edges 0 + follower_speed s' * tau <= nth (N - 1) edges 0 + T_speed s' * tau <= nth N edges 0 + leader_speed s' * tau.
Proof.
  intros W N x0 pad lpad edges Dc t s k s' Hr HF HN Le Ld Hk HI Hs E Hp Hl Ho tau Ht.
  destruct (C181_on_time W N x0 pad lpad edges Dc t s k Hr HF HN Le Ld Hk HI Hs) as (s1 & E1 & _ & _ & Dp & _ & A1 & A2 & A3 & _).
  rewrite E in E1. injection E1 as <-.
  assert (L : forall a b u v, a <= b -> a + u * delta_t s' <= b + v * delta_t s' -> a + u * tau <= b + v * tau).
  { intros a b u v H1 H2. set (d := delta_t s') in *. destruct (Rle_lt_dec u v) as [X|X].
    - assert (u * tau <= v * tau) by (apply Rmult_le_compat_r; lra). lra.
    - assert ((u - v) * tau <= (u - v) * d) by (apply Rmult_le_compat_l; lra). lra. }
  assert (M : forall a b x y, a <= b -> x <= y -> Rmax a x <= Rmax b y) by (intros; apply Rle_max_compat || (unfold Rmax; repeat destruct (Rle_dec _ _); lra)).
  split; apply L; try lra; [rewrite A2, A3|rewrite A1, A2]; apply M; lra.
Qed.
Print Assumptions C181_in_order.
(** Within one interval nothing is computed again: the speeds stay, and so does delta_t although the time has moved. *)
Theorem C181_kept : forall W N x0 pad lpad edges Dc t s k,
  rising (w_t W) -> fits W -> (1 <= N)%nat -> length edges = (N + 1)%nat -> (k + 1 < length (w_t W))%nat -> interval W k t -> k = index_old s ->
  0 <= right_speed s -> 0 <= T_speed s -> 0 <= leader_speed s -> 0 <= follower_speed s -> 0 <= span_speed s ->
  recalc W N x0 pad lpad edges Dc t s = Ok s.
Proof.
  intros W N x0 pad lpad edges Dc t s k Hr (F1 & F2 & F3) HN Le Hk HI Hs P1 P2 P3 P4 P5.
  unfold recalc. rewrite (interval_index W k t Hr ltac:(lia) HI).
  assert (C1 : check_index W t k = Ok tt).
  { unfold check_index. destruct (Nat.eqb_spec k 0); auto. rewrite getitem_nth by lia. cbn [bind]. destruct (Rleb _ _); auto. now rewrite getitem_nth by lia. }
  assert (C2 : check_location W edges t k = Ok tt).
  { unfold check_location. rewrite getitem_nth by lia. cbn [bind]. destruct (Rltb _ _); auto. rewrite !getitem_nth by lia. rewrite !getneg_nth by lia. reflexivity. }
  rewrite C1, C2. cbn [bind]. rewrite (proj2 (Nat.eqb_eq k (index_old s)) Hs). cbn [bind].
  unfold forward. rewrite !no_back_max, !Rmax_right by auto. now destruct s.
Qed.
Print Assumptions C181_kept.
(** A time after the last entry but one has no entry to aim at. *)
Theorem C181_past_the_table : forall W N x0 pad lpad edges Dc t s, length (w_T W) = length (w_t W) ->
  (length (w_t W) <= searchsorted (w_t W) t + 1)%nat -> recalc W N x0 pad lpad edges Dc t s = Err IndexError.
Proof.
  intros W N x0 pad lpad edges Dc t s F H. unfold recalc. set (k := searchsorted (w_t W) t) in *.
  assert (SL : forall l, (searchsorted l t <= length l)%nat) by (induction l as [|a l IH]; cbn [searchsorted length]; [lia|destruct (Rltb a t); lia]).
  assert (SB : forall l i, (i < searchsorted l t)%nat -> nth i l 0 < t).
  { induction l as [|a l IH]; cbn [searchsorted]; intros i Hi; [lia|]. destruct (Rltb_spec a t); [|lia]. destruct i as [|i]; cbn [nth]; auto. apply IH. lia. }
  unfold check_index. destruct (Nat.eqb_spec k 0) as [Z|Z].
  - cbn [bind]. unfold new_speeds, check_location. rewrite (getitem_out (w_T W)) by lia. rewrite (getitem_out (w_t W)) by lia. destruct (k =? index_old s)%nat; reflexivity.
  - pose proof (SL (w_t W)). fold k in H0. rewrite getitem_nth by lia. cbn [bind]. pose proof (SB (w_t W) (k - 1)%nat ltac:(fold k; lia)).
    rewrite Rleb_true by lra. rewrite getitem_out by lia. reflexivity.
Qed.
Print Assumptions C181_past_the_table.

(** times 0, 1, 2, 3; the temperature wave at [T], the front at [r] *)
Definition table (r T : list R) : waves := Waves [0; 1; 2; 3] [0; 0; 0; 0] r T.
Lemma table_rising r T : rising (w_t (table r T)).
Proof. intros i Hi. cbn [w_t table length] in Hi. do 3 (destruct i as [|i]; [cbn; lra|]). lia. Qed.
Definition at_first : speeds := Speeds 0 0 0 0 0 0 0 0.
(** Before the first entry nothing is computed at all, for index_old is 0 at first: the edges rest though the wave moves. *)
Theorem C181_first_interval_refuted : exists W N x0 pad lpad edges Dc t s',
  rising (w_t W) /\ fits W /\ (4 <= N)%nat /\ length edges = (N + 1)%nat /\ length Dc = (N + 1)%nat /\ interval W 0 t /\
  recalc W N x0 pad lpad edges Dc t at_first = Ok s' /\ nth (N - 1) edges 0 < nth 1 (w_T W) 0 /\ T_speed s' = 0.
Proof.
  exists (table [0; 0; 0; 0] [2; 4; 6; 8]), 4%nat, 1, 0, 0, [-2; -1; 0; 1; 2], [0; 0; 0; 0; 0], 0, at_first.
  repeat apply conj; try reflexivity; try lia; try (cbn; lra); [apply table_rising|].
  apply (C181_kept _ 4 1 0 0 _ _ 0 at_first 0); try (cbn; lra); try (cbn; lia); try reflexivity; [apply table_rising|repeat split|split; [cbn; lia|cbn; lra]].
Qed.
Print Assumptions C181_first_interval_refuted.
(** The sixth speed is not kept from being negative. *)
Theorem C181_packet_refuted : exists W N x0 pad lpad edges Dc t s', recalc W N x0 pad lpad edges Dc t at_first = Ok s' /\ packet_speed s' < 0.
Proof.
  destruct (C181_on_time (table [0; 0; 0; 0] [0; 0; 0; 0]) 4 1 0 0 [-2; -1; 0; 1; 2] [0; 0; 0; 0; 0] (1 / 2) at_first 1) as (s' & E & _ & D & P & _ & _ & _ & _ & A); try (cbn; lia); try reflexivity.
  - apply table_rising.
  - repeat split.
  - split; intros; cbn; lra.
  - exists (table [0; 0; 0; 0] [0; 0; 0; 0]), 4%nat, 1, 0, 0, [-2; -1; 0; 1; 2], [0; 0; 0; 0; 0], (1 / 2), s'. split; [exact E|]. cbn in A. nra.
Qed.
Print Assumptions C181_packet_refuted.
(** the first theorem at work: in the interval from 0 to 1 the last but one edge leaves 1 for the wave at 6 *)
Example C181_example : exists s', recalc (table [0; 0; 0; 0] [2; 4; 6; 8]) 4 1 (1 / 10) (1 / 5) [-2; -1; 0; 1; 2] [0; 0; 0; 0; 0] (1 / 2) at_first = Ok s' /\
  delta_t s' = 3 / 2 /\ 1 + T_speed s' * (3 / 2) = 6 /\ 2 + leader_speed s' * (3 / 2) = 31 / 5.
Proof.
  destruct (C181_on_time (table [0; 0; 0; 0] [2; 4; 6; 8]) 4 1 (1 / 10) (1 / 5) [-2; -1; 0; 1; 2] [0; 0; 0; 0; 0] (1 / 2) at_first 1) as (s' & E & _ & D & P & _ & A1 & A2 & _ & _); try (cbn; lia); try reflexivity.
  - apply table_rising.
  - repeat split.
  - split; intros; cbn; lra.
  - exists s'. split; [exact E|]. cbn in D, A1, A2. assert (delta_t s' = 3 / 2) as Q by lra. rewrite Q in *. split; [reflexivity|].
    rewrite A2, A1. rewrite !Rmax_right by lra. lra.
Qed.

(** ** thick_square_moving_func *)
Definition shape (q : nat) (speed right left : R) (c d : nat -> R) (i : nat) : R :=
  if (i <? q)%nat then - (c i * right / speed)
  else if (i =? q)%nat then d i
  else if (i <? 2 * q)%nat then c i * left / speed
  else if (i =? 2 * q)%nat then d i
  else if (i <? 3 * q)%nat then - (c (4 * q - i)%nat * left / speed)
  else if (i =? 3 * q)%nat then d i
  else c (4 * q - i)%nat * right / speed.
Lemma spread_tab q speed right left c d : (1 <= q)%nat -> speed <> 0 ->
  spread (4 * q) speed right left (tab (4 * q + 1) c) (tab (4 * q + 1) d) = Ok (tab (4 * q + 1) (shape q speed right left c d)).
Proof.
  intros Hq Hv. unfold spread. replace (4 * q / 2)%nat with (2 * q)%nat by (replace (4 * q)%nat with (2 * q * 2)%nat by lia; now rewrite Nat.div_mul by lia).
  replace (2 * q / 2)%nat with q by (replace (2 * q)%nat with (q * 2)%nat by lia; now rewrite Nat.div_mul by lia).
  rewrite !slice_tab, !vscale_tab, !vdivs_tab by auto. cbn [bind]. rewrite !vscale_tab.
  rewrite setslice_tab by lia. cbn [bind]. rewrite setslice_tab by lia. cbn [bind]. rewrite !rev_tab, !map_tab.
  replace (Nat.min (2 * q - (q + 1)) (4 * q + 1 - (q + 1))) with (q - 1)%nat by lia. replace (Nat.min (q - 0) (4 * q + 1 - 0)) with q by lia.
  rewrite setslice_tab by lia. cbn [bind]. rewrite tab_length. rewrite setslice_tab by lia. f_equal. apply tab_ext. intros i Hi. unfold shape.
  repeat match goal with |- context [(?a <? ?b)%nat] => destruct (Nat.ltb_spec a b) end; repeat match goal with |- context [(?a =? ?b)%nat] => destruct (Nat.eqb_spec a b) end; try lia; try reflexivity;
  try (replace (0 + i)%nat with i by lia; field; auto);
  try (match goal with |- context [c ?x] => match goal with |- _ = ?r => match r with context [c ?y] => replace x with y by lia end end end; field; auto).
Qed.

(** an object whose arrays have N+1 entries *)
Definition whole (N : nat) (m : follow) : Prop :=
  length (f_edges m) = (N + 1)%nat /\ length (f_edges0 m) = (N + 1)%nat /\ length (f_D m) = (N + 1)%nat /\ length (f_Dc m) = (N + 1)%nat.
(** positions and velocities are mirrored at the centre *)
Definition mirrored (N : nat) (l : list R) : Prop := forall i, (i <= N)%nat -> nth (N - i) l 0 = - nth i l 0.
(** the slopes of the front and of the inner wave between two entries *)
Definition slope (W : waves) (l : list R) (k : nat) : R := (nth (k + 1) l 0 - nth k l 0) / (nth (k + 1) (w_t W) 0 - nth k (w_t W) 0).

Lemma tab_of l n : length l = n -> l = tab n (fun i => nth i l 0).
Proof. intros H. now apply list_is_tab. Qed.
Lemma vadd_at l n f : length l = n -> vadd l (tab n f) = Ok (tab n (fun i => nth i l 0 + f i)).
Proof. intros H. rewrite (tab_of _ _ H) at 1. unfold vadd. apply vop_tab. Qed.
Lemma spread_at q speed right left Dc D : (1 <= q)%nat -> speed <> 0 -> length Dc = (4 * q + 1)%nat -> length D = (4 * q + 1)%nat ->
  spread (4 * q) speed right left Dc D = Ok (tab (4 * q + 1) (shape q speed right left (fun i => nth i Dc 0) (fun i => nth i D 0))).
Proof. intros Hq Hv H1 H2. rewrite (tab_of _ _ H1) at 1. rewrite (tab_of _ _ H2) at 1. now apply spread_tab. Qed.
(** With a multiple of four cells a call succeeds wherever the table has two entries ahead.  The edges outside of the wave
    move with the slope of the front, those inside with the slope of the inner wave, in proportion to their first
    velocities; three edges keep the velocity they have; the right half mirrors the left. *)
Theorem C181_follow : forall W q speed t m k, rising (w_t W) -> fits W -> (1 <= q)%nat -> speed <> 0 -> whole (4 * q) m ->
  (k + 1 < length (w_t W))%nat -> interval W k t ->
  exists m', follow_steps W (4 * q) speed t m = Ok m' /\ whole (4 * q) m' /\ f_told m' = t /\ f_Dc m' = f_Dc m /\ f_edges0 m' = f_edges m' /\
    (forall i, (i <= 4 * q)%nat -> nth i (f_edges m') 0 = nth i (f_edges0 m) 0 + nth i (f_D m') 0 * (t - f_told m)) /\
    (forall i, (i < q)%nat -> nth i (f_D m') 0 = nth i (f_Dc m) 0 / speed * slope W (w_right W) k) /\
    (forall i, (q < i < 2 * q)%nat -> nth i (f_D m') 0 = - (nth i (f_Dc m) 0 / speed * slope W (w_left W) k)) /\
    (forall i, (i < 2 * q)%nat -> i <> q -> nth (4 * q - i) (f_D m') 0 = - nth i (f_D m') 0) /\
    (forall i, i = q \/ i = (2 * q)%nat \/ i = (3 * q)%nat -> nth i (f_D m') 0 = nth i (f_D m) 0).
Proof.
  intros W q speed t m k Hr (F1 & F2 & F3) Hq Hv (L1 & L2 & L3 & L4) Hk HI.
  assert (Dp : 0 < nth (k + 1) (w_t W) 0 - nth k (w_t W) 0) by (pose proof (Hr k ltac:(lia)) as X; rewrite Nat.add_1_r; lra).
  unfold follow_steps. rewrite (interval_index W k t Hr ltac:(lia) HI). rewrite !getitem_nth by lia. cbn [bind]. rewrite Reqb_false by lra.
  rewrite (spread_at q) by auto. cbn [bind]. rewrite vscale_tab. rewrite (vadd_at _ _ _ L2). cbn [bind].
  eexists. split; [reflexivity|]. cbn [f_edges f_edges0 f_D f_Dc f_told].
  split; [repeat split; cbn [f_edges f_edges0 f_D f_Dc]; rewrite ?tab_length; auto|]. split; [reflexivity|]. split; [reflexivity|]. split; [reflexivity|].
  split; [intros i Hi; rewrite !nth_tab by lia; reflexivity|].
  unfold slope. set (d := nth (k + 1) (w_t W) 0 - nth k (w_t W) 0) in *.
  split; [intros i Hi; rewrite nth_tab by lia; unfold shape; destruct (Nat.ltb_spec i q); [|lia]; field; split; lra|].
  split; [intros i Hi; rewrite nth_tab by lia; unfold shape; destruct (Nat.ltb_spec i q); [lia|]; destruct (Nat.eqb_spec i q); [lia|]; destruct (Nat.ltb_spec i (2 * q)); [|lia]; field; split; lra|].
  split; intros i Hi; [intros Hi2|]; rewrite ?nth_tab by lia; unfold shape;
  repeat match goal with |- context [(?a <? ?b)%nat] => destruct (Nat.ltb_spec a b) end; repeat match goal with |- context [(?a =? ?b)%nat] => destruct (Nat.eqb_spec a b) end; try lia; try reflexivity;
  replace (4 * q - (4 * q - i))%nat with i by lia; unfold Rdiv; ring.
Qed.
Print Assumptions C181_follow.
(** So a mirrored mesh whose three special edges move mirrored stays mirrored over any sequence of calls. *)
Fixpoint follow_run (W : waves) (N : nat) (speed : R) (ts : list R) (m : follow) : result follow :=
  match ts with [] => Ok m | t :: r => m' <- follow_steps W N speed t m ;; follow_run W N speed r m' end.
Theorem C181_mirror : forall W q speed ts m, rising (w_t W) -> fits W -> (1 <= q)%nat -> speed <> 0 -> whole (4 * q) m ->
  (forall t, In t ts -> exists k, (k + 1 < length (w_t W))%nat /\ interval W k t) ->
  mirrored (4 * q) (f_edges m) -> mirrored (4 * q) (f_edges0 m) -> nth (2 * q) (f_D m) 0 = 0 -> nth (3 * q) (f_D m) 0 = - nth q (f_D m) 0 ->
  exists m', follow_run W (4 * q) speed ts m = Ok m' /\ mirrored (4 * q) (f_edges m').
Proof.
  intros W q speed ts m Hr HF Hq Hv Hm Hts M1 M0 C1 C2. revert m Hm M1 M0 C1 C2. induction ts as [|t ts IH]; intros m Hm M1 M0 C1 C2; cbn [follow_run]; [eauto|].
  destruct (Hts t (or_introl eq_refl)) as (k & Hk & HI).
  destruct (C181_follow W q speed t m k Hr HF Hq Hv Hm Hk HI) as (m' & E & Hm' & Et & Ec & E0 & P & _ & _ & A & K). rewrite E. cbn [bind].
  assert (AD : mirrored (4 * q) (f_D m')).
  { intros i Hi. destruct (Nat.eq_dec i q) as [->|N1]; [replace (4 * q - q)%nat with (3 * q)%nat by lia; rewrite !K by auto; exact C2|].
    destruct (Nat.eq_dec i (2 * q)) as [->|N2]; [replace (4 * q - 2 * q)%nat with (2 * q)%nat by lia; rewrite !K by auto; rewrite C1; ring|].
    destruct (Nat.eq_dec i (3 * q)) as [->|N3]; [replace (4 * q - 3 * q)%nat with q by lia; rewrite !K by auto; rewrite C2; ring|].
    destruct (Nat.lt_ge_cases i (2 * q)) as [L|L]; [apply A; auto|]. pose proof (A (4 * q - i)%nat ltac:(lia) ltac:(lia)) as Z. replace (4 * q - (4 * q - i))%nat with i in Z by lia. lra. }
  assert (ME : mirrored (4 * q) (f_edges m')). { intros i Hi. rewrite !P by lia. rewrite (M0 i Hi), (AD i Hi). ring. }
  apply IH; auto; [intros u Hu; apply Hts; now right|now rewrite E0|rewrite K by auto; exact C1|rewrite !K by auto; exact C2].
Qed.
Print Assumptions C181_mirror.
(** If the front moves at one velocity, the first edge keeps its distance from it. *)
Theorem C181_uniform_front : forall W q speed t m k r v, rising (w_t W) -> fits W -> (1 <= q)%nat -> speed <> 0 -> whole (4 * q) m ->
  (k + 1 < length (w_t W))%nat -> interval W k t -> nth 0 (f_Dc m) 0 = - speed -> (forall i, (i < length (w_t W))%nat -> nth i (w_right W) 0 = r + v * nth i (w_t W) 0) ->
  exists m', follow_steps W (4 * q) speed t m = Ok m' /\ nth 0 (f_edges m') 0 + (r + v * t) = nth 0 (f_edges0 m) 0 + (r + v * f_told m).
Proof.
  intros W q speed t m k r v Hr HF Hq Hv Hm Hk HI Hc Hw.
  destruct (C181_follow W q speed t m k Hr HF Hq Hv Hm Hk HI) as (m' & E & _ & _ & _ & _ & P & Q & _). exists m'. split; [exact E|].
  rewrite P by lia. rewrite Q by lia. rewrite Hc. unfold slope. rewrite !Hw by lia. pose proof (Hr k ltac:(lia)) as X.
  rewrite Nat.add_1_r. field. split; lra.
Qed.
Print Assumptions C181_uniform_front.
(** With a front which does not, the slope is that of the interval after the one in which the time lies, and the edge
    does not follow. *)
Definition five : follow := Follow [-1; -1/2; 0; 1/2; 1] [-1; -1/2; 0; 1/2; 1] [0; 0; 0; 0; 0] [-1; 0; 0; 0; 1] 0.
Theorem C181_wrong_interval_refuted : exists W speed m m', rising (w_t W) /\ fits W /\ whole 4 m /\ nth 0 (f_Dc m) 0 = - speed /\
  f_told m = nth 0 (w_t W) 0 /\ nth 0 (f_edges0 m) 0 = - nth 0 (w_right W) 0 /\
  follow_steps W 4 speed (nth 1 (w_t W) 0) m = Ok m' /\ nth 0 (f_edges m') 0 <> - nth 1 (w_right W) 0.
Proof.
  destruct (C181_follow (table [1; 2; 5; 5] [0; 0; 0; 0]) 1 1 1 five 1) as (m' & E & _ & _ & _ & _ & P & Q & _); try lia; try lra; try (cbn; lia).
  - apply table_rising.
  - repeat split.
  - repeat split.
  - split; intros; cbn; lra.
  - exists (table [1; 2; 5; 5] [0; 0; 0; 0]), 1, five, m'. split; [apply table_rising|]. split; [repeat split|]. split; [repeat split|].
    split; [reflexivity|]. split; [reflexivity|]. split; [reflexivity|]. split; [exact E|].
    rewrite P by lia. rewrite Q by lia. unfold slope. cbn. lra.
Qed.
Print Assumptions C181_wrong_interval_refuted.
(** The branch for the final positions takes the first edge to the front plus the pad for that time, and the edge before
    the centre to the inner wave. *)
Theorem C181_whole_way : forall W q speed tf t m k, rising (w_t W) -> fits W -> (2 <= q)%nat -> speed <> 0 -> tf <> 0 -> whole (4 * q) m -> f_edges0 m = f_edges m ->
  (k < length (w_t W))%nat -> interval W k t -> nth 0 (f_Dc m) 0 = - speed -> nth (2 * q - 1) (f_Dc m) 0 = speed ->
  exists m', follow_whole W (4 * q) speed tf t m = Ok m' /\
    nth (2 * q - 1) (f_edges m') 0 = - nth k (w_left W) 0 /\
    (t = 1 -> nth 0 (f_edges m') 0 = - nth k (w_right W) 0 - 1 / 2) /\ (t = 100 -> nth 0 (f_edges m') 0 = - nth k (w_right W) 0 - 2) /\
    (t <> 1 -> t <> 100 -> nth 0 (f_edges m') 0 = - nth k (w_right W) 0).
Proof.
  intros W q speed tf t m k Hr (F1 & F2 & F3) Hq Hv Htf (L1 & L2 & L3 & L4) HE Hk HI H0 H1.
  unfold follow_whole. rewrite (interval_index W k t Hr ltac:(lia) HI).
  replace (4 * q / 2)%nat with (2 * q)%nat by (replace (4 * q)%nat with (2 * q * 2)%nat by lia; now rewrite Nat.div_mul by lia).
  rewrite !getitem_nth by lia. cbn [bind]. rewrite Reqb_false by auto. destruct (Nat.eqb_spec (2 * q) 0); [lia|]. cbn [bind].
  rewrite (spread_at q) by (auto; lia). cbn [bind]. rewrite vscale_tab. rewrite (vadd_at _ _ _ L2). cbn [bind].
  eexists. split; [reflexivity|]. cbn [f_edges]. rewrite !nth_tab by lia. unfold shape. destruct (Nat.ltb_spec 0 q); [|lia].
  destruct (Nat.ltb_spec (2 * q - 1) q); [lia|]. destruct (Nat.eqb_spec (2 * q - 1) q); [lia|]. destruct (Nat.ltb_spec (2 * q - 1) (2 * q)); [|lia].
  rewrite HE, H0, H1. split; [field; auto|]. split; [|split].
  - intros ->. rewrite Reqb_refl. field; auto.
  - intros ->. rewrite Reqb_false by lra. rewrite Reqb_refl. field; auto.
  - intros N1 N2. rewrite !Reqb_false by auto. field; auto.
Qed.
Print Assumptions C181_whole_way.
(** An even number of cells which is not a multiple of four fails (from ten cells on; six are saved by broadcasting). *)
Theorem C181_not_by_four : forall W q speed t m k, rising (w_t W) -> fits W -> (2 <= q)%nat -> speed <> 0 -> whole (4 * q + 2) m ->
  (k + 1 < length (w_t W))%nat -> interval W k t -> follow_steps W (4 * q + 2) speed t m = Err ValueError.
Proof.
  intros W q speed t m k Hr (F1 & F2 & F3) Hq Hv (L1 & L2 & L3 & L4) Hk HI.
  assert (Dp : 0 < nth (k + 1) (w_t W) 0 - nth k (w_t W) 0) by (pose proof (Hr k ltac:(lia)) as X; rewrite Nat.add_1_r; lra).
  unfold follow_steps. rewrite (interval_index W k t Hr ltac:(lia) HI). rewrite !getitem_nth by lia. cbn [bind]. rewrite Reqb_false by lra.
  unfold spread. replace ((4 * q + 2) / 2)%nat with (2 * q + 1)%nat by (replace (4 * q + 2)%nat with ((2 * q + 1) * 2)%nat by lia; now rewrite Nat.div_mul by lia).
  replace ((2 * q + 1) / 2)%nat with q by (apply (Nat.div_unique (2 * q + 1) 2 q 1); lia).
  rewrite (tab_of _ _ L4), (tab_of _ _ L3).
  rewrite !slice_tab, !vscale_tab, !vdivs_tab by auto. cbn [bind]. rewrite !vscale_tab.
  rewrite setslice_tab by lia. cbn [bind]. rewrite setslice_tab by lia. cbn [bind]. rewrite !rev_tab, !map_tab.
  replace (Nat.min (2 * q + 1 - (q + 1)) (4 * q + 2 + 1 - (q + 1))) with q by lia.
  unfold setslice at 1. rewrite slice_tab, !tab_length. destruct (Nat.eqb_spec q (Nat.min (2 * q + 1 + q - (2 * q + 1 + 1)) (4 * q + 2 + 1 - (2 * q + 1 + 1)))); [lia|].
  destruct q as [|[|q]]; [lia|lia|]. reflexivity.
Qed.
Print Assumptions C181_not_by_four.
Example C181_example_follow : exists m', follow_steps (table [1; 2; 3; 4] [0; 0; 0; 0]) 4 1 (3 / 2) five = Ok m' /\ nth 0 (f_edges m') 0 = - (5 / 2) /\ mirrored 4 (f_edges m').
Proof.
  destruct (C181_uniform_front (table [1; 2; 3; 4] [0; 0; 0; 0]) 1 1 (3 / 2) five 2 1 1) as (m' & E & P); try lia; try lra; try (cbn; lia); try reflexivity.
  - apply table_rising.
  - repeat split.
  - repeat split.
  - split; intros; cbn; lra.
  - intros i Hi. cbn in Hi. do 4 (destruct i as [|i]; [cbn; lra|]). lia.
  - destruct (C181_mirror (table [1; 2; 3; 4] [0; 0; 0; 0]) 1 1 [3 / 2] five) as (m2 & E2 & M); try lia; try lra; try (cbn; lra).
    + apply table_rising.
    + repeat split.
    + repeat split.
    + intros t [<-|[]]. exists 2%nat. split; [cbn; lia|]. split; intros; cbn; lra.
    + intros i Hi. do 5 (destruct i as [|i]; [cbn; lra|]). lia.
    + intros i Hi. do 5 (destruct i as [|i]; [cbn; lra|]). lia.
    + cbn [follow_run] in E2. change (4 * 1)%nat with 4%nat in *. rewrite E in E2. cbn [bind] in E2. injection E2 as <-. exists m'. split; [exact E|]. split; [cbn in P |- *; lra|exact M].
Qed.
