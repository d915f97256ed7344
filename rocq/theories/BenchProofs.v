(** Lemmas about the benchmark comparison. *)
From Coquelicot Require Import Coquelicot.
From Verif Require Import Py PyLemmas StoreModel OutModel BenchModel MeshSpec StoreThms.

Lemma rargmin_from_spec l : forall best at_ i (pre : list R), length pre = i -> (at_ < i)%nat -> nth at_ pre 0 = best ->
  (forall j, (j < i)%nat -> best <= nth j pre 0) -> (forall j, (j < at_)%nat -> best < nth j pre 0) ->
  let r := rargmin_from best at_ i l in
  (r < i + length l)%nat /\ (forall j, (j < i + length l)%nat -> nth r (pre ++ l) 0 <= nth j (pre ++ l) 0) /\
  (forall j, (j < r)%nat -> nth r (pre ++ l) 0 < nth j (pre ++ l) 0).
Proof.
  induction l as [|z l IH]; intros best at_ i pre Hl Ha Hb Hm Hf; cbn [rargmin_from length].
  - rewrite app_nil_r, Nat.add_0_r, Hb. auto.
  - replace (pre ++ z :: l) with ((pre ++ [z]) ++ l) by (rewrite <- app_assoc; reflexivity).
    replace (i + S (length l))%nat with (S i + length l)%nat by lia.
    assert (L : length (pre ++ [z]) = S i) by (rewrite app_length; cbn; lia).
    assert (N1 : forall j, (j < i)%nat -> nth j (pre ++ [z]) 0 = nth j pre 0) by (intros; apply app_nth1; lia).
    assert (N2 : nth i (pre ++ [z]) 0 = z) by (rewrite app_nth2 by lia; rewrite Hl, Nat.sub_diag; reflexivity).
    destruct (Rltb_spec z best) as [Hz|Hz]; apply IH; auto; try lia.
    + intros j Hj. destruct (Nat.eq_dec j i) as [->|]; [lra|]. rewrite N1 by lia. specialize (Hm j ltac:(lia)). lra.
    + intros j Hj. rewrite N1 by lia. specialize (Hm j ltac:(lia)). lra.
    + rewrite N1 by lia. auto.
    + intros j Hj. destruct (Nat.eq_dec j i) as [->|]; [lra|]. rewrite N1 by lia. apply Hm. lia.
    + intros j Hj. rewrite N1 by lia. apply Hf. lia.
Qed.
Lemma rargmin_ok l : (1 <= length l)%nat -> exists i, rargmin l = Ok i /\ (i < length l)%nat /\
  (forall j, (j < length l)%nat -> nth i l 0 <= nth j l 0) /\ (forall j, (j < i)%nat -> nth i l 0 < nth j l 0).
Proof.
  destruct l as [|z l]; cbn [length]; intro H; [lia|]. eexists. split; [reflexivity|].
  apply (rargmin_from_spec l z 0 1 [z]); auto; try lia.
  - intros j Hj. replace j with 0%nat by lia. cbn. lra.
Qed.

Section B.
Variable b : bench.
Variables lo hi : R.
Hypothesis Hlo : getitem (b_xs b) 0 = Ok lo.
Hypothesis Hhi : getneg (b_xs b) 1 = Ok hi.
Lemma interp_tab f m X : (forall i, (i < m)%nat -> lo <= X i <= hi) -> interp_at b f (tab m X) = Ok (tab m (fun i => f (X i))).
Proof.
  intro H. unfold interp_at. rewrite Hlo, Hhi. cbn [bind].
  assert (forallb (fun x => Rleb lo x && Rleb x hi) (tab m X) = true) as ->.
  { apply forallb_forall. intros x Hx. apply (In_nth _ _ 0) in Hx as (i & Hi & <-). rewrite tab_length in Hi. rewrite nth_tab by auto.
    specialize (H i Hi). destruct (Rleb_spec lo (X i)); [|lra]. destruct (Rleb_spec (X i) hi); [auto|lra]. }
  now rewrite map_tab.
Qed.
Lemma interp_bad f m X i : (i < m)%nat -> hi < X i -> interp_at b f (tab m X) = Err ValueError.
Proof.
  intros Hi H. unfold interp_at. rewrite Hlo, Hhi. cbn [bind].
  destruct (forallb _ _) eqn:E; auto. exfalso. rewrite forallb_forall in E. specialize (E (X i)).
  assert (I : In (X i) (tab m X)). { rewrite <- (nth_tab m X i 0) by auto. apply nth_In. now rewrite tab_length. }
  apply E in I. apply andb_prop in I as [_ I]. destruct (Rleb_spec (X i) hi); [lra|discriminate].
Qed.

(** increasing query points *)
Lemma stich_increasing n X : (2 <= n)%nat -> (forall i j, (i < j < n)%nat -> X i < X j) -> lo <= X 0%nat -> 1 / 10 ^ 12 < X (n - 1)%nat - X 0%nat ->
  hi < X (n - 1)%nat ->
  exists e, (e < n)%nat /\ (forall f, stich b f (tab n X) = Ok (tab n (fun i => if (i <? e)%nat then f (X i) else 0))) /\
   (forall j, (j < n)%nat -> Rabs (X e - hi) <= Rabs (X j - hi)) /\
   (forall i, (i < e)%nat -> X i <= hi) /\ (forall i, (e < i < n)%nat -> hi < X i).
Proof.
  intros Hn HX H0 Hd Hend. destruct (rargmin_ok (tab n (fun i => Rabs (X i - hi)))) as (e & Ee & He & Hm & Hf); [rewrite tab_length; lia|].
  rewrite tab_length in *.
  assert (M : forall j, (j < n)%nat -> Rabs (X e - hi) <= Rabs (X j - hi)) by (intros j Hj; specialize (Hm j Hj); rewrite !nth_tab in Hm by lia; auto).
  assert (A : forall i, (i < e)%nat -> X i <= hi).
  { intros i Hi. destruct (Rle_dec (X i) hi); auto. exfalso. pose proof (HX i e ltac:(lia)). specialize (M i ltac:(lia)).
    rewrite !Rabs_pos_eq in M by lra. lra. }
  assert (B : forall i, (e < i < n)%nat -> hi < X i).
  { intros i Hi. destruct (Rlt_dec hi (X i)); auto. exfalso. pose proof (HX e i ltac:(lia)). specialize (M i ltac:(lia)).
    rewrite !Rabs_left1 in M by lra. lra. }
  exists e. split; [lia|]. split; [|auto].
  intro f. unfold stich. rewrite getneg_tab, getitem_tab, Hhi by lia. cbn [bind]. rewrite tab_length.
  destruct (Rleb_spec (Rabs (X (n - 1)%nat - X 0%nat)) (1 / 10 ^ 12)) as [Q|_]; [rewrite Rabs_pos_eq in Q; lra|].
  rewrite map_tab, Ee. cbn [bind]. rewrite slice_tab, interp_tab.
  - cbn [bind]. rewrite zeros_tab, setslice_tab by lia. f_equal. apply tab_ext. intros i Hi.
    destruct (Nat.ltb_spec i 0); [lia|]. replace (0 + Nat.min (e - 0) (n - 0))%nat with e by lia. replace (0 + (i - 0))%nat with i by lia. reflexivity.
  - intros i Hi. cbn [Nat.add]. split; [|apply A; lia]. destruct (Nat.eq_dec i 0) as [->|]; [auto|]. pose proof (HX 0%nat i ltac:(lia)). lra.
Qed.

(** symmetric query points: X is |y| for y increasing and odd about the middle *)
Lemma stich_sym n X : (3 <= n)%nat -> (forall i, (i < n)%nat -> X (n - 1 - i)%nat = X i) ->
  (forall i j, (n / 2 <= i < j)%nat -> (j < n)%nat -> X i < X j) -> (forall i, (i < n)%nat -> lo <= X i) -> hi < X (n - 1)%nat ->
  exists e, (n / 2 <= e < n - 1)%nat /\ (forall j, (n / 2 <= j < n - 1)%nat -> Rabs (X e - hi) <= Rabs (X j - hi)) /\
   (forall i, (n / 2 <= i < e)%nat -> X i <= hi) /\ (forall i, (e < i < n)%nat -> hi < X i) /\
   (Nat.Even n -> forall f, stich b f (tab n X) = Ok (tab n (fun i => if ((n - 1 - e <? i) && (i <? e))%nat then f (X i) else 0))) /\
   (Nat.Odd n -> X e <= hi -> forall f, stich b f (tab n X) = Ok (tab n (fun i => if ((n - 1 - e <=? i) && (i <? e))%nat then f (X i) else 0))) /\
   (Nat.Odd n -> (n / 2 < e)%nat -> hi < X e -> forall f, stich b f (tab n X) = Err ValueError).
Proof.
  intros Hn Hs HX Hl Hend. set (m := (n / 2)%nat) in *.
  assert (Hm2 : (n = 2 * m \/ n = 2 * m + 1)%nat). { pose proof (Nat.div_mod n 2 ltac:(lia)) as D. pose proof (Nat.mod_upper_bound n 2 ltac:(lia)). fold m in D. lia. }
  assert (U : forall f, stich b f (tab n X) = (ei <- rargmin (tab (n - 1 - m) (fun i => Rabs (X (m + i)%nat - hi))) ;;
      v <- interp_at b f (tab (Nat.min (ei + m - (m - ei)) (n - (m - ei))) (fun i => X (m - ei + i)%nat)) ;; setslice (tab n (fun _ => 0)) (m - ei) (ei + m) v)).
  { intro f. unfold stich. rewrite getneg_tab, getitem_tab, Hhi by lia. cbn [bind]. rewrite tab_length.
    destruct (Rleb_spec (Rabs (X (n - 1)%nat - X 0%nat)) (1 / 10 ^ 12)) as [_|Q].
    - fold m. rewrite slice_tab, map_tab, zeros_tab. replace (Nat.min (n - 1 - m) (n - m)) with (n - 1 - m)%nat by lia.
      destruct (rargmin _) as [ei|]; cbn [bind]; auto. rewrite slice_tab. reflexivity.
    - exfalso. specialize (Hs 0%nat ltac:(lia)). replace (n - 1 - 0)%nat with (n - 1)%nat in Hs by lia. rewrite Hs in Q; replace (X 0%nat - X 0%nat) with 0 in Q by ring; rewrite Rabs_R0 in Q.
      assert (0 < 1 / 10 ^ 12) by (apply Rdiv_lt_0_compat; [lra|apply pow_lt; lra]). lra. }
  destruct (rargmin_ok (tab (n - 1 - m) (fun i => Rabs (X (m + i)%nat - hi)))) as (ei & E & He & Hmin & _); [rewrite tab_length; lia|].
  rewrite tab_length in *. rewrite E in U. cbn [bind] in U. clear E.
  assert (M : forall j, (m <= j < n - 1)%nat -> Rabs (X (m + ei)%nat - hi) <= Rabs (X j - hi)).
  { intros j Hj. specialize (Hmin (j - m)%nat ltac:(lia)). rewrite !nth_tab in Hmin by lia. replace (m + (j - m))%nat with j in Hmin by lia. auto. }
  assert (A : forall i, (m <= i < m + ei)%nat -> X i <= hi).
  { intros i Hi. destruct (Rle_dec (X i) hi); auto. exfalso. pose proof (HX i (m + ei)%nat ltac:(lia) ltac:(lia)). specialize (M i ltac:(lia)).
    rewrite !Rabs_pos_eq in M by lra. lra. }
  assert (B : forall i, (m + ei < i < n)%nat -> hi < X i).
  { intros i Hi. destruct (Nat.eq_dec i (n - 1)) as [->|]; auto. destruct (Rlt_dec hi (X i)); auto. exfalso.
    pose proof (HX (m + ei)%nat i ltac:(lia) ltac:(lia)). specialize (M i ltac:(lia)). rewrite !Rabs_left1 in M by lra. lra. }
  assert (S : forall i, (i < n)%nat -> (i < m)%nat -> X i = X (n - 1 - i)%nat) by (intros i Hi _; symmetry; auto).
  exists (m + ei)%nat. split; [lia|]. split; [auto|]. split; [auto|]. split; [auto|]. split; [|split].
  - intros [q Hq] f. assert (n = 2 * m)%nat by lia. rewrite U, interp_tab.
    + cbn [bind]. rewrite setslice_tab by lia. f_equal. apply tab_ext. intros i Hi.
      destruct (Nat.ltb_spec i (m - ei)), (Nat.ltb_spec (n - 1 - (m + ei)) i), (Nat.ltb_spec i (m - ei + Nat.min (ei + m - (m - ei)) (n - (m - ei)))),
        (Nat.ltb_spec i (m + ei)); cbn [andb]; try lia; auto. do 2 f_equal. lia.
    + intros i Hi. split; [apply Hl; lia|]. destruct (Nat.ltb_spec (m - ei + i) m).
      * rewrite S by lia. apply A. lia.
      * apply A. lia.
  - intros [q Hq] Hle f. assert (n = 2 * m + 1)%nat by lia. rewrite U, interp_tab.
    + cbn [bind]. rewrite setslice_tab by lia. f_equal. apply tab_ext. intros i Hi.
      destruct (Nat.ltb_spec i (m - ei)), (Nat.leb_spec (n - 1 - (m + ei)) i), (Nat.ltb_spec i (m - ei + Nat.min (ei + m - (m - ei)) (n - (m - ei)))),
        (Nat.ltb_spec i (m + ei)); cbn [andb]; try lia; auto. do 2 f_equal. lia.
    + intros i Hi. split; [apply Hl; lia|]. destruct (Nat.ltb_spec (m - ei + i) m).
      * rewrite S by lia. destruct (Nat.eq_dec i 0) as [->|]; [replace (n - 1 - (m - ei + 0))%nat with (m + ei)%nat by lia; auto|]. apply A. lia.
      * apply A. lia.
  - intros [q Hq] Hpos Hgt f. assert (n = 2 * m + 1)%nat by lia. rewrite U, (interp_bad f _ _ 0%nat); auto; [lia|].
    rewrite S by lia. replace (n - 1 - (m - ei + 0))%nat with (m + ei)%nat by lia. auto.
Qed.
End B.

Lemma argmin_first : forall l i v, nth_error l i = Some v ->
  (forall j z, nth_error l j = Some z -> (Z.abs (v - 1) <= Z.abs (z - 1))%Z /\ ((j < i)%nat -> (Z.abs (v - 1) < Z.abs (z - 1))%Z)) ->
  argmin (map (fun z => Z.abs (z - 1)) l) = Ok i.
Proof.
  intros l i v Hi Hm. destruct l as [|x l]; [destruct i; discriminate|]. cbn [map argmin].
  destruct (argmin_from_spec (map (fun z => Z.abs (z - 1)) l) (Z.abs (x - 1)) 0 1 [Z.abs (x - 1)] eq_refl) as (w & Hw & Hk); try reflexivity; [lia| |].
  { intros [|[|j]] z Hj; try discriminate. injection Hj as <-. split; lia. }
  change ([Z.abs (x - 1)] ++ map (fun z => Z.abs (z - 1)) l)%list with (map (fun z => Z.abs (z - 1)) (x :: l)) in *.
  set (r := argmin_from _ _ _ _) in *. f_equal. rewrite nth_error_map in Hw. destruct (nth_error (x :: l) r) as [y|] eqn:Ey; [|discriminate].
  injection Hw as <-. destruct (Nat.lt_trichotomy r i) as [L|[L|L]]; [|exact L|].
  - destruct (Hm r y Ey) as [_ K]. specialize (K L). destruct (Hk i (Z.abs (v - 1))) as [K' _]; [rewrite nth_error_map, Hi; reflexivity|]. lia.
  - destruct (Hk i (Z.abs (v - 1))) as [_ K]; [rewrite nth_error_map, Hi; reflexivity|]. specialize (K L). destruct (Hm r y Ey). lia.
Qed.

(** root mean square *)
Lemma map2_tab f n X Y : map2 f (tab n X) (tab n Y) = tab n (fun i => f (X i) (Y i)).
Proof. pose proof (vop_tab f n X Y) as H. unfold vop in H. rewrite !tab_length, Nat.eqb_refl in H. injection H; auto. Qed.
Lemma rsum_cons x l : rsum (x :: l) = x + rsum l. Proof. reflexivity. Qed.
Lemma sq_sum_pos l : 0 <= rsum (map (fun x => x ^ 2) l).
Proof. induction l as [|x l IH]; [cbn; lra|]. cbn [map]. rewrite rsum_cons. pose proof (pow2_ge_0 x). lra. Qed.
Lemma sq_sum_zero l : rsum (map (fun x => x ^ 2) l) = 0 -> forall x, In x l -> x = 0.
Proof.
  induction l as [|y l IH]; intros H x Hx; [destruct Hx|]. cbn [map] in H. rewrite rsum_cons in H.
  pose proof (pow2_ge_0 y). pose proof (sq_sum_pos l). destruct Hx as [->|Hx]; [|apply IH; auto; lra].
  assert (Q : x ^ 2 = 0) by lra. nra.
Qed.
Lemma rms_value a b : length a = length b -> (1 <= length a)%nat ->
  rms a b = Ok (sqrt (rsum (map (fun x => x ^ 2) (map2 Rminus a b)) / INR (length a))).
Proof.
  intros Hl H1. unfold rms, vsub, vop. rewrite Hl, Nat.eqb_refl. cbn [bind].
  destruct a as [|x a], b as [|y b]; cbn in *; try lia. do 3 f_equal.
  assert (forall u v, length u = length v -> length (map2 Rminus u v) = length u) as L.
  { induction u as [|p u IH]; intros [|q v] E; cbn in *; auto; try lia. }
  rewrite L by lia. injection Hl as ->. reflexivity.
Qed.
Lemma rms_same a b : length a = length b -> (1 <= length a)%nat -> forall r, rms a b = Ok r -> 0 <= r /\ (r = 0 <-> a = b).
Proof.
  intros Hl H1 r Hr. rewrite rms_value in Hr by auto. injection Hr as <-. split; [apply sqrt_pos|].
  assert (P : 0 < INR (length a)) by (apply lt_0_INR; lia).
  split.
  - intro Z. apply sqrt_eq_0 in Z.
    + apply Rmult_integral in Z as [Z|Z]; [|exfalso; revert Z; apply Rinv_neq_0_compat; lra].
      pose proof (sq_sum_zero _ Z) as Q.
      clear - Hl Q. revert b Hl Q. induction a as [|x a IH]; intros [|y b] Hl Q; cbn in *; try discriminate; auto.
      f_equal; [specialize (Q (x - y) (or_introl eq_refl)); lra|]. apply IH; auto.
    + apply Rmult_le_pos; [apply sq_sum_pos|left; apply Rinv_0_lt_compat; lra].
  - intros ->. replace (rsum _) with 0; [unfold Rdiv; rewrite Rmult_0_l; apply sqrt_0|].
    clear. induction b as [|y b IH]; [reflexivity|]. cbn [map2 map]. rewrite rsum_cons, <- IH. ring.
Qed.
