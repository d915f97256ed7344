(** Theorems about the estimates of wave speed and wave position: C168-C170. *)
From Coquelicot Require Import Coquelicot.
From Verif Require Import Py PyLemmas Calc FuncModel EstimateModel SpeedModel.
Local Open Scope R_scope.

(* ---------------------------------------------------------------- C168 *)
(** rising in time and falling in space, as behind a front running to the right *)
Definition falling (n : nat) (u : nat -> R) : Prop := forall i j, (i <= j)%nat -> (j < n)%nat -> u j <= u i.
Lemma dx_sum_falling u n it dx : (3 <= n)%nat -> 0 < dx -> falling n (u it) ->
  dx_sum u n it dx = (u it 0%nat + 2 * u it 1%nat - u it (n - 2)%nat - 2 * u it (n - 1)%nat) / dx.
Proof.
  intros Hn Hd HF. unfold dx_sum. assert (E : forall i j, (i <= j)%nat -> (j < n)%nat -> Rabs ((u it j - u it i) / dx) = (u it i - u it j) / dx).
  { intros i j Hi Hj. specialize (HF i j Hi Hj). replace ((u it j - u it i) / dx) with (- ((u it i - u it j) / dx)) by (field; lra). rewrite Rabs_Ropp. apply Rabs_pos_eq.
    apply Rmult_le_pos; [lra|apply Rlt_le, Rinv_0_lt_compat; auto]. }
  destruct n as [|[|[|m]]]; try lia. replace (S (S (S m)) - 1)%nat with (S (S m)) by lia. replace (S (S (S m)) - 2)%nat with (S m) by lia.
  rewrite sumn_S_l. cbn [before]. replace (S (S (S m)) - 1)%nat with (S (S m)) by lia.
  assert (E0 : Rabs ((u it (0 + 1)%nat - u it (S (S m))) / dx) = (u it 1%nat - u it (S (S m))) / dx).
  { apply Rabs_pos_eq. apply Rmult_le_pos; [|apply Rlt_le, Rinv_0_lt_compat; auto]. specialize (HF 1%nat (S (S m)) ltac:(lia) ltac:(lia)). cbn [Nat.add]. lra. }
  rewrite E0. rewrite (sumn_ext _ _ (fun i => - / dx * ((u it (S (S i)) + u it (S i)) - (u it (S i) + u it i)))).
  - rewrite sumn_scal, (sumn_telescope (S m) (fun i => u it (S i) + u it i)). field. lra.
  - intros i Hi. rewrite E by lia. replace (S i + 1)%nat with (S (S i)) by lia. field. lra.
Qed.
Lemma dt_sum_rising u n it dt : 0 < dt -> (forall ix, (ix < n - 1)%nat -> u (it - 1)%nat ix <= u it ix) ->
  dt_sum u n it dt = (sumn (n - 1) (u it) - sumn (n - 1) (u (it - 1)%nat)) / dt.
Proof.
  intros Hd HR. unfold dt_sum. rewrite (sumn_ext _ _ (fun ix => / dt * (u it ix - u (it - 1)%nat ix))).
  - rewrite sumn_scal, sumn_minus. field. lra.
  - intros i Hi. specialize (HR i Hi). rewrite Rabs_pos_eq; [field; lra|]. apply Rmult_le_pos; [lra|apply Rlt_le, Rinv_0_lt_compat; auto].
Qed.
Lemma sumn_shift (u : nat -> R) k m : sumn m (fun ix => u (ix + k)%nat) = sumn (m + k) u - sumn k u.
Proof. induction m as [|m IH]; [cbn; ring|]. cbn [sumn Nat.add]. rewrite IH. ring. Qed.
Lemma speeds_at u n ts dx it l d0 d1 : speeds u n ts dx = Ok l -> nth_error ts 0 = Some d0 -> nth_error ts 1 = Some d1 -> (0 < it < length ts)%nat ->
  nth it l (Err NaN) = if Reqb (5 / 10 * dx_sum u n it dx) 0 then Err NaN else Ok (dt_sum u n it (d1 - d0) / (5 / 10 * dx_sum u n it dx)).
Proof.
  intros H E0 E1 Hit. unfold speeds, getitem in H. rewrite E0, E1 in H. cbn [bind] in H. cbv zeta in H. injection H as <-.
  rewrite (nth_indep _ (Err NaN) ((fun it => if Reqb (5 / 10 * (if (it =? 0)%nat then 0 else dx_sum u n it dx)) 0 then Err NaN else Ok ((if (it =? 0)%nat then 0 else dt_sum u n it (d1 - d0)) / (5 / 10 * (if (it =? 0)%nat then 0 else dx_sum u n it dx)))) 0%nat)) by (rewrite map_length, seq_length; lia).
  rewrite (map_nth (fun it => if Reqb (5 / 10 * (if (it =? 0)%nat then 0 else dx_sum u n it dx)) 0 then Err NaN else Ok ((if (it =? 0)%nat then 0 else dt_sum u n it (d1 - d0)) / (5 / 10 * (if (it =? 0)%nat then 0 else dx_sum u n it dx))))), seq_nth by lia.
  cbn [Nat.add]. replace (it =? 0)%nat with false by (symmetry; apply Nat.eqb_neq; lia). reflexivity.
Qed.
(** a falling flux that rises with time: what the estimate is made of *)
Theorem C168_falling_flux : forall u n ts dx it l d0 d1, (3 <= n)%nat -> 0 < dx -> d0 < d1 -> nth_error ts 0 = Some d0 -> nth_error ts 1 = Some d1 -> (0 < it < length ts)%nat ->
  speeds u n ts dx = Ok l -> falling n (u it) -> (forall ix, (ix < n - 1)%nat -> u (it - 1)%nat ix <= u it ix) ->
  let w := u it 0%nat + 2 * u it 1%nat - u it (n - 2)%nat - 2 * u it (n - 1)%nat in
  0 < w -> nth it l (Err NaN) = Ok ((sumn (n - 1) (u it) - sumn (n - 1) (u (it - 1)%nat)) * dx / (d1 - d0) / (w / 2)).
Proof.
  intros u n ts dx it l d0 d1 Hn Hd Ht E0 E1 Hit H HF HR w Hw. rewrite (speeds_at u n ts dx it l d0 d1) by auto. rewrite dx_sum_falling, dt_sum_rising by (auto; lra). fold w.
  assert (P : 0 < 5 / 10 * (w / dx)) by (apply Rmult_lt_0_compat; [lra|apply Rdiv_lt_0_compat; auto]). unfold Reqb. destruct (Req_EM_T _ _) as [Z|Z]; [lra|].
  f_equal. field. repeat split; lra.
Qed.
Print Assumptions C168_falling_flux.
(** A front of height A, of any falling shape, that has moved k positions since the step before: with equal steps the estimate is two
    thirds of its speed; a step longer than the first one counts for more.  (The wrapped index adds half the height once more.) *)
Theorem C168_front_two_thirds : forall u n ts dx it l d0 d1 a b A k, nth_error ts (it - 1) = Some a -> nth_error ts it = Some b -> a < b -> (3 <= n)%nat -> 0 < dx -> d0 < d1 -> nth_error ts 0 = Some d0 -> nth_error ts 1 = Some d1 -> (0 < it < length ts)%nat ->
  speeds u n ts dx = Ok l -> 0 < A -> falling n (u it) -> u (it - 1)%nat 0%nat = A -> u it 0%nat = A -> u it 1%nat = A -> u it (n - 2)%nat = 0 -> u it (n - 1)%nat = 0 ->
  (k <= n - 2)%nat -> (forall ix, (ix < k)%nat -> u it ix = A) -> (forall ix, (ix + k < n)%nat -> u it (ix + k)%nat = u (it - 1)%nat ix) ->
  (forall ix, (ix < n - 1)%nat -> (n - 1 <= ix + k)%nat -> u (it - 1)%nat ix = 0) ->
  let speed := INR k * dx / (b - a) in nth it l (Err NaN) = Ok (2 / 3 * speed * ((b - a) / (d1 - d0))).
Proof.
  intros u n ts dx it l d0 d1 a b A k _ _ Hab Hn Hd Ht E0 E1 Hit H HA HF U0 V0 V1 Vm Vl Hk Hl Hs Hz speed. unfold speed.
  rewrite (C168_falling_flux u n ts dx it l d0 d1); auto; rewrite ?V0, ?V1, ?Vm, ?Vl; try lra.
  - f_equal. replace (sumn (n - 1) (u it) - sumn (n - 1) (u (it - 1)%nat)) with (INR k * A); [field; lra|].
    assert (S1 : sumn (n - 1) (u it) = INR k * A + sumn (n - 1 - k) (u (it - 1)%nat)).
    { rewrite <- (sumn_ext (n - 1 - k) (fun ix => u it (ix + k)%nat)) by (intros; apply Hs; lia). rewrite sumn_shift. replace (n - 1 - k + k)%nat with (n - 1)%nat by lia.
      rewrite (sumn_ext k (u it) (fun _ => A)) by auto. assert (C : forall m, sumn m (fun _ => A) = INR m * A) by (induction m as [|m IH]; [cbn; ring|cbn [sumn]; rewrite IH, S_INR; ring]). rewrite C. ring. }
    assert (S2 : sumn (n - 1) (u (it - 1)%nat) = sumn (n - 1 - k) (u (it - 1)%nat)).
    { pose proof (sumn_shift (u (it - 1)%nat) (n - 1 - k) k) as K. replace (k + (n - 1 - k))%nat with (n - 1)%nat in K by lia. rewrite sumn_zero in K; [lra|]. intros i Hi. apply Hz; lia. }
    lra.
  - intros ix Hix. destruct (Nat.le_gt_cases (n - 1) (ix + k)) as [L|L].
    + rewrite (Hz ix) by lia. rewrite <- Vl. apply HF; lia.
    + rewrite <- Hs by lia. apply HF; lia.
Qed.
Print Assumptions C168_front_two_thirds.
(** the first entry is never a number *)
Theorem C168_first_entry : forall u n ts dx l, speeds u n ts dx = Ok l -> nth_error l 0 = Some (Err NaN) /\ length l = length ts.
Proof.
  intros u n ts dx l H. unfold speeds, getitem in H. destruct (nth_error ts 1) as [d1|] eqn:E1; [|discriminate]. destruct (nth_error ts 0) as [d0|] eqn:E0; [|discriminate].
  cbn [bind] in H. cbv zeta in H. injection H as <-. rewrite map_length, seq_length. split; auto. destruct ts as [|t ts]; [discriminate|]. cbn [length seq map nth_error Nat.eqb].
  unfold Reqb. destruct (Req_EM_T _ _) as [Z|Z]; [reflexivity|]. exfalso. apply Z. ring.
Qed.
Print Assumptions C168_first_entry.
(** the code on a flux f(x - v t) *)
Lemma positions_step n x0 tf : (2 <= n)%nat -> position n x0 tf 1 - position n x0 tf 0 = (x0 + tf) / INR (n - 1).
Proof. intro H. unfold position. simpl INR. field. apply not_0_INR. lia. Qed.
Theorem C168_travelling_wave : forall f v A ts tfinal x0 it l d0 d1 a b k,
  0 < A -> (forall x y, x <= y -> f y <= f x) -> 0 < x0 + tfinal ->
  nth_error ts 0 = Some d0 -> nth_error ts 1 = Some d1 -> d0 < d1 -> (0 < it < length ts)%nat -> nth_error ts (it - 1) = Some a -> nth_error ts it = Some b -> a < b ->
  let dx := (x0 + tfinal) / INR (n_positions - 1) in
  v * (b - a) = INR k * dx -> (forall x, x <= 0 -> f x = A) -> (forall x, x0 + tfinal - dx - v * b <= x -> f x = 0) -> dx <= v * b -> 0 <= v * a -> (k <= n_positions - 2)%nat ->
  wavespeed_estimator (fun i x => f (x - v * nth i ts 0)) ts tfinal x0 = Ok l ->
  nth it l (Err NaN) = Ok (2 / 3 * v * ((b - a) / (d1 - d0))).
Proof.
  intros f v A ts tfinal x0 it l d0 d1 a b k HA Hf Hx E0 E1 H01 Hit Ea Eb Hab dx Hv HfA Hf0 Hb Ha Hk H.
  assert (NP : (3 <= n_positions)%nat) by (unfold n_positions; lia).
  assert (P : 0 < INR (n_positions - 1)) by (apply lt_0_INR; lia). assert (Hd : 0 < dx) by (apply Rdiv_lt_0_compat; auto).
  assert (Na : nth (it - 1) ts 0 = a) by (now apply nth_error_nth). assert (Nb : nth it ts 0 = b) by (now apply nth_error_nth).
  unfold wavespeed_estimator in H. cbv zeta in H. rewrite positions_step in H by lia. fold dx in H. rewrite Rabs_pos_eq in H by lra.
  assert (Px : forall ix, position n_positions x0 tfinal ix = INR ix * dx) by (intro ix; unfold position, dx; field; lra).
  replace v with (INR k * dx / (b - a)) at 1 by (rewrite <- Hv; field; lra).
  assert (L : INR (n_positions - 1) * dx = x0 + tfinal) by (unfold dx; field; lra).
  assert (L2 : INR (n_positions - 2) * dx = x0 + tfinal - dx) by (replace (n_positions - 1)%nat with (S (n_positions - 2)) in L by lia; rewrite S_INR in L; lra).
  apply (C168_front_two_thirds _ n_positions ts dx it l d0 d1 a b A k Ea Eb Hab NP Hd H01 E0 E1 Hit H HA); cbv beta; rewrite ?Na, ?Nb; auto.
  - intros i j Hij Hj. cbv beta. rewrite ?Nb. apply Hf. rewrite !Px. assert (INR i <= INR j) by (now apply le_INR). nra.
  - rewrite Px. simpl INR. apply HfA. lra.
  - rewrite Px. simpl INR. apply HfA. lra.
  - rewrite Px. simpl INR. apply HfA. lra.
  - rewrite Px, L2. apply Hf0. lra.
  - rewrite Px, L. apply Hf0. lra.
  - intros ix Hix. cbv beta. rewrite ?Nb. rewrite Px. assert (M : INR ix + 1 <= INR k) by (rewrite <- S_INR; apply le_INR; lia). apply HfA. assert (INR ix * dx <= INR k * dx) by nra. lra.
  - intros ix Hix. cbv beta. rewrite ?Na, ?Nb. rewrite !Px, plus_INR. f_equal. lra.
  - intros ix H1 H2. cbv beta. rewrite ?Na, Px. assert (M : INR (n_positions - 1) <= INR ix + INR k) by (rewrite <- plus_INR; apply le_INR; lia). apply Hf0. nra.
Qed.
Print Assumptions C168_travelling_wave.
Lemma many_positions : (1000 <= n_positions)%nat.
Proof. unfold n_positions. lia. Qed.
Local Opaque n_positions.
(** a step of height one moving at speed one from t = 1 to t = 2 over a million positions one apart: two thirds *)
Definition step_front (x : R) : R := if Rleb x 0 then 1 else 0.
Theorem C168_estimate_is_speed_refuted : exists ts tfinal x0 l e, wavespeed_estimator (fun i x => step_front (x - 1 * nth i ts 0)) ts tfinal x0 = Ok l /\
  nth 1 l (Err NaN) = Ok e /\ e = 2 / 3.
Proof.
  pose proof many_positions as NP.
  assert (P : 1000 - 1 <= INR (n_positions - 1)) by (rewrite minus_INR by lia; apply Rplus_le_compat; [|simpl; lra]; replace 1000 with (INR 1000) by (rewrite INR_IZR_INZ; f_equal; lia); now apply le_INR).
  exists [1; 2], (INR (n_positions - 1)), 0. do 2 eexists. split; [reflexivity|]. split; [|reflexivity].
  rewrite (C168_travelling_wave step_front 1 1 [1; 2] (INR (n_positions - 1)) 0 1 _ 1 2 1 2 1); try reflexivity; try lra; try lia; try (cbn; lia);
    try (replace ((0 + INR (n_positions - 1)) / INR (n_positions - 1)) with 1 by (field; lra)); try (simpl INR; lra).
  - f_equal. field.
  - intros x y H. unfold step_front. destruct (Rleb_spec x 0) as [A|A]; destruct (Rleb_spec y 0) as [B|B]; lra.
  - intros x H. unfold step_front. now rewrite Rleb_true.
  - intros x H. unfold step_front. rewrite Rleb_false; [reflexivity|lra].
Qed.
Print Assumptions C168_estimate_is_speed_refuted.
Example C168_example : exists l, speeds (fun it ix => if (ix <=? it)%nat then 1 else 0) 4 [0; 1] 1 = Ok l /\ nth 1 l (Err NaN) = Ok (2 / 3).
Proof.
  eexists. split; [reflexivity|]. rewrite (C168_front_two_thirds (fun it ix => if (ix <=? it)%nat then 1 else 0) 4 [0; 1] 1 1 _ 0 1 0 1 1 1); try reflexivity; try lra; try lia; try (cbn; lia).
  - f_equal. simpl INR. field.
  - intros i j H1 H2. cbv beta. destruct (Nat.leb_spec i 1); destruct (Nat.leb_spec j 1); lra || lia.
  - intros ix H. assert (ix = 0%nat) by lia. subst. reflexivity.
  - intros ix H. do 3 (destruct ix as [|ix]; [reflexivity|]). lia.
  - intros ix H1 H2. do 2 (destruct ix as [|ix]; [try lia|]); try reflexivity; try lia.
Qed.

(* ---------------------------------------------------------------- C169 *)
Lemma nth_table {A} (f : nat -> A) n k d : (k < n)%nat -> nth k (map f (seq 0 n)) d = f k.
Proof. intro H. rewrite (nth_indep _ d (f 0%nat)) by (now rewrite map_length, seq_length). rewrite (map_nth f), seq_nth by auto. reflexivity. Qed.
Lemma dominated (p p' g g' : R -> R) h : 0 <= h -> p 0 = 0 -> g 0 = 0 -> (forall s, 0 <= s <= h -> is_derive p s (p' s)) -> (forall s, 0 <= s <= h -> is_derive g s (g' s)) ->
  (forall s, 0 <= s <= h -> Rabs (p' s) <= g' s) -> Rabs (p h) <= g h.
Proof.
  intros Hh P0 G0 DP DG B.
  assert (K : forall sg, sg = 1 \/ sg = -1 -> sg * p h <= g h).
  { intros sg Hsg. destruct (MVT_gen (fun s => g s - sg * p s) 0 h (fun s => g' s - sg * p' s)) as (c & Hc & E).
    - intros x Hx. rewrite Rmin_left, Rmax_right in Hx by lra. apply (is_derive_minus g (fun s => sg * p s)); [apply DG; lra|]. apply dd_scal, DP. lra.
    - intros x Hx. rewrite Rmin_left, Rmax_right in Hx by lra. apply continuity_pt_filterlim. apply (ex_derive_continuous (fun s => g s - sg * p s)). eexists. apply (is_derive_minus g (fun s => sg * p s)); [apply DG; lra|]. apply dd_scal, DP. lra.
    - rewrite Rmin_left, Rmax_right in Hc by lra. rewrite P0, G0 in E. specialize (B c Hc). apply Rabs_le_between in B.
      assert (0 <= (g' c - sg * p' c) * (h - 0)) by (apply Rmult_le_pos; [destruct Hsg; subst; lra|lra]). lra. }
  apply Rabs_le. pose proof (K 1 (or_introl eq_refl)). pose proof (K (-1) (or_intror eq_refl)). lra.
Qed.
(** the first estimate is the backward difference, zero at both ends; it is off by at most half a step times the second derivative *)
Theorem C169_first_derivative : forall (f f1 f2 : R -> R) K a h n k, 0 < h ->
  (forall x, a <= x <= a + INR n * h -> is_derive f x (f1 x) /\ is_derive f1 x (f2 x) /\ Rabs (f2 x) <= K) ->
  let phi := map (fun i => f (a + INR i * h)) (seq 0 n) in
  length (derivative_estimator phi h) = n /\
  ((0 < k < n - 1)%nat -> Rabs (nth k (derivative_estimator phi h) 0 - f1 (a + INR k * h)) <= K * h / 2) /\
  (k = 0%nat \/ k = (n - 1)%nat -> nth k (derivative_estimator phi h) 0 = 0).
Proof.
  intros f f1 f2 K a h n k Hh HD phi. assert (L : length phi = n) by (unfold phi; now rewrite map_length, seq_length). unfold derivative_estimator. cbv zeta. rewrite L.
  split; [now rewrite map_length, seq_length|]. split.
  - intro Hk. rewrite nth_table by lia. replace (1 <=? k)%nat with true by (symmetry; apply Nat.leb_le; lia). replace (k <? n - 1)%nat with true by (symmetry; apply Nat.ltb_lt; lia). cbn [andb].
    unfold phi. rewrite !nth_table by lia. set (x := a + INR k * h). replace (a + INR (k - 1) * h) with (x - h) by (unfold x; rewrite minus_INR by lia; simpl; ring).
    assert (Kn : INR k <= INR n) by (apply le_INR; lia). assert (K1 : 1 <= INR k) by (change 1 with (INR 1); apply le_INR; lia).
    assert (In : forall s, 0 <= s <= h -> a <= x - s <= a + INR n * h) by (intros s Hs; unfold x; nra).
    replace ((f x - f (x - h)) / h - f1 x) with ((f x - f (x - h) - h * f1 x) / h) by (field; lra).
    unfold Rdiv at 1. rewrite Rabs_mult, (Rabs_pos_eq (/ h)) by (apply Rlt_le, Rinv_0_lt_compat; auto). apply Rmult_le_reg_r with h; auto. rewrite Rmult_assoc, Rinv_l, Rmult_1_r by lra.
    replace (K * h / 2 * h) with (K * h ^ 2 / 2) by field.
    apply (dominated (fun s => f x - f (x - s) - s * f1 x) (fun s => f1 (x - s) - f1 x) (fun s => K * s ^ 2 / 2) (fun s => K * s)); try lra.
    + rewrite Rminus_0_r. ring.
    + intros s Hs. destruct (HD _ (In s Hs)) as (D1 & _ & _).
      eapply dd_eq; [apply dd_minus; [apply dd_minus; [apply dd_const|apply (is_derive_comp f (fun s => x - s)); [exact D1|apply dd_minus; [apply dd_const|apply dd_id]]]|apply (is_derive_ext (fun s => f1 x * s)); [intro; apply Rmult_comm|apply dd_scal, dd_id]]|].
      unfold scal; cbn; unfold mult; cbn. match goal with |- @eq _ ?p ?q => change (@eq R p q) end. ring.
    + intros s Hs. auto_derive; auto. field.
    + intros s Hs. apply (dominated (fun s => f1 (x - s) - f1 x) (fun s => - f2 (x - s)) (fun s => K * s) (fun s => K)); try lra.
      * rewrite Rminus_0_r. ring.
      * intros r Hr. destruct (HD (x - r) (In r ltac:(lra))) as (_ & D2 & _).
        eapply dd_eq; [apply dd_minus; [apply (is_derive_comp f1 (fun s => x - s)); [exact D2|apply dd_minus; [apply dd_const|apply dd_id]]|apply dd_const]|].
        unfold scal; cbn; unfold mult; cbn. match goal with |- @eq _ ?p ?q => change (@eq R p q) end. ring.
      * intros r Hr. eapply dd_eq; [apply dd_scal, dd_id|ring].
      * intros r Hr. rewrite Rabs_Ropp. apply HD, In. lra.
  - intros [ -> | -> ].
    + destruct n as [|n]; [reflexivity|]. rewrite nth_table by lia. reflexivity.
    + destruct n as [|n]; [reflexivity|]. rewrite nth_table by lia. rewrite Nat.ltb_irrefl, andb_false_r. reflexivity.
Qed.
Print Assumptions C169_first_derivative.
(** the second one is the central second difference, zero at the first and at the last two places *)
Theorem C169_second_derivative : forall (f f1 f2 f3 f4 : R -> R) K a h n k, 0 < h ->
  (forall x, a <= x <= a + INR n * h -> is_derive f x (f1 x) /\ is_derive f1 x (f2 x) /\ is_derive f2 x (f3 x) /\ is_derive f3 x (f4 x) /\ Rabs (f4 x) <= K) ->
  let phi := map (fun i => f (a + INR i * h)) (seq 0 n) in
  length (second_derivative_estimator phi h) = n /\
  ((0 < k < n - 2)%nat -> Rabs (nth k (second_derivative_estimator phi h) 0 - f2 (a + INR k * h)) <= K * h ^ 2 / 12) /\
  (k = 0%nat \/ (n - 2 <= k)%nat -> nth k (second_derivative_estimator phi h) 0 = 0).
Proof.
  intros f f1 f2 f3 f4 K a h n k Hh HD phi. assert (L : length phi = n) by (unfold phi; now rewrite map_length, seq_length). unfold second_derivative_estimator. cbv zeta. rewrite L.
  split; [now rewrite map_length, seq_length|]. split.
  - intro Hk. rewrite nth_table by lia. replace (1 <=? k)%nat with true by (symmetry; apply Nat.leb_le; lia). replace (k <? n - 2)%nat with true by (symmetry; apply Nat.ltb_lt; lia). cbn [andb].
    unfold phi. rewrite !nth_table by lia. set (x := a + INR k * h). replace (a + INR (k - 1) * h) with (x - h) by (unfold x; rewrite minus_INR by lia; simpl; ring).
    replace (a + INR (k + 1) * h) with (x + h) by (unfold x; rewrite plus_INR; simpl; ring).
    assert (Kn : INR k + 1 <= INR n) by (rewrite <- S_INR; apply le_INR; lia). assert (K1 : 1 <= INR k) by (change 1 with (INR 1); apply le_INR; lia).
    assert (Im : forall s, 0 <= s <= h -> a <= x - s <= a + INR n * h) by (intros s Hs; unfold x; nra).
    assert (Ip : forall s, 0 <= s <= h -> a <= x + s <= a + INR n * h) by (intros s Hs; unfold x; nra).
    assert (H2 : 0 < h ^ 2) by (apply pow_lt; auto).
    replace ((f (x + h) - 2 * f x + f (x - h)) / h ^ 2 - f2 x) with ((f (x + h) - 2 * f x + f (x - h) - h ^ 2 * f2 x) / h ^ 2) by (field; lra).
    unfold Rdiv at 1. rewrite Rabs_mult, (Rabs_pos_eq (/ h ^ 2)) by (apply Rlt_le, Rinv_0_lt_compat; auto). apply Rmult_le_reg_r with (h ^ 2); auto. rewrite Rmult_assoc, Rinv_l, Rmult_1_r by lra.
    replace (K * h ^ 2 / 12 * h ^ 2) with (K * h ^ 4 / 12) by field.
    assert (CP : forall (g dg : R -> R) s, is_derive g (x + s) (dg (x + s)) -> is_derive (fun s => g (x + s)) s (dg (x + s))).
    { intros g dg s D. eapply dd_eq; [apply (is_derive_comp g (fun s => x + s)); [exact D|apply dd_plus; [apply dd_const|apply dd_id]]|]. unfold scal; cbn; unfold mult; cbn. match goal with |- @eq _ ?p ?q => change (@eq R p q) end. ring. }
    assert (CM : forall (g dg : R -> R) s, is_derive g (x - s) (dg (x - s)) -> is_derive (fun s => g (x - s)) s (- dg (x - s))).
    { intros g dg s D. eapply dd_eq; [apply (is_derive_comp g (fun s => x - s)); [exact D|apply dd_minus; [apply dd_const|apply dd_id]]|]. unfold scal; cbn; unfold mult; cbn. match goal with |- @eq _ ?p ?q => change (@eq R p q) end. ring. }
    apply (dominated (fun s => f (x + s) - 2 * f x + f (x - s) - s ^ 2 * f2 x) (fun s => f1 (x + s) - f1 (x - s) - 2 * s * f2 x) (fun s => K * s ^ 4 / 12) (fun s => K * s ^ 3 / 3)); try lra.
    + rewrite Rminus_0_r, Rplus_0_r. ring.
    + intros s Hs. destruct (HD _ (Ip s Hs)) as (D1 & _). destruct (HD _ (Im s Hs)) as (D1' & _).
      eapply dd_eq; [apply dd_minus; [apply dd_plus; [apply dd_minus; [apply (CP f f1); exact D1|apply dd_const]|apply (CM f f1); exact D1']|apply (is_derive_ext (fun s => f2 x * s ^ 2)); [intro; apply Rmult_comm|apply dd_scal; auto_derive; auto]]|].
      cbv beta. match goal with |- @eq _ ?p ?q => change (@eq R p q) end. ring.
    + intros s Hs. auto_derive; auto. field.
    + intros s Hs. apply (dominated (fun s => f1 (x + s) - f1 (x - s) - 2 * s * f2 x) (fun s => f2 (x + s) + f2 (x - s) - 2 * f2 x) (fun s => K * s ^ 3 / 3) (fun s => K * s ^ 2)); try lra.
      * rewrite Rminus_0_r, Rplus_0_r. ring.
      * intros r Hr. destruct (HD _ (Ip r ltac:(lra))) as (_ & D1 & _). destruct (HD _ (Im r ltac:(lra))) as (_ & D1' & _).
        eapply dd_eq; [apply dd_minus; [apply dd_minus; [apply (CP f1 f2); exact D1|apply (CM f1 f2); exact D1']|apply (is_derive_ext (fun s => 2 * f2 x * s)); [intro y; match goal with |- @eq _ ?p ?q => change (@eq R p q) end; ring|apply dd_scal, dd_id]]|].
        cbv beta. match goal with |- @eq _ ?p ?q => change (@eq R p q) end. ring.
      * intros r Hr. auto_derive; auto. field.
      * intros r Hr. apply (dominated (fun s => f2 (x + s) + f2 (x - s) - 2 * f2 x) (fun s => f3 (x + s) - f3 (x - s)) (fun s => K * s ^ 2) (fun s => 2 * K * s)); try lra.
        -- rewrite Rminus_0_r, Rplus_0_r. ring.
        -- intros q Hq. destruct (HD _ (Ip q ltac:(lra))) as (_ & _ & D1 & _). destruct (HD _ (Im q ltac:(lra))) as (_ & _ & D1' & _).
           eapply dd_eq; [apply dd_minus; [apply dd_plus; [apply (CP f2 f3); exact D1|apply (CM f2 f3); exact D1']|apply dd_const]|]. cbv beta. match goal with |- @eq _ ?p ?q => change (@eq R p q) end. ring.
        -- intros q Hq. auto_derive; auto. ring.
        -- intros q Hq. apply (dominated (fun s => f3 (x + s) - f3 (x - s)) (fun s => f4 (x + s) + f4 (x - s)) (fun s => 2 * K * s) (fun s => 2 * K)); try lra.
           ++ rewrite Rminus_0_r, Rplus_0_r. ring.
           ++ intros w Hw. destruct (HD _ (Ip w ltac:(lra))) as (_ & _ & _ & D1 & _). destruct (HD _ (Im w ltac:(lra))) as (_ & _ & _ & D1' & _).
              eapply dd_eq; [apply dd_minus; [apply (CP f3 f4); exact D1|apply (CM f3 f4); exact D1']|]. cbv beta. match goal with |- @eq _ ?p ?q => change (@eq R p q) end. ring.
           ++ intros w Hw. eapply dd_eq; [apply dd_scal, dd_id|ring].
           ++ intros w Hw. destruct (HD _ (Ip w ltac:(lra))) as (_ & _ & _ & _ & B1). destruct (HD _ (Im w ltac:(lra))) as (_ & _ & _ & _ & B2). eapply Rle_trans; [apply Rabs_triang|]. lra.
  - intro Hk. destruct (Nat.lt_ge_cases k n) as [Lt|Ge]; [|apply nth_overflow; rewrite map_length, seq_length; lia]. rewrite nth_table by auto. destruct Hk as [->|Hk]; [reflexivity|].
    replace (k <? n - 2)%nat with false by (symmetry; apply Nat.ltb_ge; lia). rewrite andb_false_r. reflexivity.
Qed.
Print Assumptions C169_second_derivative.
(** entries (counted from the end when negative) that stop the search and that do not *)
Definition small_at (d : list R) (i : Z) : Prop := exists v, getz d i = Ok v /\ Rabs v <= / 10 ^ 13.
Definition large_at (d : list R) (i : Z) : Prop := exists v, getz d i = Ok v /\ / 10 ^ 13 < Rabs v.
Lemma tol_order : / 10 ^ 16 <= / 10 ^ 13.
Proof. apply Rinv_le_contravar; [apply pow_lt; lra|]. apply Rle_pow; [lra|lia]. Qed.
Lemma search_spec d step (enough : nat -> Z -> Prop) :
  (forall f i, enough (S f) i -> (- Z.of_nat (length d) <= i < Z.of_nat (length d))%Z -> enough f (i + step)%Z) -> (forall i, ~ enough O i) ->
  forall fuel i, enough fuel i ->
  (forall r, search fuel d i step = Ok r <-> exists m : nat, r = (i + Z.of_nat m * step)%Z /\ small_at d r /\ forall k, (k < m)%nat -> large_at d (i + Z.of_nat k * step)%Z) /\
  (forall e, search fuel d i step = Err e -> e = IndexError).
Proof.
  intros He H0 fuel. induction fuel as [|f IH]; intros i E; [exfalso; now apply (H0 i)|]. cbn [search].
  destruct (getz d i) as [v|e] eqn:G; cbn [bind].
  - assert (Ri : (- Z.of_nat (length d) <= i < Z.of_nat (length d))%Z).
    { unfold getz in G. destruct (i <? - Z.of_nat (length d))%Z eqn:A; [discriminate|]. destruct (Z.of_nat (length d) <=? i)%Z eqn:B; [discriminate|]. apply Z.ltb_ge in A. apply Z.leb_gt in B. lia. }
    pose proof tol_order as TO. destruct (IH (i + step)%Z (He f i E Ri)) as [I1 I2].
    destruct (Rleb_spec (Rabs v) (/ 10 ^ 13)) as [Sm|Sm].
    + assert (X : (if Rleb (Rabs v) (/ 10 ^ 16) then Ok i else Ok i) = Ok i) by (destruct (Rleb _ _); reflexivity). rewrite X. split; [|discriminate]. intro r. split.
      * intro K. injection K as <-. exists 0%nat. split; [lia|]. split; [exists v; auto|]. intros k Hk. lia.
      * intros (m & -> & _ & Hm). destruct m as [|m]; [f_equal; lia|]. exfalso. destruct (Hm 0%nat ltac:(lia)) as (w & W & L). replace (i + Z.of_nat 0 * step)%Z with i in W by lia. rewrite G in W. injection W as <-. lra.
    + rewrite (Rleb_false (Rabs v) (/ 10 ^ 16)) by lra. split; [|exact I2]. intro r. rewrite I1. split.
      * intros (m & Em & S1 & Hm). exists (S m). split; [lia|]. split; [exact S1|]. intros [|k] Hk; [exists v; split; [replace (i + Z.of_nat 0 * step)%Z with i by lia; auto|auto]|].
        replace (i + Z.of_nat (S k) * step)%Z with (i + step + Z.of_nat k * step)%Z by lia. apply Hm. lia.
      * intros (m & Em & S1 & Hm). destruct m as [|m].
        -- exfalso. replace r with i in S1 by lia. destruct S1 as (w & W & L). rewrite G in W. injection W as <-. lra.
        -- exists m. split; [lia|]. split; [exact S1|]. intros k Hk. replace (i + step + Z.of_nat k * step)%Z with (i + Z.of_nat (S k) * step)%Z by lia. apply Hm. lia.
  - split; [|intros e' K; injection K as <-; unfold getz in G; destruct (_ || _); congruence]. intro r. split; [discriminate|]. intros (m & -> & (w & W & _) & Hm). exfalso.
    destruct m as [|m]; [replace (i + Z.of_nat 0 * step)%Z with i in W by lia; congruence|]. destruct (Hm 0%nat ltac:(lia)) as (w' & W' & _). replace (i + Z.of_nat 0 * step)%Z with i in W' by lia. congruence.
Qed.
(** The edges found are the nearest entries on either side (the start included) that are at most 1e-13 in size; without such entries the index
    leaves the array and an IndexError follows.  Steps to the left of entry 0 go on from the other end. *)
Theorem C169_find_edge : forall d il ir, d <> [] ->
  (forall i j, find_edge d il ir = Ok (i, j) <->
    ((i <= il)%Z /\ small_at d i /\ forall k, (i < k <= il)%Z -> large_at d k) /\ ((ir <= j)%Z /\ small_at d j /\ forall k, (ir <= k < j)%Z -> large_at d k)) /\
  (forall e, find_edge d il ir = Err e -> e = IndexError).
Proof.
  intros d il ir Hd. assert (U : find_edge d il ir = (il' <- search (2 * length d + 2 + Z.to_nat (Z.abs il)) d il (-1)%Z ;; ir' <- search (2 * length d + 2 + Z.to_nat (Z.abs ir)) d ir 1%Z ;; Ok (il', ir'))) by (destruct d; [contradiction|reflexivity]).
  rewrite U. clear U.
  destruct (search_spec d (-1)%Z (fun f i => (1 <= f)%nat /\ (i + Z.of_nat (length d) + 2 <= Z.of_nat f)%Z) ltac:(intros; cbv beta in *; lia) ltac:(intros i K; cbv beta in *; lia) (2 * length d + 2 + Z.to_nat (Z.abs il)) il ltac:(cbv beta; lia)) as [A1 A2].
  destruct (search_spec d 1%Z (fun f i => (1 <= f)%nat /\ (Z.of_nat (length d) - i + 1 <= Z.of_nat f)%Z) ltac:(intros; cbv beta in *; lia) ltac:(intros i K; cbv beta in *; lia) (2 * length d + 2 + Z.to_nat (Z.abs ir)) ir ltac:(cbv beta; lia)) as [B1 B2].
  assert (A1' : forall i, search (2 * length d + 2 + Z.to_nat (Z.abs il)) d il (-1)%Z = Ok i <-> ((i <= il)%Z /\ small_at d i /\ forall k, (i < k <= il)%Z -> large_at d k)).
  { intro i. rewrite A1. split.
    - intros (m & E & S & L). split; [lia|]. split; [auto|]. intros k Hk. replace k with (il + Z.of_nat (Z.to_nat (il - k)) * -1)%Z by lia. apply L. lia.
    - intros (E & S & L). exists (Z.to_nat (il - i)). split; [lia|]. split; [auto|]. intros k Hk. apply L. lia. }
  assert (B1' : forall i, search (2 * length d + 2 + Z.to_nat (Z.abs ir)) d ir 1%Z = Ok i <-> ((ir <= i)%Z /\ small_at d i /\ forall k, (ir <= k < i)%Z -> large_at d k)).
  { intro i. rewrite B1. split.
    - intros (m & E & S & L). split; [lia|]. split; [auto|]. intros k Hk. replace k with (ir + Z.of_nat (Z.to_nat (k - ir)) * 1)%Z by lia. apply L. lia.
    - intros (E & S & L). exists (Z.to_nat (i - ir)). split; [lia|]. split; [auto|]. intros k Hk. apply L. lia. }
  clear A1 B1. split.
  - intros i j. rewrite <- A1', <- B1'. destruct (search _ d il _) as [i'|e]; cbn [bind]; [|split; [discriminate|intros [K _]; discriminate]].
    destruct (search _ d ir _) as [j'|e]; cbn [bind]; [|split; [discriminate|intros [_ K]; discriminate]]. split; [intro K; injection K as <- <-; auto|intros [K1 K2]; congruence].
  - intros e. destruct (search _ d il _) as [i'|e']; cbn [bind]; [|intro K; injection K as <-; now apply A2]. destruct (search _ d ir _) as [j'|e']; cbn [bind]; [discriminate|]. intro K; injection K as <-; now apply B2.
Qed.
Print Assumptions C169_find_edge.
(** so the left edge can be the last entry of the array, right of the place where the search began *)
Theorem C169_left_edge_is_left_refuted : exists d il ir i j, find_edge d il ir = Ok (i, j) /\ (0 <= il)%Z /\ (i < 0)%Z /\ getz d i = getz d j /\ (il < j)%Z.
Proof.
  exists [1; 1; 0], 0%Z, 0%Z, (-1)%Z, 2%Z. split; [|repeat split; lia].
  assert (T : / 10 ^ 13 < 1) by (rewrite <- Rinv_1; apply Rinv_lt_contravar; [rewrite Rmult_1_l; apply pow_lt; lra|]; apply Rlt_pow_R1; [lra|lia]).
  assert (P : 0 < / 10 ^ 13) by (apply Rinv_0_lt_compat, pow_lt; lra).
  apply (C169_find_edge [1; 1; 0] 0 0 ltac:(discriminate)). split.
  - split; [lia|]. split; [exists 0; split; [reflexivity|rewrite Rabs_R0; lra]|]. intros k Hk. assert (k = 0%Z) by lia. subst. exists 1. split; [reflexivity|rewrite Rabs_R1; lra].
  - split; [lia|]. split; [exists 0; split; [reflexivity|rewrite Rabs_R0; lra]|]. intros k Hk. assert (K : k = 0%Z \/ k = 1%Z) by lia. destruct K; subst; (exists 1; split; [reflexivity|rewrite Rabs_R1; lra]).
Qed.
Print Assumptions C169_left_edge_is_left_refuted.
Example C169_example : derivative_estimator [0; 1; 4; 9] 1 = [0; 1; 3; 0] /\ second_derivative_estimator [0; 1; 4; 9] 1 = [0; 2; 0; 0] /\ find_edge [1; 1] 0 0 = Err IndexError.
Proof.
  assert (T : / 10 ^ 13 < 1) by (rewrite <- Rinv_1; apply Rinv_lt_contravar; [rewrite Rmult_1_l; apply pow_lt; lra|]; apply Rlt_pow_R1; [lra|lia]). pose proof tol_order.
  split; [unfold derivative_estimator; cbn; repeat (f_equal; try field)|]. split; [unfold second_derivative_estimator; cbn; repeat (f_equal; try field)|].
  destruct (C169_find_edge [1; 1] 0 0 ltac:(discriminate)) as [A B]. destruct (find_edge [1; 1] 0 0) as [[i k]|e] eqn:E; [|now rewrite (B e eq_refl)]. exfalso.
  destruct (proj1 (A i k) eq_refl) as [(_ & (v & V & L) & _) _]. unfold getz in V. destruct (_ || _) eqn:G; [discriminate|]. apply orb_false_elim in G as [G1 G2]. apply Z.ltb_ge in G1. apply Z.leb_gt in G2. cbn in G1, G2.
  assert (K : i = (-2)%Z \/ i = (-1)%Z \/ i = 0%Z \/ i = 1%Z) by lia. assert (V1 : v = 1) by (destruct K as [->|[->|[->| ->]]]; injection V as <-; reflexivity). subst. rewrite Rabs_R1 in L. lra.
Qed.

(* ---------------------------------------------------------------- C170 *)
Lemma smooth_length l : length (smooth_row l) = length l.
Proof. induction l as [|x [|y r] IH]; auto. cbn [smooth_row length] in *. now rewrite IH. Qed.
(** one pass puts in every place but the last the larger of its entry and the next one *)
Theorem C170_one_pass : forall l k, length (smooth_row l) = length l /\
  ((k < length l)%nat -> nth k (smooth_row l) 0 = if (k + 1 <? length l)%nat then Rmax (nth k l 0) (nth (k + 1) l 0) else nth k l 0).
Proof.
  intros l k. split; [apply smooth_length|]. revert k. induction l as [|x [|y r] IH]; intros k Hk; [cbn in Hk; lia|cbn in Hk; assert (k = 0%nat) by lia; subst; reflexivity|].
  destruct k as [|k].
  - cbn [smooth_row nth Nat.add length]. cbn. unfold Rltb, Rmax. destruct (Rlt_dec x y); destruct (Rle_dec x y); lra.
  - change (nth (S k) (smooth_row (x :: y :: r)) 0) with (nth k (smooth_row (y :: r)) 0). rewrite IH by (cbn in *; lia). reflexivity.
Qed.
Print Assumptions C170_one_pass.
(** it takes as many passes as there are entries less one to make the row fall *)
Fixpoint passes (m : nat) (l : list R) : list R := match m with O => l | S k => smooth_row (passes k l) end.
Lemma passes_length m l : length (passes m l) = length l.
Proof. induction m; cbn; [auto|]. now rewrite smooth_length. Qed.
Lemma passes_max m : forall l k, (k < length l)%nat -> (forall j, (k <= j <= k + m)%nat -> (j < length l)%nat -> nth j l 0 <= nth k (passes m l) 0) /\ exists j, (k <= j <= k + m)%nat /\ (j < length l)%nat /\ nth k (passes m l) 0 = nth j l 0.
Proof.
  induction m as [|m IH]; intros l k Hk; cbn [passes].
  - split; [intros j Hj _; replace j with k by lia; lra|exists k; repeat split; lia || auto].
  - destruct (C170_one_pass (passes m l) k) as [_ E]. rewrite passes_length in E. rewrite E by auto. clear E.
    destruct (IH l k Hk) as (A1 & j1 & A2 & A3 & A4). destruct (Nat.ltb_spec (k + 1) (length l)) as [L|L].
    + destruct (IH l (k + 1)%nat L) as (B1 & j2 & B2 & B3 & B4). split.
      * intros j Hj Hl. destruct (Nat.eq_dec j k) as [->|N]; [eapply Rle_trans; [apply A1; lia|apply Rmax_l]|eapply Rle_trans; [apply B1; [lia|auto]|apply Rmax_r]].
      * unfold Rmax. destruct (Rle_dec _ _); [exists j2|exists j1]; repeat split; auto; lia.
    + split; [intros j Hj Hl; apply A1; lia|]. exists j1. repeat split; auto; lia.
Qed.
Theorem C170_all_passes : forall l, let l' := passes (length l - 1) l in
  falling (length l) (fun k => nth k l' 0) /\ forall k, (k < length l)%nat -> nth k l 0 <= nth k l' 0 /\ exists j, (k <= j < length l)%nat /\ nth k l' 0 = nth j l 0.
Proof.
  intros l l'. split.
  - intros i j Hij Hj. destruct (passes_max (length l - 1) l j Hj) as (_ & m & M1 & M2 & M3). unfold l'. rewrite M3. apply (proj1 (passes_max (length l - 1) l i ltac:(lia))); lia.
  - intros k Hk. destruct (passes_max (length l - 1) l k Hk) as (A & j & B & C & D). split; [apply A; lia|]. exists j. split; [lia|exact D].
Qed.
Print Assumptions C170_all_passes.
Theorem C170_one_pass_falls_refuted : exists l, length l = 3%nat /\ nth 0 (smooth_row l) 0 < nth 1 (smooth_row l) 0.
Proof. exists [0; 1; 2]. split; [reflexivity|]. cbn. rewrite !Rltb_true by lra. lra. Qed.
Print Assumptions C170_one_pass_falls_refuted.
(** with index checks the row [0,3,:] of the stored array does not exist; compiled without checks it is the row of outermost positions *)
Theorem C170_row_read : forall t l r T a, pack t l r T = Ok a -> smooth_wave_loc_array row a = Err IndexError /\ smooth_wave_loc_array row_unchecked a = Ok (smooth_row T).
Proof.
  intros t l r T a H. unfold pack in H. destruct ((length l =? length t)%nat && (length r =? length t)%nat && (length T =? length t)%nat) eqn:E; [|discriminate]. injection H as <-.
  apply andb_prop in E as [E E3]. apply andb_prop in E as [E1 E2]. apply Nat.eqb_eq in E1, E2, E3. split; [reflexivity|].
  unfold smooth_wave_loc_array, row_unchecked. cbn [d0 d1 d2 dat]. rewrite !app_length. replace ((0 * 1 + 3) * length t + length t <=? length t + (length l + (length r + length T)))%nat with true by (symmetry; apply Nat.leb_le; lia).
  cbn [bind]. f_equal. f_equal. rewrite !skipn_app. rewrite !skipn_all2 by lia. cbn [app]. replace ((0 * 1 + 3) * length t - length t - length l - length r)%nat with 0%nat by lia. cbn [skipn].
  rewrite firstn_all2 by lia. reflexivity.
Qed.
Print Assumptions C170_row_read.
Example C170_example : smooth_row [3; 5; 4] = [5; 5; 4] /\ passes 2 [0; 1; 2] = [2; 2; 2].
Proof.
  split; cbn.
  - rewrite (Rltb_true 3 5), (Rltb_false 5 4) by lra. reflexivity.
  - rewrite (Rltb_true 0 1), (Rltb_true 1 2) by lra. rewrite (Rltb_true 1 2), (Rltb_false 2 2) by lra. reflexivity.
Qed.
