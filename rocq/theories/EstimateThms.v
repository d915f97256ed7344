(** Theorems about the recorded wave fronts: the array they are handed over in (solver.py 88, 98; mesh.py 306) and their
    estimation (wave_loc_estimator.py, main_functions.py 204-211). *)
From Coq Require Import String.
From Coq Require Import Sorting.Permutation.
From Verif Require Import Py PyLemmas ConfigModel DriverModel DriverThms BenchModel BenchProofs EstimateModel.
Local Open Scope list_scope.

Lemma skipn_add {A} a b (l : list A) : skipn (a + b) l = skipn b (skipn a l).
Proof. revert l. induction a; intros [|x l]; cbn; auto. now destruct b. Qed.

(** ** C114: the layout of the array of recorded fronts *)
Theorem C114_layout t l r T a : pack t l r T = Ok a ->
  row a 0 0 = Ok t /\ row a 1 0 = Ok l /\ row a 2 0 = Ok r /\ row a 3 0 = Ok T /\ (forall j, (1 <= j)%nat -> row a 0 j = Err IndexError).
Proof.
  intro H. unfold pack in H. destruct (Nat.eqb_spec (length l) (length t)) as [Hl|]; [|discriminate].
  destruct (Nat.eqb_spec (length r) (length t)) as [Hr|]; [|discriminate]. destruct (Nat.eqb_spec (length T) (length t)) as [HT|]; [|discriminate].
  injection H as <-. unfold row; cbn [d0 d1 d2 dat]. cbn [Nat.ltb Nat.leb andb Nat.mul Nat.add].
  assert (F : forall (u v : list R), firstn (length u) (u ++ v) = u) by (intros; rewrite firstn_app, Nat.sub_diag, firstn_all; cbn; apply app_nil_r).
  assert (S : forall (u v : list R), skipn (length u) (u ++ v) = v) by (intros; rewrite skipn_app, Nat.sub_diag, skipn_all; reflexivity).
  split; [|split; [|split; [|split]]].
  - cbn [skipn]. now rewrite F.
  - rewrite Nat.add_0_r, S. now rewrite <- Hl, F.
  - rewrite Nat.add_0_r, skipn_add, S, <- Hl, S, Hl, <- Hr, F. reflexivity.
  - rewrite Nat.add_0_r, !skipn_add, S, <- Hl, S, Hl, <- Hr, S, Hr, <- HT, firstn_all. reflexivity.
  - intros j Hj. destruct j; [lia|]. reflexivity.
Qed.
Print Assumptions C114_layout.
(** The mesh reads rows (0,0), (0,2), (0,3).  Compiled without index checks these are the times, the right edges and the
    temperature fronts. *)
Theorem C114_unchecked t l r T a : pack t l r T = Ok a ->
  row_unchecked a 0 0 = Ok t /\ row_unchecked a 0 1 = Ok l /\ row_unchecked a 0 2 = Ok r /\ row_unchecked a 0 3 = Ok T /\
  forall j, (4 <= j)%nat -> (1 <= length t)%nat -> row_unchecked a 0 j = Err Uninit.
Proof.
  intro H. destruct (C114_layout _ _ _ _ _ H) as (R0 & R1 & R2 & R3 & _). unfold pack in H.
  destruct (Nat.eqb_spec (length l) (length t)) as [Hl|]; [|discriminate].
  destruct (Nat.eqb_spec (length r) (length t)) as [Hr|]; [|discriminate]. destruct (Nat.eqb_spec (length T) (length t)) as [HT|]; [|discriminate].
  injection H as <-. unfold row, row_unchecked in *; cbn [d0 d1 d2 dat] in *. cbn [Nat.ltb Nat.leb andb] in *.
  assert (L : length (t ++ l ++ r ++ T) = (4 * length t)%nat) by (rewrite !app_length; lia). rewrite L.
  assert (G : forall j, (j < 4)%nat -> (((0 * 1 + j) * length t + length t <=? 4 * length t)%nat = true)) by (intros; apply Nat.leb_le; nia).
  rewrite !G by lia. split; [exact R0|]. split; [exact R1|]. split; [exact R2|]. split; [exact R3|].
  intros j Hj Ht. destruct (Nat.leb_spec ((0 * 1 + j) * length t + length t) (4 * length t)); [nia|reflexivity].
Qed.
Print Assumptions C114_unchecked.
Example C114_example : exists a, pack [0; 1] [2; 3] [4; 5] [6; 7] = Ok a /\ row_unchecked a 0 3 = Ok [6; 7] /\ row a 0 3 = Err IndexError.
Proof. eexists. split; [reflexivity|]. split; reflexivity. Qed.
(** Python's own indexing raises on every array the driver builds, so the mesh only works compiled. *)
Theorem C114_mesh_reads_refuted : exists t l r T a, pack t l r T = Ok a /\ row a 0 2 = Err IndexError /\ row a 0 3 = Err IndexError.
Proof. exists [0], [0], [0], [0]. eexists. split; [reflexivity|]. split; reflexivity. Qed.
Print Assumptions C114_mesh_reads_refuted.
(** The placeholder of runs without recorded fronts has no such rows at all. *)
Theorem C114_placeholder j : row no_wave 0 (S j) = Err IndexError /\ row_unchecked no_wave 0 (S j) = Err Uninit.
Proof. split; [reflexivity|]. unfold row_unchecked; cbn [d1 d2 dat no_wave length]. destruct (Nat.leb_spec ((0 * 1 + S j) * 1 + 1) 1); [lia|reflexivity]. Qed.
Print Assumptions C114_placeholder.

(** ** C115: front estimation never succeeds *)
Theorem C115_only_switched_off fuel z sigma times x0 tol st l r : wave_part fuel z sigma times x0 tol st l = Ok r ->
  z = 0%Z /\ r = ([0], [0], [0]).
Proof.
  unfold wave_part. destruct (Z.eqb_spec z 1) as [->|].
  - destruct sigma as [x|[|s m]]; cbn; try discriminate. destruct (Reqb s 0); cbn; try discriminate.
    unfold find_wave, make_sol. destruct (getneg times 1); discriminate.
  - destruct (Z.eqb_spec z 0) as [->|]; [|discriminate]. intro H. injection H as <-. auto.
Qed.
Print Assumptions C115_only_switched_off.
Theorem C115_scalar_opacity fuel x times x0 tol st l : wave_part fuel 1 (Scalar x) times x0 tol st l = Err TypeError.
Proof. reflexivity. Qed.
Print Assumptions C115_scalar_opacity.
Example C115_off_example : wave_part 0 0 (Scalar 1) [0; 1] (1/2) 1 [1;0]%Z [] = Ok ([0], [0], [0]) /\
  wave_part 0 2 (Scalar 1) [0; 1] (1/2) 1 [1;0]%Z [] = Err UnboundLocal /\ wave_part 0 1 (Arr [2]) [0; 1] (1/2) 1 [1;0]%Z [] = Err TypeError.
Proof.
  split; [reflexivity|]. split; [reflexivity|]. cbn. rewrite Reqb_false by lra. reflexivity.
Qed.
(** So no run with the estimation switched on ends normally, whatever else the solver does. *)
Theorem C115_no_run_ends pr solve c u m s s' :
  (forall k a o, solve k c a = Ok o -> exists fuel times x0 tol st l r,
     wave_part fuel (c_find_wave_loc c) (Scalar (dec2R (c_sigma_t c))) times x0 tol st l = Ok r) ->
  c_find_wave_loc c <> 0%Z -> (1 <= c_N_runs c)%Z -> c_N_angles c <> nil -> main pr solve c u m s <> (Ok tt, s').
Proof.
  intros Hs Hf Hr Ha H. destruct (main_spec _ _ _ _ _ _ _ H) as (out & O & _).
  assert (La : (0 < length (c_N_angles c))%nat) by (destruct (c_N_angles c); [congruence|cbn; lia]).
  destruct (O 0%nat 0%nat ltac:(lia) La) as (a & E & _). destruct (Hs _ _ _ E) as (fuel & times & x0 & tol & st & l & r & W).
  apply C115_only_switched_off in W. apply Hf, W.
Qed.
Print Assumptions C115_no_run_ends.

(** ** C116: what the estimate would be *)
(** The searches start with their flags already set: the bounds are the source half-width or the origin, the left one
    at least a mean free path, whatever the solution. *)
Theorem C116_bounds fuel w x0 tol st hi dphi de big b : find_wave_bounds fuel w x0 tol st hi dphi de big = Ok b ->
  exists start, (nth 1 st 0%Z = 1%Z \/ nth 2 st 0%Z = 1%Z -> start = x0) /\ (~ (nth 1 st 0%Z = 1%Z \/ nth 2 st 0%Z = 1%Z) -> start = 0) /\
    snd b = start /\ (w_mean_free w <= Rabs start -> fst b = start) /\ (Rabs start < w_mean_free w -> fst b = w_mean_free w).
Proof.
  unfold find_wave_bounds. intro H.
  destruct (getitem st 1) as [s1|] eqn:E1; cbn [bind] in H; [|discriminate]. destruct (getitem st 2) as [s2|] eqn:E2; cbn [bind] in H; [|discriminate].
  assert (G : forall i z, getitem st i = Ok z -> nth i st 0%Z = z).
  { intros i z Q. unfold getitem in Q. destruct (nth_error st i) eqn:X; [|discriminate]. injection Q as <-. apply nth_error_nth. auto. }
  apply G in E1, E2. rewrite E1, E2.
  match type of H with bind ?m _ = _ => destruct m as [start|] eqn:Es; cbn [bind] in H; [|discriminate] end.
  assert (L : forall q, left_search fuel (1 / 1000) x0 0 dphi de true start q = Ok start) by (intro; destruct fuel; reflexivity).
  assert (Rr : forall q, right_search fuel (1 / 1000) x0 hi dphi de true start q = Ok start) by (intro; destruct fuel; reflexivity).
  rewrite L, Rr in H. cbn [bind] in H. injection H as <-. exists start. cbn [fst snd].
  destruct (Z.eqb_spec s1 1) as [A|A]; [|destruct (Z.eqb_spec s2 1) as [B|B]]; cbn [orb] in Es.
  1,2: injection Es as <-; split; [auto|]; split; [tauto|]; split; [auto|].
  3:{ split; [tauto|]. split.
      - intros _. destruct (getitem st 3); cbn [bind] in Es; [|discriminate]. destruct (getitem st 5); cbn [bind] in Es; [|discriminate].
        destruct (_ || _)%bool; [injection Es; auto|discriminate].
      - split; auto. split; intro Q; [now rewrite Rltb_false by lra|now rewrite Rltb_true by lra]. }
  all: split; intro Q; [now rewrite Rltb_false by lra|now rewrite Rltb_true by lra].
Qed.
Print Assumptions C116_bounds.
Example C116_bounds_example : find_wave_bounds 0 {| w_sigma := 1; w_mean_free := 1 |} (1/2) 1 [0;0;1]%Z 3 (fun x => x) (fun x => x) 1 = Ok (1, 1/2).
Proof.
  unfold find_wave_bounds. cbn [getitem nth_error bind Z.eqb orb]. cbn. rewrite Rabs_pos_eq, Rltb_true by lra. reflexivity.
Qed.
(** The search did nothing: two solutions give the same bounds. *)
Theorem C116_bounds_ignore_the_solution fuel w x0 tol st hi hi' dphi dphi' de de' big big' :
  find_wave_bounds fuel w x0 tol st hi dphi de big = find_wave_bounds fuel w x0 tol st hi' dphi' de' big'.
Proof.
  unfold find_wave_bounds. destruct (getitem st 1); cbn [bind]; auto. destruct (getitem st 2); cbn [bind]; auto.
  match goal with |- bind ?m _ = _ => destruct m; cbn [bind]; auto end. destruct fuel; reflexivity.
Qed.
Print Assumptions C116_bounds_ignore_the_solution.

Lemma insert_perm x l : Permutation (insert x l) (x :: l).
Proof.
  induction l as [|y l IH]; cbn; [auto|]. destruct (Rleb x y); [auto|]. rewrite IH. apply perm_swap.
Qed.
Lemma sort_perm l : Permutation (sort l) l.
Proof. induction l as [|x l IH]; cbn; [auto|]. fold (sort l). rewrite insert_perm, IH. auto. Qed.
Lemma insert_head x l m r : (forall y, In y l -> nth 0 l 0 <= y) -> insert x l = m :: r -> forall y, In y (x :: l) -> m <= y.
Proof.
  intros H E y Hy. destruct l as [|z l]; cbn in E.
  - injection E as <- <-. destruct Hy as [->|[]]. lra.
  - destruct (Rleb_spec x z); injection E as <- <-.
    + destruct Hy as [->|Hy]; [lra|]. specialize (H y Hy). cbn in H. lra.
    + destruct Hy as [->|Hy]; [lra|]. apply (H y Hy).
Qed.
Lemma sort_head l : forall y, In y l -> nth 0 (sort l) 0 <= y.
Proof.
  induction l as [|x l IH]; cbn [sort fold_right]; [intros y []|]. fold (sort l). intros y Hy.
  destruct (insert x (sort l)) as [|m r] eqn:E; [apply (f_equal (@length R)) in E; pose proof (Permutation_length (insert_perm x (sort l))); cbn in *; lia|].
  cbn [nth]. refine (insert_head x (sort l) m r _ E y _).
  - intros z Hz. apply IH. eapply Permutation_in; [apply sort_perm|exact Hz].
  - destruct Hy as [->|Hy]; [now left|right]. eapply Permutation_in; [symmetry; apply sort_perm|exact Hy].
Qed.
(** The temperature front would be the distance from the origin of the first sampled point where the energy falls most
    steeply. *)
Theorem C116_front xs deriv : length xs = length deriv -> (1 <= length xs)%nat ->
  exists i, (i < length xs)%nat /\ find_T_wave xs deriv = Ok (Rabs (nth i xs 0)) /\
    (forall j, (j < length xs)%nat -> nth i deriv 0 <= nth j deriv 0) /\ (forall j, (j < i)%nat -> nth i deriv 0 < nth j deriv 0).
Proof.
  intros Hl H1. unfold find_T_wave.
  assert (Hs : (1 <= length (sort deriv))%nat) by (rewrite (Permutation_length (sort_perm deriv)); lia).
  unfold getitem at 1. destruct (nth_error (sort deriv) 0) as [m|] eqn:E; [|apply nth_error_None in E; lia]. cbn [bind].
  assert (Em : nth 0 (sort deriv) 0 = m) by (apply nth_error_nth; auto).
  assert (Hm : forall j, (j < length xs)%nat -> m <= nth j deriv 0) by (intros; rewrite <- Em; apply sort_head, nth_In; lia).
  assert (Hin : In m deriv) by (eapply Permutation_in; [apply sort_perm|]; eapply nth_error_In; exact E).
  destruct (rargmin_ok (map (fun d => Rabs (d - m)) deriv)) as (i & Ei & Hi & Mi & Fi); [rewrite map_length; lia|].
  rewrite Ei. cbn [bind]. rewrite map_length in Hi, Mi.
  assert (N : forall j, (j < length xs)%nat -> nth j (map (fun d => Rabs (d - m)) deriv) 0 = nth j deriv 0 - m).
  { intros j Hj. rewrite (nth_indep _ 0 (Rabs (0 - m))) by (rewrite map_length; lia). rewrite (map_nth (fun d => Rabs (d - m))).
    apply Rabs_pos_eq. specialize (Hm j Hj). lra. }
  exists i. split; [lia|]. split; [unfold getitem; rewrite (nth_error_nth' xs 0) by lia; reflexivity|]. split.
  - intros j Hj. specialize (Mi j ltac:(lia)). rewrite !N in Mi by lia. lra.
  - intros j Hj. specialize (Fi j Hj). rewrite !N in Fi by lia. lra.
Qed.
Print Assumptions C116_front.
Example C116_front_example : find_T_wave [-1; 0; 1; 2] [3; 0; -2; -2] = Ok 1.
Proof.
  destruct (C116_front [-1; 0; 1; 2] [3; 0; -2; -2] eq_refl ltac:(cbn; lia)) as (i & Hi & E & M & F). rewrite E. f_equal.
  destruct i as [|[|[|[|i]]]]; cbn in Hi; try lia; cbn [nth].
  - specialize (M 2%nat ltac:(cbn; lia)). cbn in M. lra.
  - specialize (M 2%nat ltac:(cbn; lia)). cbn in M. lra.
  - apply Rabs_pos_eq. lra.
  - specialize (F 2%nat ltac:(lia)). cbn in F. lra.
Qed.

Lemma samples_pos : (1 <= samples)%nat.
Proof. unfold samples. lia. Qed.
Local Opaque samples.
(** The records over a run: left and right bounds constant in time, the first temperature front replaced by the
    half-width. *)
Theorem C116_records fuel w x0 tol st l ls rs ts : after_make_sol fuel w x0 tol st l = Ok (ls, rs, ts) ->
  length ls = length l /\ length rs = length l /\ length ts = length l /\ nth 0 ts 0 = x0 /\
  (forall i, (i < length l)%nat -> nth i ls 0 = nth 0 ls 0 /\ nth i rs 0 = nth 0 rs 0) /\
  (forall i s, (1 <= i)%nat -> nth_error l i = Some s -> exists k, (k < samples)%nat /\
     let pts := linspace (nth 0 (s_xs s) 0) (nth (length (s_xs s) - 1) (s_xs s) 0) (samples) in
     nth i ts 0 = Rabs (nth k pts 0) /\ forall j, (j < samples)%nat -> s_de s (nth k pts 0) <= s_de s (nth j pts 0)).
Proof.
  assert (Loop : forall l ls rs ts, find_loop fuel w x0 tol st l = Ok (ls, rs, ts) ->
    length ls = length l /\ length rs = length l /\ length ts = length l /\
    (forall i s, nth_error l i = Some s -> find_wave_bounds fuel w x0 tol st 0 (fun x => x) (fun x => x) 0 = Ok (nth i ls 0, nth i rs 0) /\
       exists k, (k < samples)%nat /\
       let pts := linspace (nth 0 (s_xs s) 0) (nth (length (s_xs s) - 1) (s_xs s) 0) (samples) in
       nth i ts 0 = Rabs (nth k pts 0) /\ forall j, (j < samples)%nat -> s_de s (nth k pts 0) <= s_de s (nth j pts 0))).
  { clear. induction l as [|s l IH]; intros ls rs ts H; cbn [find_loop] in H.
    - injection H as <- <- <-. repeat split; auto; intros; destruct i; discriminate.
    - destruct (getitem (s_xs s) 0) as [a|] eqn:Ea; cbn [bind] in H; [|discriminate H].
      destruct (getneg (s_xs s) 1) as [b|] eqn:Eb; cbn [bind] in H; [|discriminate H].
      destruct (find_wave_bounds _ _ _ _ _ _ _ _ _) as [[bl br]|] eqn:Ew in H; cbn [bind] in H; [|discriminate H].
      assert (Qa : a = nth 0 (s_xs s) 0). { unfold getitem in Ea. destruct (s_xs s); cbn in *; congruence. }
      assert (Qb : b = nth (length (s_xs s) - 1) (s_xs s) 0).
      { unfold getneg, getitem in Eb. destruct (length (s_xs s) <? 1)%nat; [discriminate Eb|]. destruct (nth_error (s_xs s) (length (s_xs s) - 1)) eqn:X; [|discriminate Eb]. injection Eb as <-. symmetry. apply nth_error_nth. auto. }
      set (m := samples) in *.
      assert (Lp : length (linspace a b m) = m) by (rewrite linspace_tab; apply tab_length).
      destruct (C116_front (linspace a b m) (map (s_de s) (linspace a b m))) as (k & Hk & Ek & Mk & _); [now rewrite map_length|pose proof samples_pos; unfold m in *; lia|].
      rewrite Ek in H. clear Ek. cbn [bind] in H. destruct (find_loop fuel w x0 tol st l) as [[[ls' rs'] ts']|] eqn:El; cbn [bind] in H; [|discriminate H].
      injection H as <- <- <-. destruct (IH _ _ _ eq_refl) as (L1 & L2 & L3 & I). cbn [length fst snd].
      split; [lia|]. split; [lia|]. split; [lia|]. intros i s' Hs. destruct i as [|i]; cbn [nth_error nth] in *; [|apply I; auto].
      injection Hs as <-. split.
      + rewrite <- Ew. apply C116_bounds_ignore_the_solution.
      + exists k. rewrite Lp in Hk, Mk. rewrite <- Qa, <- Qb. split; [auto|]. cbv zeta. split; [reflexivity|]. intros j Hj. specialize (Mk j Hj).
        rewrite !(nth_indep (map _ _) 0 (s_de s 0)), !(map_nth (s_de s)) in Mk by (rewrite map_length; lia). exact Mk. }
  intro H. unfold after_make_sol in H. destruct (find_loop fuel w x0 tol st l) as [[[ls' rs'] ts']|] eqn:El; cbn [bind] in H; [|discriminate H].
  destruct (setitem ts' 0 x0) as [t'|] eqn:Et; cbn [bind] in H; [|discriminate H]. injection H as <- <- <-.
  destruct (Loop _ _ _ _ El) as (L1 & L2 & L3 & I). destruct (setitem_spec _ _ _ _ Et) as [T1 T2].
  split; [auto|]. split; [auto|]. split; [lia|]. split; [rewrite T2; reflexivity|]. split.
  - intros i Hi. destruct (nth_error l i) as [s|] eqn:Es; [|apply nth_error_None in Es; lia].
    destruct (nth_error l 0) as [s0|] eqn:E0; [|apply nth_error_None in E0; lia].
    destruct (I _ _ Es) as [A _]. destruct (I _ _ E0) as [B _]. rewrite A in B. injection B as -> ->. auto.
  - intros i s Hi Es. destruct (I _ _ Es) as [_ K]. rewrite T2. destruct (Nat.eqb_spec i 0); [lia|]. exact K.
Qed.
Print Assumptions C116_records.
Example C116_records_example : exists r, after_make_sol 0 {| w_sigma := 1; w_mean_free := 1 |} (1/2) 1 [0;0;1]%Z
  [{| s_xs := [-1; 1]; s_dphi := fun x => x; s_de := fun x => x; s_big := 1 |}] = Ok r.
Proof.
  unfold after_make_sol. cbn [find_loop s_xs getitem getneg nth_error length Nat.ltb Nat.leb Nat.sub bind s_dphi s_de s_big].
  rewrite (C116_bounds_ignore_the_solution _ _ _ _ _ 1 3 _ (fun x => x) _ (fun x => x) 1 1), C116_bounds_example. cbn [bind].
  assert (Lp : length (linspace (-1) 1 samples) = samples) by (rewrite linspace_tab; apply tab_length).
  destruct (C116_front (linspace (-1) 1 samples) (map (fun x => x) (linspace (-1) 1 samples))) as (k & _ & Ek & _);
    [now rewrite map_length|rewrite Lp; apply samples_pos|].
  rewrite Ek. clear Ek. cbn [bind fst snd setitem length Nat.ltb Nat.leb firstn app]. eexists. reflexivity.
Qed.
(** The searches themselves, had they run: each returns a point at which both derivatives are below the tolerance, reached from
    the starting point by whole steps in its own direction; the tolerance is the given one, or raised in steps after the end
    of the interval was reached and the search started again at x0.  The right one also stops at x0 once the tolerance is above 10. *)
Lemma pow_step q t n : t * q ^ S n = t * q * q ^ n.
Proof. cbn [pow]. ring. Qed.
Theorem C116_left_search fuel dx x0 lo dphi de x tol y : left_search fuel dx x0 lo dphi de false x tol = Ok y ->
  exists n m, Rabs (dphi y) <= tol * (11 / 10) ^ n /\ Rabs (de y) <= tol * (11 / 10) ^ n /\ lo < y /\ (y = x - INR m * dx \/ (0 < n)%nat /\ y = x0 - INR m * dx).
Proof.
  revert x tol. induction fuel as [|f IH]; intros x tol H; [discriminate|]. cbn [left_search] in H. destruct (Rleb_spec (x - dx) lo) as [A|A].
  - destruct (IH _ _ H) as (n & m & P1 & P2 & P3 & P4). exists (S n), m. rewrite pow_step. split; [auto|]. split; [auto|]. split; [auto|]. right. split; [lia|]. destruct P4 as [P4|[_ P4]]; auto.
  - destruct (Rleb_spec (Rabs (dphi (x - dx))) tol) as [B|B]; [destruct (Rleb_spec (Rabs (de (x - dx))) tol) as [C|C]|]; cbn [andb] in H.
    + assert (y = x - dx) by (destruct f; injection H; auto). subst y. exists 0%nat, 1%nat. cbn [pow INR]. split; [lra|]. split; [lra|]. split; [lra|]. left. ring.
    + destruct (IH _ _ H) as (n & m & P1 & P2 & P3 & P4). exists n. destruct P4 as [P4|P4]; [exists (S m)|exists m]; (split; [auto|]; split; [auto|]; split; [auto|]); [left|now right]. rewrite S_INR, P4. ring.
    + destruct (IH _ _ H) as (n & m & P1 & P2 & P3 & P4). exists n. destruct P4 as [P4|P4]; [exists (S m)|exists m]; (split; [auto|]; split; [auto|]; split; [auto|]); [left|now right]. rewrite S_INR, P4. ring.
Qed.
Print Assumptions C116_left_search.
Theorem C116_right_search fuel dx x0 hi dphi de x tol y : right_search fuel dx x0 hi dphi de false x tol = Ok y ->
  (y = x0 /\ exists n, 10 < tol * (105 / 100) ^ S n) \/
  exists n m, Rabs (dphi y) <= tol * (105 / 100) ^ n /\ Rabs (de y) <= tol * (105 / 100) ^ n /\ y < hi /\ (y = x + INR m * dx \/ (0 < n)%nat /\ y = x0 + INR m * dx).
Proof.
  revert x tol. induction fuel as [|f IH]; intros x tol H; [discriminate|]. cbn [right_search] in H. destruct (Rleb_spec hi (x + dx)) as [A|A].
  - destruct (Rltb_spec 10 (tol * (105 / 100))) as [T|T].
    + left. split; [destruct f; injection H; auto|]. exists 0%nat. cbn [pow]. lra.
    + destruct (IH _ _ H) as [[P (n & Q)]|(n & m & P1 & P2 & P3 & P4)].
      * left. split; [auto|]. exists (S n). rewrite pow_step. exact Q.
      * right. exists (S n), m. rewrite pow_step. split; [auto|]. split; [auto|]. split; [auto|]. right. split; [lia|]. destruct P4 as [P4|[_ P4]]; auto.
  - destruct (Rleb_spec (Rabs (dphi (x + dx))) tol) as [B|B]; [destruct (Rleb_spec (Rabs (de (x + dx))) tol) as [C|C]|]; cbn [andb] in H.
    + right. assert (y = x + dx) by (destruct f; injection H; auto). subst y. exists 0%nat, 1%nat. cbn [pow INR]. split; [lra|]. split; [lra|]. split; [lra|]. left. ring.
    + destruct (IH _ _ H) as [P|(n & m & P1 & P2 & P3 & P4)]; [now left|right]. exists n. destruct P4 as [P4|P4]; [exists (S m)|exists m]; (split; [auto|]; split; [auto|]; split; [auto|]); [left|now right]. rewrite S_INR, P4. ring.
    + destruct (IH _ _ H) as [P|(n & m & P1 & P2 & P3 & P4)]; [now left|right]. exists n. destruct P4 as [P4|P4]; [exists (S m)|exists m]; (split; [auto|]; split; [auto|]; split; [auto|]); [left|now right]. rewrite S_INR, P4. ring.
Qed.
Print Assumptions C116_right_search.
Example C116_search_example : left_search 2 1 5 0 (fun _ => 0) (fun _ => 0) false 5 1 = Ok 4 /\ right_search 2 1 5 9 (fun _ => 0) (fun _ => 0) false 5 1 = Ok 6.
Proof.
  cbn. rewrite Rabs_R0, (Rleb_false (5 - 1) 0), (Rleb_false 9 (5 + 1)), (Rleb_true 0 1) by lra. cbn [andb]. split; f_equal; ring.
Qed.
(** one element of a record: row-major *)
Theorem C114_element a i j r : row a i j = Ok r -> (length (dat a) = d0 a * d1 a * d2 a)%nat -> length r = d2 a /\ forall k, (k < d2 a)%nat -> nth k r 0 = nth ((i * d1 a + j) * d2 a + k) (dat a) 0.
Proof.
  unfold row. destruct (Nat.ltb_spec i (d0 a)) as [Hi|]; [|discriminate]. destruct (Nat.ltb_spec j (d1 a)) as [Hj|]; [|discriminate]. cbn [andb]. intros [= <-] L.
  assert (B0 : (i * d1 a + j + 1 <= d0 a * d1 a)%nat) by (apply (Nat.le_trans _ ((i + 1) * d1 a)); [nia|apply Nat.mul_le_mono_r; lia]).
  assert (B : ((i * d1 a + j) * d2 a + d2 a <= length (dat a))%nat) by (rewrite L; apply (Nat.mul_le_mono_r _ _ (d2 a)) in B0; lia).
  split; [rewrite firstn_length, skipn_length; lia|]. intros k Hk.
  assert (F : forall (l : list R) n m, (m < n)%nat -> nth m (firstn n l) 0 = nth m l 0).
  { induction l as [|x l IH]; intros [|n] [|m] Hm; try lia; try reflexivity; cbn [firstn nth]. apply IH. lia. }
  assert (S : forall n (l : list R) m, nth m (skipn n l) 0 = nth (n + m) l 0).
  { induction n as [|n IH]; intros [|x l] m; cbn [skipn Nat.add nth]; try reflexivity; [now destruct m|apply IH]. }
  now rewrite F, S by auto.
Qed.
Print Assumptions C114_element.
