(** Theorems about the benchmark comparison (load_bench.py, solver.py 44-52, 236-273). *)
From Coq Require Import String.
From Coquelicot Require Import Coquelicot.
From Verif Require Import Py PyLemmas StoreModel OutModel BenchModel MeshSpec BenchProofs.

(** ** C109: which data set is loaded *)
(** The first entry equal to one decides; beyond the sixteen names it is an index error. *)
Theorem C109_first_one l p : nth_error l p = Some 1%Z -> (forall j, (j < p)%nat -> nth_error l j <> Some 1%Z) ->
  bench_name l = match nth_error bench_names p with Some s => Ok s | None => Err IndexError end.
Proof.
  intros Hp Hj. unfold bench_name. rewrite (argmin_first l p 1 Hp); [reflexivity|].
  intros j z Hz. split; [lia|]. intro L. specialize (Hj j L). assert (z <> 1%Z) by congruence. lia.
Qed.
Print Assumptions C109_first_one.
Example C109_first_example : bench_name [0;0;0;0;0;0;0;0;1;0;0;0;0;0;0;0]%Z = Ok "P1_su_olson_rad"%string /\ bench_name [0;1;0;0;0;1]%Z = Ok "square_IC"%string.
Proof. split; reflexivity. Qed.

(** Without an entry equal to one — sourceless and dipole problems — the plane-source data are loaded. *)
Theorem C109_plane_by_default l : l <> nil -> (forall z, In z l -> z = 0%Z \/ z = 2%Z) -> bench_name l = Ok "plane_IC"%string.
Proof.
  intros Hne Hl. unfold bench_name. destruct l as [|z l]; [congruence|].
  rewrite (argmin_first (z :: l) 0 z eq_refl); [reflexivity|]. intros j y Hy. split; [|lia].
  apply nth_error_In in Hy. destruct (Hl z (or_introl eq_refl)) as [->| ->], (Hl y Hy) as [->| ->]; cbn; lia.
Qed.
Print Assumptions C109_plane_by_default.
Example C109_default_example : bench_name [2;0;0;0;0;0;0;0]%Z = Ok "plane_IC"%string.
Proof. reflexivity. Qed.

(** The data set is the one stored under the run's name and time, the time scaled by the scattering ratio when
    asked for — except at 31.6228, where the scaling is ignored. *)
Theorem C109_data_set pr d l t c sc b : load_bench pr d l t c sc = Ok b <->
  exists name xs f u, bench_name l = Ok name /\
    d_sets d name (String.append "t = " (pr (if sc then (if Reqb t (316228 / 10000) then t else t * c) else t))) = Some (xs, f, u) /\
    b = {| b_xs := xs; b_phi := f; b_phi_u := u;
           b_e := let s := if sc then t * c else t in
                  if Reqb s 1 then Some (d_one d) else if Reqb s (316228 / 10000) then Some (d_31 d) else None |}.
Proof.
  unfold load_bench, bench_key, bench_time. destruct (bench_name l) as [name|e]; cbn [bind].
  2:{ split; [discriminate|]. intros (? & ? & ? & ? & X & _). discriminate. }
  replace (if Reqb t (316228 / 10000) then pr t else pr (if sc then t * c else t)) with
    (pr (if sc then (if Reqb t (316228 / 10000) then t else t * c) else t)) by (destruct sc, (Reqb t (316228 / 10000)); reflexivity).
  destruct (d_sets d name _) as [[[xs f] u]|] eqn:E.
  - split.
    + intro H. injection H as <-. exists name, xs, f, u. auto.
    + intros (name' & xs' & f' & u' & H1 & H2 & ->). injection H1 as <-. rewrite E in H2. injection H2 as <- <- <-. reflexivity.
  - split; [discriminate|]. intros (name' & xs' & f' & u' & H1 & H2 & _). injection H1 as <-. rewrite E in H2. discriminate.
Qed.
Print Assumptions C109_data_set.
Example C109_scaling_example : exists d b, load_bench (fun x => if Reqb x 5 then "5.0" else "other") d [1;0;0]%Z 10 (1/2) true = Ok b /\
  d_sets d "plane_IC" "t = 5.0" <> None.
Proof.
  exists {| d_sets := fun n k => if (String.eqb n "plane_IC" && String.eqb k "t = 5.0")%bool then Some ([0; 1], fun x => x, fun x => x) else None; d_one := []; d_31 := [] |}.
  eexists. split; [|discriminate]. unfold load_bench, bench_key, bench_time. replace (10 * (1/2)) with 5 by lra.
  rewrite (Reqb_false 10) by lra. rewrite Reqb_refl. cbn [bind bench_name map argmin]. cbn. rewrite (Reqb_false 5 1), (Reqb_false 5) by lra. reflexivity.
Qed.
Theorem C109_scaled_time_refuted : exists pr d l t c b, c <> 1 /\ load_bench pr d l t c true = Ok b /\
  d_sets d "plane_IC" (String.append "t = " (pr (t * c))) = None.
Proof.
  exists (fun x => if Reqb x (316228 / 10000) then "a" else "b"),
    {| d_sets := fun n k => if String.eqb k "t = a" then Some ([0; 1], fun x => x, fun x => x) else None; d_one := []; d_31 := [] |}, [1;0]%Z, (316228 / 10000), 2.
  eexists. split; [lra|]. split.
  - apply C109_data_set. exists "plane_IC"%string. do 3 eexists. split; [reflexivity|]. split; [|reflexivity]. cbn. rewrite Reqb_refl. cbn. rewrite Reqb_refl. reflexivity.
  - cbn. rewrite Reqb_false by lra. reflexivity.
Qed.
Print Assumptions C109_scaled_time_refuted.

(** ** C110: evaluating the benchmark at increasing points *)
Definition range (b : bench) (lo hi : R) : Prop :=
  (1 <= length (b_xs b))%nat /\ lo = nth 0 (b_xs b) 0 /\ hi = nth (length (b_xs b) - 1) (b_xs b) 0.
Lemma range_get b lo hi : range b lo hi -> getitem (b_xs b) 0 = Ok lo /\ getneg (b_xs b) 1 = Ok hi.
Proof.
  intros (H1 & -> & ->). unfold getneg, getitem. destruct (Nat.ltb_spec (length (b_xs b)) 1); [lia|].
  rewrite (nth_error_nth' (b_xs b) 0) by lia. rewrite (nth_error_nth' (b_xs b) 0) by lia. auto.
Qed.
(** value of the extended benchmark: the interpolant inside its range, zero outside *)
Definition extended (f : R -> R) (hi x : R) : R := if Rle_dec x hi then f x else 0.

Theorem C110_inside b lo hi xs : range b lo hi -> (1 <= length xs)%nat -> (forall x, In x xs -> lo <= x <= hi) ->
  bench_call b xs = Ok (map (b_phi b) xs, map (b_phi_u b) xs).
Proof.
  intros Hr Hn Hx. destruct (range_get b lo hi Hr) as [Hlo Hhi].
  rewrite (list_is_tab xs (length xs) (fun i => nth i xs 0)) by auto. set (X := fun i => nth i xs 0).
  assert (Q : forall i, (i < length xs)%nat -> lo <= X i <= hi) by (intros; apply Hx, nth_In; auto).
  unfold bench_call. rewrite getneg_tab, Hhi by lia. cbn [bind]. unfold Rgtb. rewrite Rltb_false by (apply Q; lia).
  rewrite !(interp_tab b lo hi Hlo Hhi) by auto. cbn [bind]. now rewrite !map_tab.
Qed.
Print Assumptions C110_inside.

(** Beyond the range every point gets the value it should, except the one nearest to the end of the range, which gets 0. *)
Theorem C110_increasing b lo hi xs : range b lo hi -> increasing xs -> (2 <= length xs)%nat -> lo <= nth 0 xs 0 ->
  1 / 10 ^ 12 < nth (length xs - 1) xs 0 - nth 0 xs 0 -> hi < nth (length xs - 1) xs 0 ->
  exists e p u, bench_call b xs = Ok (p, u) /\ length p = length xs /\ length u = length xs /\ (e < length xs)%nat /\
   (forall j, (j < length xs)%nat -> Rabs (nth e xs 0 - hi) <= Rabs (nth j xs 0 - hi)) /\ nth e p 0 = 0 /\ nth e u 0 = 0 /\
   forall i, (i < length xs)%nat -> i <> e -> nth i p 0 = extended (b_phi b) hi (nth i xs 0) /\ nth i u 0 = extended (b_phi_u b) hi (nth i xs 0).
Proof.
  intros Hr Hi Hn H0 Hd Hend. destruct (range_get b lo hi Hr) as [Hlo Hhi].
  pose (X := fun i => nth i xs 0). set (n := length xs) in *.
  assert (EX : xs = tab n X) by (apply list_is_tab; auto).
  assert (HX : forall i j, (i < j < n)%nat -> X i < X j) by (intros; apply Hi; auto).
  destruct (stich_increasing b lo hi Hlo Hhi n X Hn HX H0 Hd Hend) as (e & He & E & M & A & B).
  exists e. do 2 eexists. split.
  - rewrite EX. unfold bench_call. rewrite getneg_tab, Hhi by lia. cbn [bind]. unfold Rgtb. rewrite Rltb_true by exact Hend.
    rewrite !E. cbn [bind]. reflexivity.
  - rewrite !tab_length. split; auto. split; auto. split; auto. split; [exact M|]. rewrite !nth_tab, Nat.ltb_irrefl by auto.
    split; auto. split; auto. intros i Hin Hne. rewrite !nth_tab by auto. unfold extended. fold (X i).
    destruct (Nat.ltb_spec i e); destruct (Rle_dec (X i) hi); auto; exfalso.
    + specialize (A i ltac:(lia)). contradiction.
    + specialize (B i ltac:(lia)). lra.
Qed.
Print Assumptions C110_increasing.
Definition unit_bench : bench := {| b_xs := [0; 1]; b_phi := fun _ => 1; b_phi_u := fun _ => 0; b_e := None |}.
Example C110_example : range unit_bench 0 1 /\ increasing [0; 4/10; 9/10; 2].
Proof.
  split; [unfold range; cbn; repeat split; lia|]. intros i j Hij. cbn in Hij.
  destruct i as [|[|[|[|i]]]]; destruct j as [|[|[|[|j]]]]; try lia; cbn; lra.
Qed.
(** the benchmark is 1 on [0,1]; at the point 9/10 the comparison uses 0 *)
Theorem C110_nearest_refuted : exists b xs p u i, range b 0 1 /\ increasing xs /\ bench_call b xs = Ok (p, u) /\
  nth i xs 0 <= 1 /\ b_phi b (nth i xs 0) = 1 /\ nth i p 0 = 0.
Proof.
  destruct C110_example as [Hr Hi].
  destruct (C110_increasing unit_bench 0 1 [0; 4/10; 9/10; 2] Hr Hi) as (e & p & u & E & _ & _ & He & M & P & _ & _); try (cbn; lia); try (cbn; lra).
  exists unit_bench, [0; 4/10; 9/10; 2], p, u, e. split; auto. split; auto. split; auto.
  specialize (M 2%nat ltac:(cbn; lia)). cbn [nth] in M. rewrite (Rabs_left1 (9/10 - 1)) in M by lra.
  destruct e as [|[|[|[|e]]]]; cbn in He; try lia; cbn [nth] in *; split; auto; try lra.
  all: exfalso; first [rewrite Rabs_left1 in M by lra; lra | rewrite Rabs_pos_eq in M by lra; lra].
Qed.
Print Assumptions C110_nearest_refuted.

(** ** C111: points symmetric about the origin, as the driver hands them over (absolute values) *)
Definition odd_points (ys : list R) : Prop := increasing ys /\ forall i, (i < length ys)%nat -> nth (length ys - 1 - i) ys 0 = - nth i ys 0.
Lemma abs_points ys : odd_points ys -> let n := length ys in let X i := Rabs (nth i ys 0) in
  map Rabs ys = tab n X /\ (forall i, (i < n)%nat -> X (n - 1 - i)%nat = X i) /\ (forall i j, (n / 2 <= i < j)%nat -> (j < n)%nat -> X i < X j).
Proof.
  intros [Hi Hs] n X. split; [|split].
  - apply list_is_tab; [apply map_length|]. intros i Hl. unfold X. rewrite (nth_indep _ 0 (Rabs 0)) by (rewrite map_length; auto). apply map_nth.
  - intros i Hl. unfold X, n. rewrite Hs by auto. apply Rabs_Ropp.
  - intros i j [H1 H2] H3. unfold X.
    assert (P : 0 <= nth i ys 0).
    { pose proof (Nat.div_mod n 2 ltac:(lia)) as D. pose proof (Nat.mod_upper_bound n 2 ltac:(lia)).
      destruct (Nat.eq_dec (n - 1 - i) i) as [Q|Q].
      - pose proof (Hs i ltac:(unfold n in *; lia)) as S. fold n in S. rewrite Q in S. lra.
      - pose proof (Hs i ltac:(unfold n in *; lia)) as S. fold n in S. pose proof (Hi (n - 1 - i)%nat i ltac:(unfold n in *; lia)) as L. rewrite S in L. lra. }
    pose proof (Hi i j ltac:(unfold n in *; lia)). rewrite !Rabs_pos_eq by lra. auto.
Qed.

(** An even number of points: every point gets its value, except the pair nearest to the end of the range, which gets 0. *)
Theorem C111_even b lo hi ys : range b lo hi -> lo <= 0 -> odd_points ys -> (4 <= length ys)%nat -> Nat.Even (length ys) ->
  hi < nth (length ys - 1) ys 0 ->
  exists e p u, let n := length ys in bench_call b (map Rabs ys) = Ok (p, u) /\ length p = n /\ length u = n /\ (n / 2 <= e < n - 1)%nat /\
    (forall j, (n / 2 <= j < n - 1)%nat -> Rabs (nth e ys 0 - hi) <= Rabs (nth j ys 0 - hi)) /\
    nth e p 0 = 0 /\ nth (n - 1 - e) p 0 = 0 /\
    forall i, (i < n)%nat -> i <> e -> i <> (n - 1 - e)%nat ->
      nth i p 0 = extended (b_phi b) hi (Rabs (nth i ys 0)) /\ nth i u 0 = extended (b_phi_u b) hi (Rabs (nth i ys 0)).
Proof.
  intros Hr Hl0 Ho Hn Hev Hend. destruct (range_get b lo hi Hr) as [Hlo Hhi].
  destruct (abs_points ys Ho) as (EX & S & M). set (n := length ys) in *. set (X := fun i => Rabs (nth i ys 0)) in *.
  change (forall i, (i < n)%nat -> X (n - 1 - i)%nat = X i) in S. change (forall i j, (n / 2 <= i < j)%nat -> (j < n)%nat -> X i < X j) in M.
  assert (H0n : (2 * (n / 2) = n)%nat). { destruct Hev as [q Hq]. pose proof (Nat.div_mod n 2 ltac:(lia)). pose proof (Nat.mod_upper_bound n 2 ltac:(lia)). lia. }
  assert (He2 : hi < X (n - 1)%nat). { unfold X. eapply Rlt_le_trans; [exact Hend|]. apply Rle_abs. }
  assert (Pos : forall i, (n / 2 <= i < n)%nat -> X i = nth i ys 0).
  { intros i Hin. unfold X. apply Rabs_pos_eq. destruct Ho as [Hi Hs]. pose proof (Hs i ltac:(unfold n in *; lia)) as Q. fold n in Q.
    pose proof (Hi (n - 1 - i)%nat i ltac:(unfold n in *; lia)) as L. rewrite Q in L. lra. }
  destruct (stich_sym b lo hi Hlo Hhi n X ltac:(lia) S M) as (e & Hee & Hm & A & B & Eev & _); auto.
  { intros i Hin. unfold X. pose proof (Rabs_pos (nth i ys 0)). lra. }
  specialize (Eev Hev). exists e. do 2 eexists. cbv zeta. split.
  - rewrite EX. unfold bench_call. rewrite getneg_tab, Hhi by lia. cbn [bind]. unfold Rgtb. rewrite Rltb_true by exact He2.
    rewrite !Eev. cbn [bind]. reflexivity.
  - rewrite !tab_length. split; auto. split; auto. split; [auto|]. split.
    + intros j Hj. rewrite <- !Pos by lia. apply Hm. auto.
    + rewrite !nth_tab by lia. rewrite !Nat.ltb_irrefl, andb_false_r. cbn [andb]. split; auto. split; auto.
      intros i Hin N1 N2. rewrite !nth_tab by auto. unfold extended. fold (X i).
      assert (K : (X i <= hi) <-> (n - 1 - e < i < e)%nat).
      { destruct (Nat.lt_ge_cases i (n / 2)) as [L|L].
        - rewrite <- (S i Hin). split; intro Q.
          + destruct (Nat.lt_ge_cases (n - 1 - e) i); [lia|]. exfalso. pose proof (B (n - 1 - i)%nat ltac:(lia)). lra.
          + apply A. lia.
        - split; intro Q.
          + destruct (Nat.lt_ge_cases i e); [lia|]. exfalso. pose proof (B i ltac:(lia)). lra.
          + apply A. lia. }
      destruct (Rle_dec (X i) hi) as [Q|Q]; destruct (Nat.ltb_spec (n - 1 - e) i); destruct (Nat.ltb_spec i e); cbn [andb]; auto; exfalso; try (apply K in Q; lia).
      apply Q, K. lia.
Qed.
Print Assumptions C111_even.
Example C111_example : odd_points [-2; -(9/10); 9/10; 2] /\ Nat.Even (length [-2; -(9/10); 9/10; 2]) /\ odd_points [-2; -(11/10); 0; 11/10; 2].
Proof.
  unfold odd_points. split; [|split; [exists 2%nat; reflexivity|]].
  - split; intros i; [intros j Hij; cbn in Hij; destruct i as [|[|[|[|i]]]]; destruct j as [|[|[|[|j]]]]; try lia; cbn; lra|].
    intro Hi. cbn in Hi. destruct i as [|[|[|[|i]]]]; try lia; cbn; lra.
  - split; intros i; [intros j Hij; cbn in Hij; destruct i as [|[|[|[|[|i]]]]]; destruct j as [|[|[|[|[|j]]]]]; try lia; cbn; lra|].
    intro Hi. cbn in Hi. destruct i as [|[|[|[|[|i]]]]]; try lia; cbn; lra.
Qed.

(** An odd number of points: if the nearest point lies beyond the range the evaluation raises, otherwise the pair of
    nearest points gets two different treatments. *)
Theorem C111_odd b lo hi ys : range b lo hi -> lo <= 0 -> 0 <= hi -> odd_points ys -> (3 <= length ys)%nat -> Nat.Odd (length ys) ->
  hi < nth (length ys - 1) ys 0 ->
  exists e, let n := length ys in (n / 2 <= e < n - 1)%nat /\
    (forall j, (n / 2 <= j < n - 1)%nat -> Rabs (nth e ys 0 - hi) <= Rabs (nth j ys 0 - hi)) /\
    (hi < nth e ys 0 -> bench_call b (map Rabs ys) = Err ValueError) /\
    (nth e ys 0 <= hi -> exists p u, bench_call b (map Rabs ys) = Ok (p, u) /\
       ((n / 2 < e)%nat -> nth e p 0 = 0 /\ nth (n - 1 - e) p 0 = b_phi b (nth e ys 0))).
Proof.
  intros Hr Hl0 Hh0 Ho Hn Hodd Hend. destruct (range_get b lo hi Hr) as [Hlo Hhi].
  destruct (abs_points ys Ho) as (EX & S & M). set (n := length ys) in *. set (X := fun i => Rabs (nth i ys 0)) in *.
  change (forall i, (i < n)%nat -> X (n - 1 - i)%nat = X i) in S. change (forall i j, (n / 2 <= i < j)%nat -> (j < n)%nat -> X i < X j) in M.
  assert (H0n : (2 * (n / 2) + 1 = n)%nat). { destruct Hodd as [q Hq]. pose proof (Nat.div_mod n 2 ltac:(lia)). pose proof (Nat.mod_upper_bound n 2 ltac:(lia)). lia. }
  assert (He2 : hi < X (n - 1)%nat). { unfold X. eapply Rlt_le_trans; [exact Hend|]. apply Rle_abs. }
  assert (Mid : nth (n / 2) ys 0 = 0).
  { destruct Ho as [Hi Hs]. pose proof (Hs (n / 2)%nat ltac:(unfold n in *; lia)) as Q. fold n in Q. replace (n - 1 - n / 2)%nat with (n / 2)%nat in Q by lia. lra. }
  assert (Pos : forall i, (n / 2 <= i < n)%nat -> X i = nth i ys 0).
  { intros i Hin. unfold X. apply Rabs_pos_eq. destruct (Nat.eq_dec i (n / 2)) as [->|]; [lra|]. destruct Ho as [Hi Hs].
    pose proof (Hi (n / 2)%nat i ltac:(unfold n in *; lia)). lra. }
  destruct (stich_sym b lo hi Hlo Hhi n X ltac:(lia) S M) as (e & Hee & Hm & A & B & _ & E1 & E2); auto.
  { intros i Hin. unfold X. pose proof (Rabs_pos (nth i ys 0)). lra. }
  exists e. cbv zeta. split; [auto|]. split; [intros j Hj; rewrite <- !Pos by lia; apply Hm; auto|]. rewrite <- (Pos e) by lia.
  assert (C : bench_call b (tab n X) = (p <- stich b (b_phi b) (tab n X) ;; u <- stich b (b_phi_u b) (tab n X) ;; Ok (p, u))).
  { unfold bench_call. rewrite getneg_tab, Hhi by lia. cbn [bind]. unfold Rgtb. rewrite Rltb_true by exact He2. reflexivity. }
  rewrite EX, C. split.
  - intro H. rewrite E2; auto. destruct (Nat.eq_dec e (n / 2)) as [->|]; [|lia]. exfalso. rewrite Pos, Mid in H by lia. lra.
  - intro H. rewrite !E1 by auto. cbn [bind]. do 2 eexists. split; [reflexivity|]. intro Hlt. rewrite !nth_tab by lia.
    rewrite Nat.ltb_irrefl, andb_false_r, Nat.leb_refl. destruct (Nat.ltb_spec (n - 1 - e) e); [|lia]. cbn [andb].
    split; auto. rewrite (S e) by lia. reflexivity.
Qed.
Print Assumptions C111_odd.
Theorem C111_odd_refuted : exists b ys, range b 0 1 /\ odd_points ys /\ bench_call b (map Rabs ys) = Err ValueError.
Proof.
  exists unit_bench, [-2; -(11/10); 0; 11/10; 2]. destruct C110_example as [Hr _]. split; [auto|]. split; [apply C111_example|].
  destruct (C111_odd unit_bench 0 1 [-2; -(11/10); 0; 11/10; 2] Hr ltac:(lra) ltac:(lra) (proj2 (proj2 C111_example)) ltac:(cbn; lia)) as (e & He & M & H & _).
  - exists 2%nat. reflexivity.
  - cbn. lra.
  - apply H. cbn in He. specialize (M 3%nat ltac:(cbn; lia)). cbn [nth] in M. rewrite (Rabs_pos_eq (11/10 - 1)) in M by lra.
    destruct e as [|[|[|[|e]]]]; try (cbn in *; lia); cbn [nth] in *; try lra. rewrite Rabs_left1 in M by lra. lra.
Qed.
Print Assumptions C111_odd_refuted.

(** ** C112: the reported errors *)
Theorem C112_rms a b : length a = length b -> (1 <= length a)%nat ->
  exists r, rms a b = Ok r /\ 0 <= r /\ INR (length a) * r ^ 2 = rsum (map (fun x => x ^ 2) (map2 Rminus a b)) /\ (r = 0 <-> a = b).
Proof.
  intros Hl H1. pose proof (rms_value a b Hl H1) as E. eexists. split; [exact E|]. destruct (rms_same a b Hl H1 _ E) as [P Z].
  split; auto. split; auto. assert (Q : 0 < INR (length a)) by (apply lt_0_INR; lia).
  rewrite pow2_sqrt; [field; lra|]. apply Rmult_le_pos; [apply sq_sum_pos|left; apply Rinv_0_lt_compat; auto].
Qed.
Print Assumptions C112_rms.
Example C112_example : exists r, rms [1; 2] [1; 4] = Ok r /\ r ^ 2 = 2.
Proof.
  destruct (C112_rms [1; 2] [1; 4] eq_refl ltac:(cbn; lia)) as (r & E & _ & S & _). exists r. split; auto. cbn in S. lra.
Qed.

(** thermal_couple is a dictionary in every loaded configuration; then no error is ever assigned. *)
Theorem C112_never_finishes d sc w sigma x00 t c bm xs phi e : bench_errors (PyDict d) sc w sigma x00 t c bm xs phi e = Err UnboundLocal.
Proof. reflexivity. Qed.
Print Assumptions C112_never_finishes.
Theorem C112_other_types full s2r s2m bt : bt <> "full"%string -> bt <> "S2"%string -> choose_bench full s2r s2m bt = Err UnboundLocal.
Proof. intros H1 H2. unfold choose_bench. apply String.eqb_neq in H1, H2. now rewrite H1, H2. Qed.
Print Assumptions C112_other_types.
Example C112_other_example full s2r s2m : choose_bench full s2r s2m "Full" = Err UnboundLocal.
Proof. apply C112_other_types; discriminate. Qed.

(** Without thermal coupling the error compares the flux with the (scaled) benchmark at the same points. *)
Theorem C112_transport (sc : bool) w sigma x00 t c b m lo hi xs phi e : range b lo hi -> (1 <= length xs)%nat -> length phi = length xs ->
  (forall x, In x xs -> lo <= Rabs (if sc then x * c else x) <= hi) ->
  bench_errors (PyInt 0) sc w sigma x00 t c (b, m) xs phi e =
    (r <- rms phi (map (fun x => if sc then c * exp (- (1 - c) * t) * b_phi b (Rabs (x * c)) else b_phi b (Rabs x)) xs) ;; Ok (r, None)).
Proof.
  intros Hr Hn Hp Hx. unfold bench_errors. cbn [py_eq_int Z.eqb fst]. destruct sc.
  - rewrite (C110_inside b lo hi); auto.
    + cbn [bind fst]. unfold vscale. rewrite !map_map. reflexivity.
    + unfold vscale. rewrite !map_length. auto.
    + intros y Hy. apply in_map_iff in Hy as (x & <- & Hy). unfold vscale in Hy. apply in_map_iff in Hy as (z & <- & Hz). apply Hx; auto.
  - rewrite (C110_inside b lo hi); auto.
    + cbn [bind fst]. rewrite !map_map. reflexivity.
    + rewrite !map_length. auto.
    + intros y Hy. apply in_map_iff in Hy as (x & <- & Hy). apply Hx; auto.
Qed.
Print Assumptions C112_transport.

(** With thermal coupling and Lobatto directions the table is compared row by row, whatever the positions: moving the
    points changes nothing. *)
Theorem C112_table_ignores_positions sc sigma x00 t c b m xs xs' phi e r r' : sigma <> 300 -> x00 <> 400 ->
  bench_call b (map Rabs xs) = Ok r -> bench_call b (map Rabs xs') = Ok r' ->
  bench_errors (PyInt 1) sc "gauss_lobatto" sigma x00 t c (b, m) xs phi e = bench_errors (PyInt 1) sc "gauss_lobatto" sigma x00 t c (b, m) xs' phi e.
Proof.
  intros H1 H2 E E'. unfold bench_errors. cbn [py_eq_int Z.eqb fst snd]. rewrite (Reqb_false _ _ H1), (Reqb_false _ _ H2).
  cbn [String.eqb Ascii.eqb Bool.eqb negb andb]. rewrite E, E'. cbn [bind]. reflexivity.
Qed.
Print Assumptions C112_table_ignores_positions.
(** without a table (any time but 1 and 31.6228) this raises *)
Theorem C112_no_table sc sigma x00 t c b m xs phi e r : sigma <> 300 -> x00 <> 400 -> b_e b = None ->
  bench_call b (map Rabs xs) = Ok r -> bench_errors (PyInt 1) sc "gauss_lobatto" sigma x00 t c (b, m) xs phi e = Err TypeError.
Proof.
  intros H1 H2 Hb E. unfold bench_errors. cbn [py_eq_int Z.eqb fst snd]. rewrite (Reqb_false _ _ H1), (Reqb_false _ _ H2).
  cbn [String.eqb Ascii.eqb Bool.eqb negb andb]. rewrite E, Hb. reflexivity.
Qed.
Print Assumptions C112_no_table.

(** with Legendre directions both S2 benchmarks are used, radiation for the flux and material for the energy;
    with the benchmark kind 'full' there is no material benchmark and the name is unbound *)
Theorem C112_s2 sc sigma x00 t c b m lo hi lo' hi' xs phi e : range b lo hi -> range m lo' hi' -> (1 <= length xs)%nat ->
  (forall x, In x xs -> lo <= Rabs x <= hi) -> (forall x, In x xs -> lo' <= Rabs x <= hi') ->
  bench_errors (PyInt 1) sc "gauss_legendre" sigma x00 t c (b, Some m) xs phi e =
    (r <- rms phi (map (fun x => b_phi b (Rabs x)) xs) ;; q <- rms e (map (fun x => b_phi m (Rabs x)) xs) ;; Ok (r, Some q)) /\
  bench_errors (PyInt 1) sc "gauss_legendre" sigma x00 t c (b, None) xs phi e = Err UnboundLocal.
Proof.
  intros Hb Hm Hn Hx Hy. unfold bench_errors. cbn [py_eq_int Z.eqb fst snd String.eqb Ascii.eqb Bool.eqb negb andb orb].
  rewrite (C110_inside b lo hi (map Rabs xs)); auto; [|rewrite map_length; auto|intros y Q; apply in_map_iff in Q as (x & <- & Q); auto].
  rewrite (C110_inside m lo' hi' (map Rabs xs)); auto; [|rewrite map_length; auto|intros y Q; apply in_map_iff in Q as (x & <- & Q); auto].
  cbn [bind fst snd]. rewrite !map_map. auto.
Qed.
Print Assumptions C112_s2.
(** arrays of different lengths, neither of length one, cannot be compared *)
Theorem C112_lengths a b : length a <> length b -> length a <> 1%nat -> length b <> 1%nat -> rms a b = Err ValueError.
Proof.
  intros H1 H2 H3. unfold rms, vsub, vop. apply Nat.eqb_neq in H1. rewrite H1.
  destruct a as [|x [|y a]]; destruct b as [|z [|w b]]; cbn in *; try congruence; reflexivity.
Qed.
Print Assumptions C112_lengths.
Example C112_lengths_example : rms [1; 2] [1; 2; 3] = Err ValueError.
Proof. apply C112_lengths; discriminate. Qed.

(** ** C113: the scaling of the reference with the scattering ratio *)
(** [psi l x t] solves the transport equations with directions mu and scattering gain c * sum_j g_j psi_j *)
Definition transports (N : nat) (mu g : nat -> R) (c : R) (psi : nat -> R -> R -> R) : Prop :=
  forall l x t, (l < N)%nat -> exists dt dx : R, is_derive (fun s => psi l x s) t dt /\ is_derive (fun y => psi l y t) x dx /\
    dt + mu l * dx + psi l x t = c * sumn N (fun j => g j * psi j x t).
Theorem C113_scaling N mu g psi c : transports N mu g 1 psi ->
  transports N mu g c (fun l x t => c * exp (- (1 - c) * t) * psi l (x * c) (t * c)).
Proof.
  intros H l x t Hl. destruct (H l (x * c) (t * c) Hl) as (dt & dx & D1 & D2 & E).
  exists (c * (- (1 - c) * exp (- (1 - c) * t)) * psi l (x * c) (t * c) + c * exp (- (1 - c) * t) * (c * dt)), (c * exp (- (1 - c) * t) * (c * dx)).
  split; [|split].
  - apply (is_derive_ext (fun s => (c * exp (- (1 - c) * s)) * psi l (x * c) (s * c))); [reflexivity|].
    assert (A : is_derive (fun s => c * exp (- (1 - c) * s)) t (c * (- (1 - c) * exp (- (1 - c) * t)))) by (auto_derive; [auto|ring]).
    assert (B : is_derive (fun s => psi l (x * c) (s * c)) t (c * dt)).
    { replace (c * dt) with (scal c dt) by reflexivity. apply (is_derive_comp (fun y => psi l (x * c) y) (fun s => s * c)); [exact D1|auto_derive; [auto|ring]]. }
    pose proof (is_derive_mult (fun s => c * exp (- (1 - c) * s)) (fun s => psi l (x * c) (s * c)) t _ _ A B ltac:(intros; apply Rmult_comm)) as C. exact C.
  - assert (B : is_derive (fun y => psi l (y * c) (t * c)) x (c * dx)).
    { replace (c * dx) with (scal c dx) by reflexivity. apply (is_derive_comp (fun y => psi l y (t * c)) (fun s => s * c)); [exact D2|auto_derive; [auto|ring]]. }
    apply (is_derive_scal (fun y => psi l (y * c) (t * c)) x (c * exp (- (1 - c) * t)) (c * dx) B).
  - rewrite (sumn_ext N (fun j => g j * (c * exp (- (1 - c) * t) * psi j (x * c) (t * c))) (fun j => (c * exp (- (1 - c) * t)) * (g j * psi j (x * c) (t * c)))) by (intros; ring).
    rewrite sumn_scal. rewrite Rmult_1_l in E. rewrite <- E. ring.
Qed.
Print Assumptions C113_scaling.

(** so the reference values of a scaled comparison are the flux of the problem being solved *)
Theorem C113_reference N mu g w psi c t b lo hi m xs phi e wts sigma x00 : transports N mu g 1 psi -> range b lo hi ->
  (forall x, lo <= Rabs x <= hi -> b_phi b (Rabs x) = sumn N (fun j => w j * psi j x (t * c))) ->
  (1 <= length xs)%nat -> length phi = length xs -> (forall x, In x xs -> lo <= Rabs (x * c) <= hi) ->
  exists psi_c, transports N mu g c psi_c /\ (forall l x, psi_c l x 0 = c * psi l (x * c) 0) /\
   bench_errors (PyInt 0) true wts sigma x00 t c (b, m) xs phi e =
    (r <- rms phi (map (fun x => sumn N (fun j => w j * psi_c j x t)) xs) ;; Ok (r, None)).
Proof.
  intros H Hr Hb Hn Hp Hx. exists (fun l x s => c * exp (- (1 - c) * s) * psi l (x * c) (s * c)). split; [apply C113_scaling; auto|]. split.
  - intros l x. rewrite !Rmult_0_r, Rmult_0_l, exp_0. ring.
  - rewrite (C112_transport true wts sigma x00 t c b m lo hi) by auto. f_equal. f_equal. apply map_ext_in. intros x Hin. rewrite Hb by auto.
    rewrite <- sumn_scal. apply sumn_ext. intros. ring.
Qed.
Print Assumptions C113_reference.
(** a solution exists: a spatially constant one *)
Example C113_example : transports 1 (fun _ => 1) (fun _ => 1/2) 1 (fun _ _ t => exp (- (1/2) * t)).
Proof.
  intros l x t Hl. exists (- (1/2) * exp (- (1/2) * t)), 0. split; [auto_derive; [auto|ring]|]. split; [apply is_derive_Reals, derivable_pt_lim_const|]. cbn. lra.
Qed.
