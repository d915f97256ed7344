From Coq Require Import Sorted Permutation Ranalysis5.
From Coquelicot Require Import Coquelicot.
From Verif Require Import Py PyLemmas Calc Legendre Cheb DGModel DGSpec DGProofs FuncModel.
Open Scope R_scope.

(* ------------------------------------------------------------------ derivative table *)
Lemma dx_table n x a b : (n <= 11)%nat -> a <> b ->
  dx_normPn n x a b = dleg n ((2 * x - a - b) / (b - a)) * sqrt ((2 * INR n + 1) / (b - a)).
Proof.
  intros Hn Hab. unfold dx_normPn. cbv zeta.
  replace ((b + a - 2 * x) / (a - b)) with ((2 * x - a - b) / (b - a)) by (field; split; lra).
  generalize ((2 * x - a - b) / (b - a)) as z. intro z. f_equal.
  assert (L : forall k, leg (S (S k)) z = ((2 * INR k + 3) * z * leg (S k) z - (INR k + 1) * leg k z) / (INR k + 2)) by (intro; apply leg_SS).
  do 12 (destruct n as [|n]; [repeat rewrite ?dleg_SS, ?dleg_1, ?dleg_0; repeat rewrite ?leg_SS, ?leg_1, ?leg_0; simpl INR; field|]); lia.
Qed.

(* ------------------------------------------------------------------ Chebyshev rule *)
Lemma rsum_map_seq (f : nat -> R) a n : rsum (map f (seq a n)) = sumn n (fun i => f (a + i)%nat).
Proof.
  rewrite <- (rsum_tab n (fun i => f (a + i)%nat)). unfold tab. f_equal.
  revert a. induction n as [|n IH]; intro a; [reflexivity|]. cbn [seq map]. rewrite Nat.add_0_r. f_equal.
  rewrite IH, <- seq_shift, map_map. apply map_ext. intro i. f_equal. lia.
Qed.
Lemma qsum_cheb n v : qsum (quadrature_chebyshev n) v = sumn n (fun k => PI / INR n * v (cheb_node n (1 + k)%nat)).
Proof. unfold qsum, quadrature_chebyshev. rewrite map_map. cbn [fst snd]. apply rsum_map_seq. Qed.
Lemma node_angle n k : (0 < n)%nat -> (2 * INR (1 + k) - 1) / 2 / INR n * PI = (2 * INR k + 1) * (PI / (2 * INR n)).
Proof. intro H. rewrite plus_INR. simpl (INR 1). field. apply not_0_INR. lia. Qed.
Lemma cos_sum n m : (0 < m < 2 * n)%nat -> sumn n (fun k => cos (INR m * ((2 * INR k + 1) * (PI / (2 * INR n))))) = 0.
Proof.
  intros H. assert (Pn : 0 < INR n) by (apply lt_0_INR; lia). assert (Pm : 0 < INR m) by (apply lt_0_INR; lia).
  pose proof PI_RGT_0 as PP.
  pose (h := INR m * (PI / (2 * INR n))).
  assert (Hh : 0 < h < PI).
  { unfold h. assert (HH : INR m < 2 * INR n) by (replace (2 * INR n) with (INR (2 * n)) by (rewrite mult_INR; reflexivity); apply lt_INR; lia).
    assert (Q : 0 < PI / (2 * INR n)) by (apply Rdiv_lt_0_compat; lra).
    split; [apply Rmult_lt_0_compat; auto|]. apply Rlt_le_trans with (2 * INR n * (PI / (2 * INR n))); [apply Rmult_lt_compat_r; auto|].
    right. field. lra. }
  pose proof (sin_gt_0 h (proj1 Hh) (proj2 Hh)) as Sp.
  apply (Rmult_eq_reg_l (2 * sin h)); [|lra]. rewrite Rmult_0_r, <- sumn_scal.
  rewrite (sumn_ext _ _ (fun k => sin (2 * INR (S k) * h) - sin (2 * INR k * h))).
  - rewrite (sumn_telescope n (fun k => sin (2 * INR k * h))). simpl (INR 0). rewrite Rmult_0_r, Rmult_0_l, sin_0.
    replace (2 * INR n * h) with (INR m * PI) by (unfold h; field; lra).
    assert (Z : forall k, sin (INR k * PI) = 0). { intro k. rewrite INR_IZR_INZ. apply sin_eq_0_1. eexists. reflexivity. }
    rewrite Z. ring.
  - intros k _. rewrite S_INR. 
    replace (2 * (INR k + 1) * h) with ((2 * INR k + 1) * h + h) by ring. replace (2 * INR k * h) with ((2 * INR k + 1) * h - h) by ring.
    rewrite sin_plus, sin_minus. replace (INR m * ((2 * INR k + 1) * (PI / (2 * INR n)))) with ((2 * INR k + 1) * h) by (unfold h; ring). ring.
Qed.
(** exactness on x^k T_m, and the integrals over the angle *)
Definition cheb_exact (n : nat) (v : R -> R) : Prop := is_RInt (fun th => v (cos th)) 0 PI (qsum (quadrature_chebyshev n) v).
Lemma exact_T n m : (m < 2 * n)%nat -> cheb_exact n (cheb m).
Proof.
  intros H. unfold cheb_exact. rewrite qsum_cheb.
  apply (int_ext (fun th => cos (INR m * th))); [intro; now rewrite cheb_cos|].
  rewrite (sumn_ext _ _ (fun k => PI / INR n * cos (INR m * ((2 * INR k + 1) * (PI / (2 * INR n)))))).
  2: { intros k _. unfold cheb_node. rewrite node_angle by lia. now rewrite cheb_cos. }
  rewrite sumn_scal. assert (Pn : INR n <> 0) by (apply not_0_INR; lia).
  destruct m as [|m].
  - rewrite (sumn_ext _ _ (fun _ => 1 * 1)). 2: { intros. simpl (INR 0). rewrite Rmult_0_l, cos_0. ring. }
    assert (SN : forall q, sumn q (fun _ => 1 * 1) = INR q) by (induction q as [|q IH]; [reflexivity|cbn [sumn]; rewrite IH, S_INR; ring]).
    rewrite SN. apply (int_ext (fun _ => 1)); [intro; simpl (INR 0); now rewrite Rmult_0_l, cos_0|].
    eapply int_eq; [apply int_const|]. field. auto.
  - rewrite cos_sum by lia. rewrite Rmult_0_r. assert (Pm : INR (S m) <> 0) by (apply not_0_INR; lia).
    eapply int_eq; [apply (int_ftc (fun th => sin (INR (S m) * th) / INR (S m)))|].
    + intro z. eapply dd_eq; [apply dd_divc; apply (dd_comp sin (fun th => INR (S m) * th)); [apply is_derive_Reals, derivable_pt_lim_sin|apply dd_scal, dd_id]|].
      field. auto.
    + intro z. apply (ccomp cos (fun th => INR (S m) * th)); [auto with cont|]. apply continuity_pt_filterlim. apply continuity_cos.
    + cbv beta. rewrite Rmult_0_r, sin_0. rewrite INR_IZR_INZ. rewrite (sin_eq_0_1 (IZR (Z.of_nat (S m)) * PI)) by (eexists; reflexivity).
      field. rewrite <- INR_IZR_INZ. auto.
Qed.
Lemma exact_lin n u v p q : cheb_exact n u -> cheb_exact n v -> cheb_exact n (fun z => p * u z + q * v z).
Proof.
  unfold cheb_exact. intros Hu Hv. rewrite qsum_cheb in *.
  rewrite (sumn_ext _ _ (fun k => p * (PI / INR n * u (cheb_node n (1 + k))) + q * (PI / INR n * v (cheb_node n (1 + k))))) by (intros; ring).
  rewrite sumn_plus, !sumn_scal. rewrite sumn_scal in Hu, Hv. apply int_plus; now apply int_scal.
Qed.
Lemma exact_ext n u v : (forall z, u z = v z) -> cheb_exact n u -> cheb_exact n v.
Proof.
  unfold cheb_exact. intros E Hu. rewrite qsum_cheb in *. 
  rewrite (sumn_ext _ _ (fun k => PI / INR n * u (cheb_node n (1 + k)))) by (intros; now rewrite E).
  eapply int_ext; [|exact Hu]. intro; cbv beta. now rewrite E.
Qed.
Lemma cheb_x m z : z * cheb (S m) z = 1 / 2 * cheb (S (S m)) z + 1 / 2 * cheb m z.
Proof. rewrite cheb_SS. field. Qed.
Lemma exact_xT n k : forall m, (k + m < 2 * n)%nat -> cheb_exact n (fun z => z ^ k * cheb m z).
Proof.
  induction k as [|k IH]; intros m H.
  - apply (exact_ext n (cheb m)); [intro; simpl; ring|]. apply exact_T. lia.
  - destruct m as [|m].
    + apply (exact_ext n (fun z => z ^ k * cheb 1 z)); [intro; rewrite cheb_0, cheb_1; simpl; ring|]. apply IH. lia.
    + apply (exact_ext n (fun z => 1 / 2 * (z ^ k * cheb (S (S m)) z) + 1 / 2 * (z ^ k * cheb m z))).
      * intro z. rewrite cheb_SS. simpl. field.
      * apply exact_lin; apply IH; lia.
Qed.
(** polynomials by their coefficients *)
Definition poly (c : nat -> R) (d : nat) (z : R) : R := sumn (S d) (fun k => c k * z ^ k).
Lemma exact_poly n c d : (d < 2 * n)%nat -> cheb_exact n (poly c d).
Proof.
  intros H. assert (G : forall e, (e <= S d)%nat -> cheb_exact n (fun z => sumn e (fun k => c k * z ^ k))).
  { induction e as [|e IH]; intro He.
    - apply (exact_ext n (fun z => 0 * cheb 0 z + 0 * cheb 0 z)); [intro; simpl; ring|]. apply exact_lin; apply exact_T; lia.
    - cbn [sumn]. apply (exact_ext n (fun z => 1 * sumn e (fun k => c k * z ^ k) + c e * (z ^ e * cheb 0 z))); [intro; rewrite cheb_0; ring|].
      apply exact_lin; [apply IH; lia|apply exact_xT; lia]. }
  apply G. lia.
Qed.
(** the rule misses degree 2n: it returns -pi for T_2n whose integral is 0 *)
Lemma not_exact_2n n : (0 < n)%nat -> qsum (quadrature_chebyshev n) (cheb (2 * n)) = - PI /\ is_RInt (fun th => cheb (2 * n) (cos th)) 0 PI 0.
Proof.
  intros H. assert (Pn : INR n <> 0) by (apply not_0_INR; lia). split.
  - rewrite qsum_cheb. rewrite (sumn_ext _ _ (fun k => PI / INR n * (- (1)))).
    + rewrite (sumn_ext _ _ (fun k => - (PI / INR n) * 1)) by (intros; ring). rewrite sumn_scal.
      assert (SN : forall q, sumn q (fun _ => 1) = INR q) by (induction q as [|q IH]; [reflexivity|cbn [sumn]; rewrite IH, S_INR; ring]).
      rewrite SN. field. auto.
    + intros k _. f_equal. unfold cheb_node. rewrite node_angle, cheb_cos, mult_INR by lia. change (INR 2) with 2.
      replace (2 * INR n * ((2 * INR k + 1) * (PI / (2 * INR n)))) with (PI + 2 * INR k * PI) by (field; auto).
      rewrite cos_period. apply cos_PI.
  - eapply int_eq; [apply (exact_T (S n) (2 * n)); lia|]. rewrite qsum_cheb, sumn_scal.
    rewrite (sumn_ext _ _ (fun k => cos (INR (2 * n) * ((2 * INR k + 1) * (PI / (2 * INR (S n))))))).
    + rewrite cos_sum by lia. ring.
    + intros k _. unfold cheb_node. rewrite node_angle by lia. now rewrite cheb_cos.
Qed.

(* ------------------------------------------------------------------ nodes *)
Lemma ang_in n i : (1 <= i <= n)%nat -> 0 < (2 * INR i - 1) / 2 / INR n * PI < PI.
Proof.
  intros H. assert (Pn : 0 < INR n) by (apply lt_0_INR; lia). pose proof PI_RGT_0.
  assert (1 <= INR i) by (change 1 with (INR 1); apply le_INR; lia). assert (INR i <= INR n) by (apply le_INR; lia).
  assert (Q : 0 < PI / INR n) by (apply Rdiv_lt_0_compat; lra).
  replace ((2 * INR i - 1) / 2 / INR n * PI) with ((INR i - 1 / 2) * (PI / INR n)) by (field; lra).
  split; [apply Rmult_lt_0_compat; lra|]. apply Rlt_le_trans with (INR n * (PI / INR n)); [apply Rmult_lt_compat_r; lra|]. right. field. lra.
Qed.
Lemma node_in n i : (1 <= i <= n)%nat -> -1 < cheb_node n i < 1.
Proof.
  intros H. pose proof (ang_in n i H) as [A B]. unfold cheb_node. revert A B. generalize ((2 * INR i - 1) / 2 / INR n * PI). intros u A B. split.
  - rewrite <- cos_PI. apply cos_decreasing_1; lra.
  - rewrite <- cos_0. apply cos_decreasing_1; lra.
Qed.
Lemma node_decr n i j : (1 <= i)%nat -> (i < j)%nat -> (j <= n)%nat -> cheb_node n j < cheb_node n i.
Proof.
  intros Hi Hij Hj. pose proof (ang_in n i ltac:(lia)) as [A B]. pose proof (ang_in n j ltac:(lia)) as [C D]. unfold cheb_node.
  apply cos_decreasing_1; try lra. pose proof PI_RGT_0. assert (Pn : 0 < INR n) by (apply lt_0_INR; lia).
  apply Rmult_lt_compat_r; auto. apply Rmult_lt_compat_r; [apply Rinv_0_lt_compat; auto|]. apply lt_INR in Hij. lra.
Qed.
Lemma node_sym n i : (1 <= i <= n)%nat -> cheb_node n (n + 1 - i) = - cheb_node n i.
Proof.
  intros H. assert (Pn : 0 < INR n) by (apply lt_0_INR; lia). unfold cheb_node. rewrite minus_INR, plus_INR by lia. simpl (INR 1).
  replace ((2 * (INR n + 1 - INR i) - 1) / 2 / INR n * PI) with (- ((2 * INR i - 1) / 2 / INR n * PI) + PI) by (field; lra).
  rewrite Rtrigo1.neg_cos, cos_neg. reflexivity.
Qed.
Lemma cheb_weights n : (0 < n)%nat -> rsum (map snd (quadrature_chebyshev n)) = PI /\
  List.Forall (fun p => 0 < snd p /\ -1 < fst p < 1) (quadrature_chebyshev n) /\ length (quadrature_chebyshev n) = n.
Proof.
  intros H. assert (Pn : 0 < INR n) by (apply lt_0_INR; lia). pose proof PI_RGT_0. split; [|split].
  - unfold quadrature_chebyshev. rewrite map_map. cbn [snd]. rewrite rsum_map_seq.
    rewrite (sumn_ext _ _ (fun _ => PI / INR n * 1)) by (intros; ring). rewrite sumn_scal.
    assert (SN : forall q, sumn q (fun _ => 1) = INR q) by (induction q as [|q IH]; [reflexivity|cbn [sumn]; rewrite IH, S_INR; ring]).
    rewrite SN. field. lra.
  - apply Forall_forall. intros p Hp. unfold quadrature_chebyshev in Hp. apply in_map_iff in Hp as (i & <- & Hi). apply in_seq in Hi.
    cbn [fst snd]. split; [apply Rdiv_lt_0_compat; lra|]. apply node_in. lia.
  - unfold quadrature_chebyshev. now rewrite map_length, seq_length.
Qed.

(* ------------------------------------------------------------------ np.sort *)
Lemma insert_perm x l : Permutation (insert x l) (x :: l).
Proof. induction l as [|y r IH]; [reflexivity|]. cbn [insert]. destruct (Rleb x y); [reflexivity|]. rewrite IH. constructor. Qed.
Lemma sort_perm l : Permutation (np_sort l) l.
Proof. induction l as [|x r IH]; [reflexivity|]. cbn [np_sort]. rewrite insert_perm. now constructor. Qed.
Lemma insert_sorted x l : StronglySorted Rle l -> StronglySorted Rle (insert x l).
Proof.
  induction l as [|y r IH]; intro H; [repeat constructor|]. cbn [insert]. inversion H as [|? ? Hr Hf]; subst.
  destruct (Rleb_spec x y) as [L|L].
  - constructor; auto. constructor; auto. eapply Forall_impl; [|exact Hf]. intros; cbv beta in *. lra.
  - constructor; auto. eapply Permutation_Forall; [symmetry; apply insert_perm|]. constructor; auto. lra.
Qed.
Lemma sort_sorted l : StronglySorted Rle (np_sort l).
Proof. induction l as [|x r IH]; [constructor|]. now apply insert_sorted. Qed.
Lemma sort_strict l : NoDup l -> StronglySorted Rlt (np_sort l).
Proof.
  intros H. assert (N : NoDup (np_sort l)) by (eapply Permutation_NoDup; [symmetry; apply sort_perm|auto]).
  pose proof (sort_sorted l) as S. induction S as [|x r S IH F]; constructor.
  - apply IH. now inversion N.
  - inversion N as [|? ? Hn ?]; subst. rewrite Forall_forall in *. intros y Hy. specialize (F y Hy).
    destruct (Req_dec x y) as [->|]; [contradiction|lra].
Qed.
Lemma cell_nodes_in q xL xR : xL < xR -> List.Forall (fun z => -1 < z < 1) q -> List.Forall (fun x => xL < x < xR) (cell_nodes q xL xR).
Proof.
  intros H F. unfold cell_nodes. rewrite Forall_forall in *. intros x Hx. apply in_map_iff in Hx as (z & <- & Hz). specialize (F z Hz).
  replace (xL + (z + 1) * (xR - xL) / 2) with (xL + (z + 1) / 2 * (xR - xL)) by field. split.
  - assert (0 < (z + 1) / 2 * (xR - xL)) by (apply Rmult_lt_0_compat; lra). lra.
  - assert (0 < (1 - z) / 2 * (xR - xL)) by (apply Rmult_lt_0_compat; lra). lra.
Qed.
Lemma cell_nodes_sorted q xL xR : xL < xR -> StronglySorted Rlt q -> StronglySorted Rlt (cell_nodes q xL xR).
Proof.
  intros H S. induction S as [|z r S IH F]; [constructor|]. cbn. constructor; auto.
  rewrite Forall_forall in *. intros x Hx. apply in_map_iff in Hx as (w & <- & Hw). specialize (F w Hw).
  assert (0 < (w - z) * (xR - xL)) by (apply Rmult_lt_0_compat; lra). lra.
Qed.
Lemma cell_nodes_inj xL xR : xL < xR -> forall z w, xL + (z + 1) * (xR - xL) / 2 = xL + (w + 1) * (xR - xL) / 2 -> z = w.
Proof. intros H z w E. apply (Rmult_eq_reg_r (xR - xL)); lra. Qed.
Lemma cheb_fst_nodup n : NoDup (map fst (quadrature_chebyshev n)).
Proof.
  unfold quadrature_chebyshev. rewrite map_map. cbn [fst].
  assert (G : forall l, (forall i, In i l -> (1 <= i <= n)%nat) -> NoDup l -> NoDup (map (fun i => cheb_node n i) l)).
  { induction l as [|i l IH]; intros Hl Hn; [constructor|]. inversion Hn; subst. cbn [map]. constructor; [|apply IH; auto; intros; apply Hl; right; auto].
    intro Hin. apply in_map_iff in Hin as (j & E & Hj). pose proof (Hl i (or_introl eq_refl)). pose proof (Hl j (or_intror Hj)).
    destruct (lt_eq_lt_dec i j) as [[L|L]|L].
    - pose proof (node_decr n i j ltac:(lia) L ltac:(lia)). lra.
    - subst. contradiction.
    - pose proof (node_decr n j i ltac:(lia) L ltac:(lia)). lra. }
  apply G; [intros i Hi; apply in_seq in Hi; lia|apply seq_NoDup].
Qed.
Lemma nodup_map {A B} (f : A -> B) l : (forall x y, f x = f y -> x = y) -> NoDup l -> NoDup (map f l).
Proof.
  intros Hf Hn. induction Hn as [|x l Hx Hn IH]; [constructor|]. cbn [map]. constructor; auto.
  intro H. apply in_map_iff in H as (y & E & Hy). apply Hf in E. subst. contradiction.
Qed.
Lemma sphere_block n xL xR : (0 < n)%nat -> xL < xR -> let B := np_sort (cell_nodes (map fst (quadrature_chebyshev n)) xL xR) in
  StronglySorted Rlt B /\ List.Forall (fun x => xL < x < xR) B /\ length B = n.
Proof.
  intros Hn H B. assert (P : Permutation B (cell_nodes (map fst (quadrature_chebyshev n)) xL xR)) by apply sort_perm.
  split; [|split].
  - apply sort_strict. apply nodup_map; [now apply cell_nodes_inj|apply cheb_fst_nodup].
  - eapply Permutation_Forall; [symmetry; exact P|]. apply cell_nodes_in; auto.
    rewrite Forall_map. eapply Forall_impl; [|apply cheb_weights; auto]. intros a Ha. apply Ha.
  - rewrite (Permutation_length P). unfold cell_nodes, quadrature_chebyshev. now rewrite !map_length, seq_length.
Qed.
(** what leggauss provides *)
Definition gauss_nodes (lg : nat -> list (R * R)) : Prop := forall n, (0 < n)%nat ->
  length (lg n) = n /\ StronglySorted Rlt (map fst (lg n)) /\ List.Forall (fun p => -1 < fst p < 1) (lg n).
Lemma slab_block lg n xL xR : gauss_nodes lg -> (0 < n)%nat -> xL < xR -> let B := cell_nodes (map fst (lg n)) xL xR in
  StronglySorted Rlt B /\ List.Forall (fun x => xL < x < xR) B /\ length B = n.
Proof.
  intros G Hn H B. destruct (G n Hn) as (L & S & F). split; [|split].
  - now apply cell_nodes_sorted.
  - apply cell_nodes_in; auto. now rewrite Forall_map.
  - unfold B, cell_nodes. now rewrite !map_length.
Qed.
Lemma blocks_len f (ixx : nat) : (forall xL xR, xL < xR -> length (f xL xR) = ixx) -> forall edges, StronglySorted Rlt edges ->
  length (blocks f edges) = (ixx * (length edges - 1))%nat.
Proof.
  intros Hf edges S. induction S as [|x r S IH F]; [simpl; lia|]. destruct r as [|y r]; [simpl; lia|].
  cbn [blocks]. rewrite app_length. cbn [blocks] in IH. rewrite IH. inversion F; subst. rewrite Hf by auto. cbn [length]. nia.
Qed.
Lemma blocks_nth f (ixx : nat) : (forall xL xR, xL < xR -> length (f xL xR) = ixx /\ List.Forall (fun x => xL < x < xR) (f xL xR)) ->
  forall edges, StronglySorted Rlt edges -> forall k i, (S k < length edges)%nat -> (i < ixx)%nat ->
  nth (k * ixx + i) (blocks f edges) 0 = nth i (f (nth k edges 0) (nth (S k) edges 0)) 0 /\
  nth k edges 0 < nth (k * ixx + i) (blocks f edges) 0 < nth (S k) edges 0.
Proof.
  intros Hf edges S k i Hk Hi.
  assert (E : nth (k * ixx + i) (blocks f edges) 0 = nth i (f (nth k edges 0) (nth (Datatypes.S k) edges 0)) 0 /\ nth k edges 0 < nth (Datatypes.S k) edges 0).
  { revert k Hk. induction S as [|x r S IH F]; intros k Hk; [simpl in Hk; lia|]. destruct r as [|y r]; [simpl in Hk; lia|].
    inversion F; subst. destruct (Hf x y ltac:(auto)) as [L _].
    destruct k as [|k].
    - cbn [nth blocks]. rewrite app_nth1 by lia. auto.
    - cbn [blocks]. rewrite app_nth2 by (rewrite L; nia). rewrite L.
      replace (Datatypes.S k * ixx + i - ixx)%nat with (k * ixx + i)%nat by nia.
      specialize (IH k ltac:(cbn [length] in *; lia)). cbn [blocks] in IH. exact IH. }
  destruct E as [E L]. split; auto. rewrite E. destruct (Hf _ _ L) as [Ln Fa]. rewrite Forall_forall in Fa. apply Fa. apply nth_In. lia.
Qed.
Lemma blocks_sorted f : (forall xL xR, xL < xR -> StronglySorted Rlt (f xL xR) /\ List.Forall (fun x => xL < x < xR) (f xL xR)) ->
  forall edges, StronglySorted Rlt edges -> StronglySorted Rlt (blocks f edges).
Proof.
  intros Hf edges S.
  assert (G : StronglySorted Rlt (blocks f edges) /\ forall x, (exists r, edges = x :: r) -> List.Forall (fun y => x < y) (blocks f edges)).
  { induction S as [|x r S [IH1 IH2] F]; [split; [constructor|intros ? (? & ?); discriminate]|].
    destruct r as [|y r]; [split; [constructor|intros; constructor]|].
    inversion F; subst. destruct (Hf x y ltac:(auto)) as [S1 F1]. cbn [blocks]. specialize (IH2 y (ex_intro _ r eq_refl)). cbn [blocks] in IH1, IH2.
    split.
    - revert S1 F1. generalize (f x y). intros l S1 F1. induction S1 as [|z l S1 IHl Fl]; [exact IH1|]. cbn [app]. inversion F1; subst. constructor.
      + apply IHl; auto.
      + apply Forall_app. split; auto. eapply Forall_impl; [|exact IH2]. intros; cbv beta in *; lra.
    - intros w (? & E). injection E as <- <-. apply Forall_app. split.
      + eapply Forall_impl; [|exact F1]. intros; cbv beta in *; lra.
      + eapply Forall_impl; [|exact IH2]. intros; cbv beta in *; lra. }
  apply G.
Qed.

(* ------------------------------------------------------------------ projections *)
Lemma qsum_lin q u v p r : qsum q (fun z => p * u z + r * v z) = p * qsum q u + r * qsum q v.
Proof. unfold qsum. induction q as [|[x w] q IH]; cbn; [ring|]. unfold rsum in IH |- *. rewrite IH. ring. Qed.
Lemma qsum_ext q u v : (forall z, u z = v z) -> qsum q u = qsum q v.
Proof. intro E. unfold qsum. f_equal. apply map_ext. intros [x w]. cbn. now rewrite E. Qed.
Lemma qsum_sumn q n u : qsum q (fun z => sumn n (fun i => u i z)) = sumn n (fun i => qsum q (u i)).
Proof.
  induction n as [|n IH]; cbn [sumn].
  - transitivity (0 * qsum q (fun _ => 0) + 0 * qsum q (fun _ => 0)); [rewrite <- qsum_lin; apply qsum_ext; intro; ring|ring].
  - transitivity (1 * qsum q (fun z => sumn n (fun i => u i z)) + 1 * qsum q (u n)); [rewrite <- qsum_lin; apply qsum_ext; intro; ring|rewrite IH; ring].
Qed.
Lemma qsum_scal q u p : qsum q (fun z => p * u z) = p * qsum q u.
Proof. transitivity (p * qsum q u + 0 * qsum q u); [rewrite <- qsum_lin; apply qsum_ext; intro; ring|ring]. Qed.
Lemma qsum_T n m : (m < 2 * n)%nat -> qsum (quadrature_chebyshev n) (cheb m) = if (m =? 0)%nat then PI else 0.
Proof.
  intros H. rewrite qsum_cheb. rewrite (sumn_ext _ _ (fun k => PI / INR n * cos (INR m * ((2 * INR k + 1) * (PI / (2 * INR n)))))).
  2: { intros k _. unfold cheb_node. rewrite node_angle by lia. now rewrite cheb_cos. }
  rewrite sumn_scal. destruct (Nat.eqb_spec m 0) as [->|Hm].
  - rewrite (sumn_ext _ _ (fun _ => 1)). 2: { intros. simpl (INR 0). now rewrite Rmult_0_l, cos_0. }
    assert (SN : forall q, sumn q (fun _ => 1) = INR q) by (induction q as [|q IH]; [reflexivity|cbn [sumn]; rewrite IH, S_INR; ring]).
    rewrite SN. field. apply not_0_INR. lia.
  - rewrite cos_sum by lia. ring.
Qed.
Lemma qsum_TT n i j : (i + j < 2 * n)%nat -> qsum (quadrature_chebyshev n) (fun z => cheb i z * cheb j z) =
  if (i =? j)%nat then (if (i =? 0)%nat then PI else PI / 2) else 0.
Proof.
  assert (G : forall d j, (d + j + j < 2 * n)%nat -> qsum (quadrature_chebyshev n) (fun z => cheb (d + j) z * cheb j z) =
     if (d =? 0)%nat then (if (j =? 0)%nat then PI else PI / 2) else 0).
  { intros d k H. rewrite (qsum_ext _ _ (fun z => 1 / 2 * cheb (d + 2 * k) z + 1 / 2 * cheb d z)).
    2: { intro z. pose proof (cheb_prod k d z). lra. }
    rewrite qsum_lin, !qsum_T by lia. destruct (Nat.eqb_spec d 0) as [->|Hd].
    - destruct (Nat.eqb_spec k 0) as [->|Hk]; [simpl; field|]. destruct (Nat.eqb_spec (0 + 2 * k) 0); [lia|field].
    - destruct (Nat.eqb_spec (d + 2 * k) 0); [lia|ring]. }
  intros H. destruct (le_lt_dec j i) as [L|L].
  - specialize (G (i - j)%nat j ltac:(lia)). replace (i - j + j)%nat with i in G by lia. rewrite G.
    destruct (Nat.eqb_spec i j) as [->|]; [now rewrite Nat.sub_diag|]. destruct (Nat.eqb_spec (i - j) 0); [lia|reflexivity].
  - specialize (G (j - i)%nat i ltac:(lia)). replace (j - i + i)%nat with j in G by lia.
    rewrite (qsum_ext _ _ (fun z => cheb j z * cheb i z)) by (intro; ring). rewrite G.
    destruct (Nat.eqb_spec i j); [lia|]. destruct (Nat.eqb_spec (j - i) 0); [lia|reflexivity].
Qed.
Lemma map_result_ok {A B} (f : A -> result B) (g : A -> B) l : (forall x, f x = Ok (g x)) -> map_result f l = Ok (map g l).
Proof. intro E. induction l as [|x l IH]; [reflexivity|]. cbn [map_result]. rewrite E, IH. reflexivity. Qed.
Lemma refz_arg z a b : a < b -> refz ((b - a) / 2 * z + (a + b) / 2) a b = z.
Proof. intro H. unfold refz. field. lra. Qed.
Lemma proj_sphere_val q f a b j : a < b -> (j <= 12)%nat ->
  integrate_quad_sphere q f a b j = Ok ((b - a) * qsum q (fun z => let x := (b - a) / 2 * z + (a + b) / 2 in f x * basis Sphere j x a b)).
Proof.
  intros H Hj. unfold integrate_quad_sphere.
  rewrite (map_result_ok _ (fun p => 2 * (snd p * (let x := (b - a) / 2 * fst p + (a + b) / 2 in f x * basis Sphere j x a b)))).
  - cbn [bind]. f_equal. unfold qsum. set (g := fun p : R * R => snd p * (let x := (b - a) / 2 * fst p + (a + b) / 2 in f x * basis Sphere j x a b)).
    assert (E : rsum (map (fun p => 2 * g p) q) = 2 * rsum (map g q)).
    { induction q as [|p q IH]; cbn [map rsum fold_right]; [ring|]. unfold rsum in IH. rewrite IH. ring. }
    change (1 / 2 * (b - a) * rsum (map (fun p => 2 * g p) q) = (b - a) * rsum (map g q)). rewrite E. field.
  - intros [z w]. cbn [fst snd]. cbv zeta. rewrite normTn_basis by auto. cbn [bind]. f_equal. ring.
Qed.
Lemma proj_sphere n M u a b j : a < b -> (M <= 12)%nat -> (M < n)%nat -> (j <= M)%nat ->
  integrate_quad_sphere (quadrature_chebyshev n) (field Sphere M u a b) a b j = Ok (u j).
Proof.
  intros H HM Hn Hj. rewrite proj_sphere_val by (auto; lia). f_equal. pose proof PI_RGT_0.
  rewrite (qsum_ext _ _ (fun z => sumn (M + 1) (fun i => (u i * sqrt ((if (i =? 0)%nat then 1 else 2) / (PI * (b - a))) * sqrt ((if (j =? 0)%nat then 1 else 2) / (PI * (b - a)))) * (cheb i z * cheb j z)))).
  2: { intro z. cbv zeta. unfold field. rewrite <- sumn_scal_r. apply sumn_ext. intros i _. unfold basis. rewrite refz_arg by auto. ring. }
  rewrite qsum_sumn. rewrite (sumn_single _ _ j).
  - rewrite qsum_scal, qsum_TT, Nat.eqb_refl by lia.
    replace (u j * sqrt ((if (j =? 0)%nat then 1 else 2) / (PI * (b - a))) * sqrt ((if (j =? 0)%nat then 1 else 2) / (PI * (b - a))))
      with (u j * (sqrt ((if (j =? 0)%nat then 1 else 2) / (PI * (b - a))) * sqrt ((if (j =? 0)%nat then 1 else 2) / (PI * (b - a))))) by ring.
    rewrite sqrt_sqrt.
    + destruct (j =? 0)%nat; field; split; lra.
    + left. apply Rdiv_lt_0_compat; [destruct (j =? 0)%nat; lra|]. apply Rmult_lt_0_compat; lra.
  - lia.
  - intros i Hi Hij. rewrite qsum_scal, qsum_TT by lia. destruct (Nat.eqb_spec i j); [contradiction|ring].
Qed.
Lemma proj_sphere_err q p f a b j : (12 < j)%nat -> integrate_quad_sphere (p :: q) f a b j = Err AssertionError.
Proof.
  intros Hj. unfold integrate_quad_sphere. cbn [map_result]. cbv zeta.
  assert (E : forall x, normTn j x a b = Err AssertionError).
  { intro x. unfold normTn, eval_Tn. cbv zeta. do 13 (destruct j as [|j]; [lia|]). reflexivity. }
  rewrite E. reflexivity.
Qed.

(** a rule on [-1,1] exact for the powers up to D *)
Definition leg_exact (q : list (R * R)) (v : R -> R) : Prop := is_RInt v (-1) 1 (qsum q v).
Definition exact_to (q : list (R * R)) (D : nat) : Prop := forall k, (k <= D)%nat -> leg_exact q (fun z => z ^ k).
Lemma lexact_lin q u v p r : leg_exact q u -> leg_exact q v -> leg_exact q (fun z => p * u z + r * v z).
Proof. unfold leg_exact. intros Hu Hv. rewrite qsum_lin. apply int_plus; now apply int_scal. Qed.
Lemma lexact_ext q u v : (forall z, u z = v z) -> leg_exact q u -> leg_exact q v.
Proof. unfold leg_exact. intros E Hu. rewrite <- (qsum_ext _ _ _ E). eapply int_ext; [exact E|exact Hu]. Qed.
(** multiplying by P_i raises the degree by i *)
Lemma lexact_leg q (F : nat -> R -> R) D : (forall k z, F (S k) z = z * F k z) -> (forall k, (k <= D)%nat -> leg_exact q (F k)) ->
  forall i k, (k + i <= D)%nat -> leg_exact q (fun z => F k z * leg i z).
Proof.
  intros HF HE. assert (G : forall i, (forall k, (k + i <= D)%nat -> leg_exact q (fun z => F k z * leg i z)) /\
    (forall k, (k + S i <= D)%nat -> leg_exact q (fun z => F k z * leg (S i) z))).
  { induction i as [|i [I1 I2]].
    - split; intros k Hk.
      + apply (lexact_ext q (F k)); [intro; rewrite leg_0; ring|]. apply HE. lia.
      + apply (lexact_ext q (F (S k))); [intro; rewrite leg_1, HF; ring|]. apply HE. lia.
    - split; auto. intros k Hk. pose proof (pos_INR i).
      apply (lexact_ext q (fun z => (2 * INR i + 3) / (INR i + 2) * (F (S k) z * leg (S i) z) + - (INR i + 1) / (INR i + 2) * (F k z * leg i z))).
      + intro z. rewrite leg_SS, HF. field. lra.
      + apply lexact_lin; [apply I2; lia|apply I1; lia]. }
  intros i. apply (G i).
Qed.
Lemma lexact_legleg q D i j : exact_to q D -> (i + j <= D)%nat -> leg_exact q (fun z => leg i z * leg j z).
Proof.
  intros HE H. 
  apply (lexact_ext q (fun z => (z ^ 0 * leg i z) * leg j z)); [intro; simpl; ring|].
  apply (lexact_leg q (fun k z => z ^ k * leg i z) (D - i)).
  - intros k z. simpl. ring.
  - intros k Hk. apply (lexact_leg q (fun k z => z ^ k) D); [intros; simpl; ring|exact HE|lia].
  - lia.
Qed.
Lemma qsum_LL q D i j : exact_to q D -> (i + j <= D)%nat -> qsum q (fun z => leg i z * leg j z) = if (i =? j)%nat then 2 / (2 * INR i + 1) else 0.
Proof.
  intros HE H. rewrite <- I2_val. symmetry. apply int_uniq. now apply (lexact_legleg q D).
Qed.
Lemma proj_slab q M u a b j : a < b -> exact_to q (2 * M) -> (j <= M)%nat -> integrate_quad q (field Slab M u a b) a b j = u j.
Proof.
  intros H HE Hj. unfold integrate_quad. pose proof (pos_INR j).
  rewrite (qsum_ext _ _ (fun z => sumn (M + 1) (fun i => (u i * sqrt ((2 * INR i + 1) / (b - a)) * sqrt ((2 * INR j + 1) / (b - a))) * (leg i z * leg j z)))).
  2: { intro z. cbv zeta. rewrite normPn_basis by auto. unfold field. rewrite <- sumn_scal_r. apply sumn_ext. intros i _. unfold basis. rewrite refz_arg by auto. ring. }
  rewrite qsum_sumn. rewrite (sumn_single _ _ j).
  - rewrite qsum_scal, (qsum_LL q (2 * M)), Nat.eqb_refl by (auto; lia).
    rewrite (Rmult_assoc (u j)), sqrt_sqrt.
    + field. split; lra.
    + left. apply Rdiv_lt_0_compat; lra.
  - lia.
  - intros i Hi Hij. rewrite qsum_scal, (qsum_LL q (2 * M)) by (auto; lia). destruct (Nat.eqb_spec i j); [contradiction|ring].
Qed.

(* ------------------------------------------------------------------ convergence order *)
Lemma conv_order C p x1 x2 : 0 < C -> 0 < x1 -> 0 < x2 -> x1 <> x2 ->
  convergence (C * Rpower x1 (- p)) x1 (C * Rpower x2 (- p)) x2 = p.
Proof.
  intros HC H1 H2 Hn. unfold convergence.
  assert (E : forall x, 0 < x -> 0 < Rpower x (- p)) by (intros; apply exp_pos).
  assert (ln_div : forall u v, 0 < u -> 0 < v -> ln (u / v) = ln u - ln v).
  { intros u v Hu Hv. unfold Rdiv. rewrite ln_mult, ln_Rinv by (auto; now apply Rinv_0_lt_compat). ring. }
  pose proof (E _ H1). pose proof (E _ H2).
  rewrite !ln_div, !ln_mult by (auto; apply Rmult_lt_0_compat; auto). unfold Rpower. rewrite !ln_exp.
  field. intro K. apply Hn. apply ln_inv; auto. lra.
Qed.
Lemma conv_swap e1 x1 e2 x2 : 0 < e1 -> 0 < e2 -> 0 < x1 -> 0 < x2 -> x1 <> x2 -> convergence e1 x1 e2 x2 = convergence e2 x2 e1 x1.
Proof.
  intros. unfold convergence.
  assert (ln_div : forall u v, 0 < u -> 0 < v -> ln (u / v) = ln u - ln v).
  { intros u v Hu Hv. unfold Rdiv. rewrite ln_mult, ln_Rinv by (auto; now apply Rinv_0_lt_compat). ring. }
  rewrite !ln_div by auto. field. split; intro K; apply H3; apply ln_inv; auto; lra.
Qed.

(* ------------------------------------------------------------------ bisection *)
Definition brackets (f : R -> R) (a b : R) : Prop := np_sign (f a) <> np_sign (f b).
Lemma bisect_spec f tol fuel : forall a b m0, brackets f a b -> a <= b -> (forall m, m0 = Some m -> m = a \/ m = b) ->
  forall m, bisect_loop f tol fuel a b m0 = Ok m ->
  exists a' b', a <= a' /\ a' <= b' /\ b' <= b /\ b' - a' <= tol /\ brackets f a' b' /\ (m = a' \/ m = b').
Proof.
  induction fuel as [|k IH]; intros a b m0 HB Hab Hm m; cbn [bisect_loop]; unfold Rgtb; destruct (Rltb_spec tol (b - a)) as [L|L].
  - discriminate.
  - destruct m0 as [m1|]; [|discriminate]. intro E. injection E as ->. exists a, b. repeat split; auto; lra.
  - destruct (Z.eqb_spec (np_sign (f a)) (np_sign (f (a + (b - a) / 2)))) as [E|E]; cbn [negb].
    + intro K. apply IH in K; [| |lra|].
      * destruct K as (a' & b' & ? & ? & ? & ? & ? & ?). exists a', b'. repeat split; auto; lra.
      * unfold brackets in *. now rewrite <- E.
      * intros m1 Em. injection Em as <-. auto.
    + intro K. apply IH in K; [|auto|lra|].
      * destruct K as (a' & b' & ? & ? & ? & ? & ? & ?). exists a', b'. repeat split; auto; lra.
      * intros m1 Em. injection Em as <-. auto.
  - destruct m0 as [m1|]; [|discriminate]. intro E. injection E as ->. exists a, b. repeat split; auto; lra.
Qed.
Lemma bisect_term f tol : 0 < tol -> forall n a b m0, b - a <= tol * 2 ^ n -> (tol < b - a \/ m0 <> None) -> forall fuel, (n <= fuel)%nat ->
  exists m, bisect_loop f tol fuel a b m0 = Ok m.
Proof.
  intros Ht. induction n as [|n IH]; intros a b m0 Hw Hm fuel Hf.
  - simpl in Hw. destruct fuel as [|k]; cbn [bisect_loop]; unfold Rgtb; rewrite Rltb_false by lra; (destruct m0 as [m|]; [eauto|destruct Hm; [lra|contradiction]]).
  - destruct fuel as [|k]; [lia|]. cbn [bisect_loop]. unfold Rgtb. destruct (Rltb_spec tol (b - a)) as [L|L].
    + simpl in Hw. destruct (negb _); (apply IH; [lra|right; discriminate|lia]).
    + destruct m0 as [m|]; [eauto|destruct Hm; [lra|contradiction]].
Qed.
Lemma pow2_above x : exists n, x <= 2 ^ n.
Proof.
  destruct (Pow_x_infinity 2) with (b := Rabs x) as (n & Hn); [rewrite Rabs_pos_eq; lra|]. exists n.
  specialize (Hn n (le_n n)). pose proof (pow_lt 2 n ltac:(lra)). rewrite (Rabs_pos_eq (2 ^ n)) in Hn by lra. pose proof (Rle_abs x). lra.
Qed.
Lemma bisect_terminates f tol a b : 0 < tol -> tol < b - a -> brackets f a b -> exists n, forall fuel, (n <= fuel)%nat -> exists m, bisection fuel f a b tol = Ok m.
Proof.
  intros Ht Hw HB. destruct (pow2_above ((b - a) / tol)) as (n & Hn). exists n. intros fuel Hf. unfold bisection.
  destruct (Z.eqb_spec (np_sign (f a)) (np_sign (f b))); [contradiction|]. cbn [negb]. apply (bisect_term f tol Ht n); auto.
  replace (b - a) with (tol * ((b - a) / tol)) by (field; lra). apply Rmult_le_compat_l; lra.
Qed.
Lemma sign_root f a b : a <= b -> (forall x, a <= x <= b -> continuity_pt f x) -> brackets f a b -> exists r, a <= r <= b /\ f r = 0.
Proof.
  intros Hab Hc HB. unfold brackets, np_sign in HB.
  destruct (Rltb_spec (f a) 0) as [A|A]; destruct (Rltb_spec (f b) 0) as [B|B]; try congruence.
  - assert (H : { z : R | a <= z <= b /\ f z = 0 }); [|destruct H as (z & ? & ?); exists z; auto].
    destruct (Req_EM_T (f b) 0) as [E|E]; [exists b; split; [lra|auto]|].
    assert (a < b) by (destruct Hab; auto; subst; lra). apply (IVT_interv f a b); auto. lra.
  - assert (H : { z : R | a <= z <= b /\ (fun x => - f x) z = 0 }); [|destruct H as (z & ? & ?); exists z; split; auto; lra].
    destruct (Req_EM_T (f a) 0) as [E|E]; [exists a; split; [lra|lra]|].
    assert (a < b) by (destruct Hab; auto; subst; lra). apply (IVT_interv (fun x => - f x) a b); [|auto|lra|lra].
    intros x Hx. apply continuity_pt_opp. auto.
  - destruct (Rltb_spec 0 (f a)) as [C|C]; destruct (Rltb_spec 0 (f b)) as [D|D]; try congruence.
    + exists b. split; [lra|lra].
    + exists a. split; [lra|lra].
Qed.

(* ------------------------------------------------------------------ Legendre derivatives and Newton *)
Lemma legendre_deriv_ok n x : (1 <= n)%nat -> x ^ 2 <> 1 -> eval_legendre_deriv n x = dleg n x.
Proof.
  intros Hn Hx. destruct n as [|n]; [lia|]. unfold eval_legendre_deriv. replace (S n - 1)%nat with n by lia.
  pose proof (leg_D n x) as D. pose proof (pos_INR n). rewrite S_INR.
  assert (N1 : x ^ 2 - 1 <> 0) by lra.
  replace ((x * leg (S n) x - leg n x) / ((x ^ 2 - 1) / (INR n + 1))) with (((INR n + 1) * (x * leg (S n) x - leg n x)) / (x ^ 2 - 1)) by (field; split; lra).
  rewrite <- D. field. lra.
Qed.
Lemma legendre_second_ok n x : (2 <= n)%nat -> x ^ 2 <> 1 -> is_derive (dleg n) x (eval_second_legendre_deriv n x).
Proof.
  intros Hn Hx. pose proof (dleg_derive n x) as D. assert (N1 : x ^ 2 - 1 <> 0) by lra.
  assert (E : eval_second_legendre_deriv n x = ddleg n x); [|now rewrite E].
  unfold eval_second_legendre_deriv. rewrite !legendre_deriv_ok by (auto; lia). destruct n as [|n]; [lia|]. replace (S n - 1)%nat with n by lia.
  rewrite S_INR. pose proof (leg_C n x) as C. pose proof (leg_D n x) as DD. pose proof (legendre_eq (S n) x) as LE. rewrite S_INR in LE.
  replace (x * dleg (S n) x - dleg n x) with ((INR n + 1) * leg (S n) x) by lra.
  assert (L : leg n x = x * leg (S n) x - (x * x - 1) * dleg (S n) x / (INR n + 1)).
  { rewrite DD. field. pose proof (pos_INR n). lra. }
  rewrite L. apply (Rmult_eq_reg_l (1 - x * x)); [|nra].
  replace ((1 - x * x) * ddleg (S n) x) with (2 * x * dleg (S n) x - (INR n + 1) * (INR n + 1 + 1) * leg (S n) x) by lra.
  field. pose proof (pos_INR n). repeat split; first [lra | intro K; apply N1; lra | intro K; apply N1; nra].
Qed.
Lemma newton_spec fuel : forall x0 f f' tol x, newtons fuel x0 f f' tol = Ok x ->
  exists y v d, f y = Ok v /\ f' y = Ok d /\ d <> 0 /\ x = y - v / d /\ Rabs (x - y) <= tol.
Proof.
  induction fuel as [|k IH]; intros x0 f f' tol x; cbn [newtons]; [discriminate|].
  destruct (f x0) as [v|] eqn:Ef; cbn [bind]; [|discriminate]. destruct (f' x0) as [d|] eqn:Ed; cbn [bind]; [|discriminate].
  destruct (Reqb_spec d 0) as [|N]; [discriminate|].
  destruct (Rleb_spec (Rabs (x0 - v / d - x0)) tol) as [L|L].
  - intro E. injection E as <-. exists x0, v, d. auto.
  - apply IH.
Qed.
Lemma newton_fixed fuel x0 f f' tol d : 0 <= tol -> f x0 = Ok 0 -> f' x0 = Ok d -> d <> 0 -> newtons (S fuel) x0 f f' tol = Ok x0.
Proof.
  intros Ht H Hd Hn. cbn [newtons]. rewrite H, Hd. cbn [bind]. rewrite Reqb_false by auto. replace (x0 - 0 / d) with x0 by (unfold Rdiv; ring).
  replace (x0 - x0) with 0 by ring. rewrite Rabs_R0, Rleb_true by auto. reflexivity.
Qed.
Lemma newton2_spec fuel x0 f f' tol : 0 <= tol -> (1 <= fuel)%nat -> f' x0 <> 0 ->
  newtons2 fuel x0 f f' tol = Ok (if Rleb (Rabs (x0 - 1000)) tol then x0 else x0 - f x0 / f' x0).
Proof.
  intros Ht Hf Hd. destruct fuel as [|k]; [lia|]. unfold newtons2. cbn [newtons2_loop]. unfold Rgtb. rewrite (Reqb_false (f' x0) 0) by auto.
  destruct (Rleb_spec (Rabs (x0 - 1000)) tol) as [L|L].
  - now rewrite Rltb_false by auto.
  - rewrite Rltb_true by auto. destruct k as [|k]; cbn [newtons2_loop]; unfold Rgtb;
    (replace (x0 - f x0 / f' x0 - (x0 - f x0 / f' x0)) with 0 by ring; rewrite Rabs_R0, Rltb_false by auto; reflexivity).
Qed.
