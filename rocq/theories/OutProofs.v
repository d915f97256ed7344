(** Lemmas about the reported solution. *)
From Coquelicot Require Import Coquelicot.
From Verif Require Import Py PyLemmas Calc Legendre Cheb DGModel DGSpec DGProofs DGInt FuncModel FuncProofs SourceModel OutModel.
Open Scope R_scope.

(** at least one cell, strictly increasing edges *)
Definition rising (l : list R) : Prop := (2 <= length l)%nat /\ forall i, (S i < length l)%nat -> nth i l 0 < nth (S i) l 0.
Lemma rising_lt l i j : rising l -> (i < j)%nat -> (j < length l)%nat -> nth i l 0 < nth j l 0.
Proof.
  intros [_ H] Hij Hj. induction j as [|j IH]; [lia|]. destruct (Nat.eq_dec i j) as [->|N]; [apply H; lia|].
  apply Rlt_trans with (nth j l 0); [apply IH; lia|apply H; lia].
Qed.
Lemma rising_le l i j : rising l -> (i <= j)%nat -> (j < length l)%nat -> nth i l 0 <= nth j l 0.
Proof. intros H Hij Hj. destruct (Nat.eq_dec i j) as [->|N]; [lra|]. left. apply rising_lt; auto. lia. Qed.

Lemma searchsorted_is l x k : (k <= length l)%nat -> (forall i, (i < k)%nat -> nth i l 0 < x) -> ((k < length l)%nat -> x <= nth k l 0) -> searchsorted l x = k.
Proof.
  revert k. induction l as [|e l IH]; intros k Hk A B; [simpl in *; lia|]. cbn [searchsorted]. destruct k as [|k].
  - rewrite Rltb_false; [auto|]. apply B. simpl. lia.
  - rewrite Rltb_true by (apply (A 0%nat); lia). f_equal. apply IH; [simpl in Hk; lia|intros i Hi; apply (A (S i)); lia|].
    intro L. apply B. simpl. lia.
Qed.
Lemma cell_index_inside l x k : rising l -> (S k < length l)%nat -> nth k l 0 < x -> x <= nth (S k) l 0 -> cell_index l x = S k.
Proof.
  intros H Hk A B. unfold cell_index. rewrite (searchsorted_is l x (S k)).
  - cbn [Nat.eqb]. destruct (Nat.leb_spec (length l) (S k)); [lia|auto].
  - lia.
  - intros i Hi. apply Rle_lt_trans with (nth k l 0); auto. apply rising_le; auto; lia.
  - auto.
Qed.
Lemma cell_index_first l : rising l -> cell_index l (nth 0 l 0) = 1%nat.
Proof.
  intros H. unfold cell_index. rewrite (searchsorted_is l _ 0); [|lia|lia|intro; lra].
  cbn [Nat.eqb]. destruct H. destruct (Nat.leb_spec (length l) 1); [lia|auto].
Qed.
Lemma getitem_nth {A} (l : list A) i d : (i < length l)%nat -> getitem l i = Ok (nth i l d).
Proof. intros H. unfold getitem. rewrite (nth_error_nth' l d H). reflexivity. Qed.
Lemma getneg_nth {A} (l : list A) k d : (1 <= k <= length l)%nat -> getneg l k = Ok (nth (length l - k) l d).
Proof. intros H. unfold getneg. destruct (Nat.ltb_spec (length l) k); [lia|]. apply getitem_nth. lia. Qed.

Lemma sum_result_ok n f v : (forall i, (i < n)%nat -> f i = Ok (v i)) -> sum_result n f = Ok (sumn n v).
Proof.
  induction n as [|n IH]; intro H; [reflexivity|]. cbn [sum_result sumn]. rewrite IH by auto. cbn [bind]. rewrite H by lia. reflexivity.
Qed.
Lemma sum_result_inv n f s : sum_result n f = Ok s -> exists v, (forall i, (i < n)%nat -> f i = Ok (v i)) /\ s = sumn n v.
Proof.
  revert s. induction n as [|n IH]; intros s H.
  - injection H as <-. exists (fun _ => 0). split; [lia|auto].
  - cbn [sum_result] in H. destruct (sum_result n f) as [s'|]; cbn [bind] in H; [|discriminate].
    destruct (f n) as [w|] eqn:W; cbn [bind] in H; [|discriminate]. injection H as <-.
    destruct (IH _ eq_refl) as (v & A & B). exists (fun i => if (i =? n)%nat then w else v i). split.
    + intros i Hi. destruct (Nat.eqb_spec i n) as [->|N]; [auto|]. apply A. lia.
    + cbn [sumn]. rewrite Nat.eqb_refl. f_equal. rewrite B. apply sumn_ext. intros i Hi. destruct (Nat.eqb_spec i n); [lia|auto].
Qed.

Lemma obasis_ok c i x a b : (ogeom c = Sphere -> (i <= 12)%nat) -> a < b -> obasis c i x a b = Ok (basis (ogeom c) i x a b).
Proof.
  intros H Hab. unfold obasis. destruct (ogeom c); [now rewrite normPn_basis|]. apply normTn_basis; auto.
Qed.
(** the expansion of cell k *)
Definition cell_field (c : out_cfg) (ang k : nat) (x : R) : R :=
  field (ogeom c) (outM c) (ou c ang k) (nth k (oedges c) 0) (nth (S k) (oedges c) 0) x.
Lemma psi_at_cell c ang x k : rising (oedges c) -> (ogeom c = Sphere -> (outM c <= 12)%nat) -> (S k < length (oedges c))%nat ->
  cell_index (oedges c) x = S k -> nth k (oedges c) 0 <= x <= nth (S k) (oedges c) 0 -> psi_at c ang x = Ok (cell_field c ang k x).
Proof.
  intros H HM Hk HC Hx. unfold psi_at. rewrite HC. destruct H as [L H]. assert (R1 : rising (oedges c)) by (split; auto).
  rewrite (getitem_nth _ 0 0), (getneg_nth _ 1 0) by lia. cbn [bind].
  rewrite !Rleb_true.
  - cbn [andb]. unfold cell_field, field. apply sum_result_ok. intros i Hi.
    replace (S k - 1)%nat with k by lia. rewrite !(getitem_nth _ _ 0) by lia. cbn [bind].
    rewrite obasis_ok; [reflexivity|intro G; specialize (HM G); lia|apply H; lia].
  - apply Rle_trans with (nth (S k) (oedges c) 0); [lra|]. apply rising_le; auto; lia.
  - apply Rle_trans with (nth k (oedges c) 0); [|lra]. apply rising_le; auto; lia.
Qed.
Lemma psi_at_outside c ang x : (2 <= length (oedges c))%nat -> x < nth 0 (oedges c) 0 \/ nth (length (oedges c) - 1) (oedges c) 0 < x -> psi_at c ang x = Ok 0.
Proof.
  intros L H. unfold psi_at. rewrite (getitem_nth _ 0 0), (getneg_nth _ 1 0) by lia. cbn [bind].
  destruct H as [H|H].
  - rewrite (Rleb_false (nth 0 _ _) x) by auto. reflexivity.
  - rewrite (Rleb_false x (nth _ _ _)) by auto. now rewrite Bool.andb_false_r.
Qed.
(** every point of the mesh lies in a cell *)
Lemma in_some_cell l x : rising l -> nth 0 l 0 < x -> x <= nth (length l - 1) l 0 -> exists k, (S k < length l)%nat /\ nth k l 0 < x <= nth (S k) l 0.
Proof.
  intros [L H] A B. assert (K : forall n, (n < length l)%nat -> x <= nth n l 0 -> exists k, (S k < length l)%nat /\ nth k l 0 < x <= nth (S k) l 0).
  { induction n as [|n IH]; intros Hn Hx; [lra|]. destruct (Rlt_le_dec (nth n l 0) x); [exists n; auto|apply IH; auto; lia]. }
  apply (K (length l - 1)%nat); [lia|auto].
Qed.
Lemma psi_at_total c ang x : rising (oedges c) -> (ogeom c = Sphere -> (outM c <= 12)%nat) -> exists v, psi_at c ang x = Ok v.
Proof.
  intros H HM. destruct (Rlt_le_dec x (nth 0 (oedges c) 0)) as [A|A]; [exists 0; apply psi_at_outside; [apply H|auto]|].
  destruct (Rlt_le_dec (nth (length (oedges c) - 1) (oedges c) 0) x) as [B|B]; [exists 0; apply psi_at_outside; [apply H|auto]|].
  destruct (Req_dec x (nth 0 (oedges c) 0)) as [E|N].
  - eexists. apply (psi_at_cell c ang x 0); auto; [destruct H; lia|subst x; now apply cell_index_first|]. subst x. destruct H as [L H]. split; [lra|]. left. apply H. lia.
  - destruct (in_some_cell (oedges c) x H) as (k & Hk & Hx); [lra|auto|]. eexists. apply (psi_at_cell c ang x k); auto; [|lra]. apply cell_index_inside; auto; apply Hx.
Qed.
Lemma phi_at_total c x : rising (oedges c) -> (ogeom c = Sphere -> (outM c <= 12)%nat) -> exists v, phi_at c x = Ok v.
Proof.
  intros H HM. unfold phi_at. assert (K : forall n, exists v, sum_result n (fun ang => p <- psi_at c ang x ;; Ok (p * ows c ang)) = Ok v).
  { induction n as [|n [v IH]]; [eexists; reflexivity|]. cbn [sum_result]. rewrite IH. destruct (psi_at_total c n x H HM) as [w E]. rewrite E. eexists. reflexivity. }
  apply K.
Qed.

(* ---------------------------------------------------------------- initial coefficients *)
Lemma seqM_nth n f v : seqM n f = Ok v -> forall j, (j < n)%nat -> f j = Ok (v j).
Proof.
  revert v. induction n as [|n IH]; intros v H j Hj; [lia|]. cbn [seqM] in H. destruct (seqM n f) as [g|]; cbn [bind] in H; [|discriminate].
  destruct (f n) as [w|] eqn:W; cbn [bind] in H; [|discriminate]. injection H as <-.
  destruct (Nat.eqb_spec j n) as [->|N]; [auto|]. apply IH; auto. lia.
Qed.
Lemma ic_cells_nth c x0 x1 mu edges us : ic_cells c x0 x1 mu edges = Ok us -> forall k, (S k < length edges)%nat ->
  forall j, (j <= sM c)%nat -> ic_entry c x0 x1 (nth k edges 0) (nth (S k) edges 0) mu j = Ok (nth k us (fun _ => 0) j).
Proof.
  revert us. induction edges as [|a edges IH]; intros us H k Hk j Hj; [simpl in Hk; lia|]. destruct edges as [|b rest]; [simpl in Hk; lia|].
  change (ic_cells c x0 x1 mu (a :: b :: rest)) with (u <- seqM (sM c + 1) (ic_entry c x0 x1 a b mu) ;; us <- ic_cells c x0 x1 mu (b :: rest) ;; Ok (u :: us)) in H.
  destruct (seqM _ _) as [u|] eqn:U; cbn [bind] in H; [|discriminate]. destruct (ic_cells c x0 x1 mu (b :: rest)) as [us'|] eqn:E; cbn [bind] in H; [|discriminate].
  injection H as <-. destruct k as [|k].
  - apply (seqM_nth _ _ _ U). lia.
  - apply (IH us' eq_refl k); [simpl in *; lia|auto].
Qed.
Lemma map_result_nth_ok {A B} (f : A -> result B) l r dA dB : map_result f l = Ok r -> forall i, (i < length l)%nat -> f (nth i l dA) = Ok (nth i r dB).
Proof.
  revert r. induction l as [|x l IH]; intros r H i Hi; [simpl in Hi; lia|]. cbn [map_result] in H.
  destruct (f x) as [y|] eqn:E; cbn [bind] in H; [|discriminate]. destruct (map_result f l) as [ys|]; cbn [bind] in H; [|discriminate].
  injection H as <-. destruct i as [|i]; [auto|]. cbn [nth]. apply (IH ys eq_refl). simpl in Hi. lia.
Qed.
Lemma map_result_len {A B} (f : A -> result B) l r : map_result f l = Ok r -> length r = length l.
Proof.
  revert r. induction l as [|x l IH]; intros r H; [injection H as <-; auto|]. cbn [map_result] in H.
  destruct (f x) as [y|]; cbn [bind] in H; [|discriminate]. destruct (map_result f l) as [ys|]; cbn [bind] in H; [|discriminate].
  injection H as <-. simpl. f_equal. now apply IH.
Qed.
Lemma map_result_ok_in {A B} (f : A -> result B) (g : A -> B) l : (forall x, In x l -> f x = Ok (g x)) -> map_result f l = Ok (map g l).
Proof.
  induction l as [|x l IH]; intro H; [reflexivity|]. cbn [map_result map]. rewrite H by now left. rewrite IH by (intros; apply H; now right). reflexivity.
Qed.
Lemma map_result_ext_in {A B} (f g : A -> result B) l : (forall x, In x l -> f x = g x) -> map_result f l = map_result g l.
Proof.
  induction l as [|x l IH]; intro H; [reflexivity|]. cbn [map_result]. rewrite H by now left. rewrite IH by (intros; apply H; now right). reflexivity.
Qed.
Lemma in_cell a b z : a < b -> -1 < z < 1 -> a < (b - a) / 2 * z + (a + b) / 2 < b.
Proof. intros H [A B]. split; nra. Qed.
(** the entry computed from values that agree with an expansion on the open cell is its coefficient *)
Lemma ic_entry_field c x0 x1 a b mu v j : a < b -> (j <= sM c)%nat ->
  (match sgeom c with Slab => exact_to (squad c) (2 * sM c) | Sphere => (sM c <= 12)%nat /\ exists n, (sM c < n)%nat /\ squad c = quadrature_chebyshev n end) ->
  (forall p, In p (squad c) -> -1 < fst p < 1) ->
  (forall x, a < x < b -> IC_function c x0 x1 x mu = Ok (field (sgeom c) (sM c) v a b x)) ->
  ic_entry c x0 x1 a b mu j = Ok (v j).
Proof.
  intros Hab Hj HQ HN HF. unfold ic_entry. destruct (sgeom c) eqn:G.
  - rewrite (map_result_ok_in _ (fun p => snd p * (let x := (b - a) / 2 * fst p + (a + b) / 2 in field Slab (sM c) v a b x * normPn j x a b))).
    + cbn [bind]. f_equal. apply (proj_slab (squad c) (sM c) v a b j); auto.
    + intros p Hp. cbv zeta. rewrite HF by (apply in_cell; auto). cbn [bind]. f_equal. ring.
  - destruct HQ as (HM & n & Hn & Q). rewrite <- (proj_sphere n (sM c) v a b j) by auto. unfold integrate_quad_sphere. rewrite <- Q.
    erewrite map_result_ext_in; [reflexivity|]. intros p Hp. cbv zeta. rewrite HF by (apply in_cell; auto). reflexivity.
Qed.
