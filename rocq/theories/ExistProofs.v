(** The right-hand sides of the slab equations are continuous in time and Lipschitz in the coefficients. *)
From Coquelicot Require Import Coquelicot.
From Verif Require Import Py PyLemmas Calc Legendre Cheb DGModel DGSpec DGProofs StabSpec SymSpec Picard ExistSpec.

Section LF.
Variables (I : Type) (t0 t1 : R).
Hypothesis Hle : t0 <= t1.
Let cl := clamp t0 t1.

(** continuous on [t0, t1] *)
Definition Cc (c : R -> R) : Prop := forall t, continuous (fun s => c (cl s)) t.
Lemma Cc_of c : (forall t, t0 <= t <= t1 -> continuous c t) -> Cc c.
Proof. intros H t. apply (ccomp c cl); [apply clamp_cont|]. apply H. now apply clamp_in. Qed.
Lemma Cc_const a : Cc (fun _ => a).
Proof. intros t. apply cconst. Qed.
Lemma Cc_id : Cc (fun t => t).
Proof. apply Cc_of. intros. apply cid. Qed.
Lemma Cc_plus f g : Cc f -> Cc g -> Cc (fun t => f t + g t).
Proof. intros F G t. now apply (cplus (fun s => f (cl s)) (fun s => g (cl s))). Qed.
Lemma Cc_minus f g : Cc f -> Cc g -> Cc (fun t => f t - g t).
Proof. intros F G t. now apply (cminus (fun s => f (cl s)) (fun s => g (cl s))). Qed.
Lemma Cc_opp f : Cc f -> Cc (fun t => - f t).
Proof. intros F t. now apply (copp (fun s => f (cl s))). Qed.
Lemma Cc_mult f g : Cc f -> Cc g -> Cc (fun t => f t * g t).
Proof. intros F G t. now apply (cmult (fun s => f (cl s)) (fun s => g (cl s))). Qed.
Lemma Cc_inv f : Cc f -> (forall t, t0 <= t <= t1 -> f t <> 0) -> Cc (fun t => / f t).
Proof. intros F N t. apply (continuous_Rinv_comp (fun s => f (cl s))); auto. apply N. now apply clamp_in. Qed.
Lemma Cc_div f g : Cc f -> Cc g -> (forall t, t0 <= t <= t1 -> g t <> 0) -> Cc (fun t => f t / g t).
Proof. intros F G N. apply Cc_mult; auto. now apply Cc_inv. Qed.
Lemma Cc_sqrt f : Cc f -> Cc (fun t => sqrt (f t)).
Proof. intros F t. apply (continuous_sqrt_comp (fun s => f (cl s))); auto. Qed.
Lemma Cc_exp f : Cc f -> Cc (fun t => exp (f t)).
Proof. intros F t. apply (cexp (fun s => f (cl s))); auto. Qed.
Lemma Cc_comp g f : (forall z, continuous g z) -> Cc f -> Cc (fun t => g (f t)).
Proof. intros G F t. apply (ccomp g (fun s => f (cl s))); auto. Qed.
Lemma Cc_ext f g : (forall t, t0 <= t <= t1 -> f t = g t) -> Cc f -> Cc g.
Proof. intros H F t. apply (continuous_ext (fun s => f (cl s))); auto. intros s. apply H. now apply clamp_in. Qed.
Lemma Cc_sumn n (f : nat -> R -> R) : (forall j, (j < n)%nat -> Cc (f j)) -> Cc (fun t => sumn n (fun j => f j t)).
Proof.
  induction n as [|n IH]; intros H; cbn [sumn]; [apply Cc_const|]. apply Cc_plus; [apply IH; intros; apply H; lia|apply H; lia].
Qed.
Lemma Cc_rsum {A} (l : list A) (f : A -> R -> R) : (forall a, Cc (f a)) -> Cc (fun t => rsum (map (fun a => f a t) l)).
Proof. intros H. induction l as [|a l IH]; cbn [map rsum fold_right]; [apply Cc_const|]. apply Cc_plus; auto. Qed.
Lemma pos_cont z : continuous (Rmax 0) z.
Proof.
  apply (continuous_ext (fun x => (Rabs x + x) / 2)).
  - intros x. unfold Rmax, Rabs. destruct (Rcase_abs _), (Rle_dec _ _); lra.
  - apply cdivc. apply cplus; [apply continuous_Rabs|apply cid].
Qed.
Lemma neg_cont z : continuous (Rmin 0) z.
Proof.
  apply (continuous_ext (fun x => (x - Rabs x) / 2)).
  - intros x. unfold Rmin, Rabs. destruct (Rcase_abs _), (Rle_dec _ _); lra.
  - apply cdivc. apply cminus; [apply cid|apply continuous_Rabs].
Qed.
Lemma Cc_bounded f : Cc f -> exists M, 0 <= M /\ forall t, t0 <= t <= t1 -> Rabs (f t) <= M.
Proof.
  intros F. destruct (bounded_continuity (fun s => f (cl s)) t0 t1) as [M HM].
  - intros x _. apply F.
  - exists M. split.
    + pose proof (HM t0 ltac:(lra)) as Q. eapply Rle_trans; [apply Rabs_pos|left; apply Q].
    + intros t Ht. pose proof (HM t Ht) as Q. unfold cl in Q. rewrite clamp_id in Q by auto. left. apply Q.
Qed.

(** continuous along continuous states, Lipschitz in the state *)
Definition LF (f : R -> (I -> R) -> R) : Prop :=
  (forall x : I -> R -> R, (forall i t, continuous (x i) t) -> forall t, continuous (fun s => f (cl s) (fun j => x j s)) t) /\
  exists K, 0 <= K /\ forall t x y r, t0 <= t <= t1 -> 0 <= r -> (forall i, Rabs (x i - y i) <= r) -> Rabs (f t x - f t y) <= K * r.
Lemma LF_proj i : LF (fun _ x => x i).
Proof. split; [intros x H; apply H|]. exists 1. split; [lra|]. intros. rewrite Rmult_1_l. auto. Qed.
Lemma LF_coef c : Cc c -> LF (fun t _ => c t).
Proof. intros H. split; [intros; apply H|]. exists 0. split; [lra|]. intros. rewrite Rminus_eq_0, Rabs_R0. lra. Qed.
Lemma LF_plus f g : LF f -> LF g -> LF (fun t x => f t x + g t x).
Proof.
  intros [F1 [K1 [P1 L1]]] [F2 [K2 [P2 L2]]]. split.
  - intros x H t. apply (cplus (fun s => f (cl s) (fun j => x j s)) (fun s => g (cl s) (fun j => x j s))); auto.
  - exists (K1 + K2). split; [lra|]. intros t x y r Ht Hr H. specialize (L1 t x y r Ht Hr H). specialize (L2 t x y r Ht Hr H).
    replace (f t x + g t x - (f t y + g t y)) with ((f t x - f t y) + (g t x - g t y)) by ring.
    eapply Rle_trans; [apply Rabs_triang|]. lra.
Qed.
Lemma LF_mult c f : Cc c -> LF f -> LF (fun t x => c t * f t x).
Proof.
  intros C [F1 [K1 [P1 L1]]]. split.
  - intros x H t. apply (cmult (fun s => c (cl s)) (fun s => f (cl s) (fun j => x j s))); auto.
  - destruct (Cc_bounded c C) as (M & PM & HM). exists (M * K1). split; [now apply Rmult_le_pos|].
    intros t x y r Ht Hr H. rewrite <- Rmult_minus_distr_l, Rabs_mult, Rmult_assoc.
    apply Rmult_le_compat; try apply Rabs_pos; auto.
Qed.
Lemma LF_opp f : LF f -> LF (fun t x => - f t x).
Proof.
  intros [F1 [K1 [P1 L1]]]. split.
  - intros x H t. apply (copp (fun s => f (cl s) (fun j => x j s))); auto.
  - exists K1. split; auto. intros t x y r Ht Hr H. replace (- f t x - - f t y) with (- (f t x - f t y)) by ring. rewrite Rabs_Ropp. auto.
Qed.
Lemma LF_minus f g : LF f -> LF g -> LF (fun t x => f t x - g t x).
Proof. intros F G. apply LF_plus; auto. now apply LF_opp. Qed.
Lemma LF_scal f k : LF f -> LF (fun t x => k * f t x).
Proof. intros F. apply (LF_mult (fun _ => k)); auto. apply Cc_const. Qed.
Lemma LF_div f k : LF f -> LF (fun t x => f t x / k).
Proof.
  intros F. pose proof (LF_scal f (/ k) F) as [A [K [P B]]]. split.
  - intros x H t. eapply continuous_ext; [|apply (A x H t)]. intros s. cbv beta. apply Rmult_comm.
  - exists K. split; auto. intros t x y r Ht Hr H. unfold Rdiv. rewrite (Rmult_comm (f t x)), (Rmult_comm (f t y)). now apply B.
Qed.
Lemma LF_sumn n (f : nat -> R -> (I -> R) -> R) : (forall j, (j < n)%nat -> LF (f j)) -> LF (fun t x => sumn n (fun j => f j t x)).
Proof.
  induction n as [|n IH]; intros H; cbn [sumn]; [apply (LF_coef (fun _ => 0)), Cc_const|].
  apply LF_plus; [apply IH; intros; apply H; lia|apply H; lia].
Qed.
Lemma LF_multr c f : Cc c -> LF f -> LF (fun t x => f t x * c t).
Proof.
  intros C F. pose proof (LF_mult c f C F) as [A [K [P B]]]. split.
  - intros x H t. eapply continuous_ext; [|apply (A x H t)]. intros s. cbv beta. apply Rmult_comm.
  - exists K. split; auto. intros t x y r Ht Hr H. rewrite (Rmult_comm (f t x)), (Rmult_comm (f t y)). now apply B.
Qed.

Theorem exists_fin (l : list I) (F : R -> (I -> R) -> I -> R) (x0 : I -> R) :
  (forall i, In i l -> LF (fun t x => F t x i)) -> (forall i, In i l \/ forall t x, F t x i = 0) ->
  exists x : I -> R -> R, (forall i, x i t0 = x0 i) /\ forall t, t0 <= t <= t1 -> forall i, is_derive (x i) t (F t (fun j => x j t) i).
Proof.
  intros HF HD.
  assert (HK : exists K, 0 <= K /\ forall i, In i l -> forall t x y r, t0 <= t <= t1 -> 0 <= r -> (forall i, Rabs (x i - y i) <= r) -> Rabs (F t x i - F t y i) <= K * r).
  { clear HD. induction l as [|a l' IH]; [exists 0; split; [lra|intros i []]|].
    destruct IH as (K & P & H). { intros i Hi. apply HF. now right. }
    destruct (HF a (or_introl eq_refl)) as [_ (K2 & P2 & H2)]. exists (K + K2). split; [lra|].
    intros i [->|Hi] t x y r Ht Hr Hx.
    - specialize (H2 t x y r Ht Hr Hx). pose proof (Rmult_le_pos _ _ P Hr). lra.
    - specialize (H i Hi t x y r Ht Hr Hx). pose proof (Rmult_le_pos _ _ P2 Hr). lra. }
  assert (HB : exists B, 0 <= B /\ forall i, In i l -> forall t, t0 <= t <= t1 -> Rabs (F t x0 i) <= B).
  { clear HD HK. induction l as [|a l' IH]; [exists 0; split; [lra|intros i []]|].
    destruct IH as (B & P & H). { intros i Hi. apply HF. now right. }
    destruct (HF a (or_introl eq_refl)) as [H2 _].
    destruct (Cc_bounded (fun t => F t x0 a)) as (M & PM & HM).
    { intros t. apply (H2 (fun i _ => x0 i)). intros; apply cconst. }
    exists (B + M). split; [lra|]. intros i [->|Hi] t Ht; [specialize (HM t Ht)|specialize (H i Hi t Ht)]; lra. }
  destruct HK as (K & PK & HK). destruct HB as (B & PB & HB).
  apply (picard I F x0 t0 t1 K B); auto.
  - intros x Hx i t. destruct (HD i) as [Hi|Hz].
    + apply (proj1 (HF i Hi)). auto.
    + eapply continuous_ext; [|apply (cconst 0)]. intros s. now rewrite Hz.
  - intros t x y r Ht Hx i. assert (Hr : 0 <= r) by (eapply Rle_trans; [apply Rabs_pos|apply (Hx i)]).
    destruct (HD i) as [Hi|Hz]; [auto|]. rewrite !Hz, Rminus_eq_0, Rabs_R0. now apply Rmult_le_pos.
  - intros t i Ht. destruct (HD i) as [Hi|Hz]; [auto|]. now rewrite Hz, Rabs_R0.
Qed.
End LF.

Section Slab.
Variables (c : flux_cfg) (E D : nat -> R -> R) (t0 t1 : R).
Hypothesis Hg : fgeom c = Slab.
Hypothesis HN : (2 <= fN c)%nat.
Hypothesis Hle : t0 <= t1.
Hypothesis HM : mesh_ok c E D t0 t1.
Hypothesis HD : forall k, (k <= fN c)%nat -> continuous_on (D k) t0 t1.
Hypothesis HS : steady c t0 t1.
Let I := (nat * nat * nat)%type.
Notation Cc := (Cc t0 t1).
Notation LF := (LF I t0 t1).

Lemma E_Cc k : (k <= fN c)%nat -> Cc (E k).
Proof. intros Hk. apply Cc_of; auto. intros t Ht. destruct (HM t Ht) as [_ H]. apply (ex_derive_continuous (E k)). exists (D k t). now apply H. Qed.
Lemma D_Cc k : (k <= fN c)%nat -> Cc (D k).
Proof. intros Hk. apply Cc_of; auto. now apply HD. Qed.
Lemma E_lt k t : (k < fN c)%nat -> t0 <= t <= t1 -> E k t < E (S k) t.
Proof. intros Hk Ht. destruct (HM t Ht) as [H _]. now apply H. Qed.
Lemma basis_Cc j (x a b : R -> R) : Cc x -> Cc a -> Cc b -> (forall t, t0 <= t <= t1 -> a t < b t) -> Cc (fun t => basis Slab j (x t) (a t) (b t)).
Proof.
  intros X A B L. cbn [basis].
  assert (N : forall t, t0 <= t <= t1 -> b t - a t <> 0) by (intros t Ht; specialize (L t Ht); lra).
  apply (Cc_mult _ _ (fun t => sqrt ((2 * INR j + 1) / (b t - a t))) (fun t => leg j (refz (x t) (a t) (b t)))).
  - apply Cc_sqrt. apply Cc_div; auto; [apply Cc_const|]. now apply Cc_minus.
  - apply (Cc_comp _ _ (leg j)); [apply leg_cont|]. unfold refz. apply Cc_div; auto.
    + apply Cc_minus; auto. apply Cc_minus; auto. apply Cc_mult; auto. apply Cc_const.
    + now apply Cc_minus.
Qed.
Lemma bdata_Cc (x : R -> R) : Cc x -> Cc (fun t => bdata c t (x t)).
Proof.
  intros X. unfold bdata. destruct HS as (_ & _ & H). destruct (src4 c); [|apply Cc_const].
  assert (Z : forall t, t0 <= t <= t1 -> t + 1 <> 0) by (intros t Ht; specialize (H eq_refl); lra).
  apply Cc_div; [auto| |apply Cc_const|intros; lra]. apply Cc_div; auto.
  - apply Cc_exp. apply Cc_div; [auto| |apply Cc_const|intros; lra]. apply Cc_mult; auto. now apply Cc_opp.
  - apply Cc_plus; [apply Cc_id; auto|apply Cc_const].
Qed.
Lemma bcoef_Cc j (a b : R -> R) : Cc a -> Cc b -> (forall t, t0 <= t <= t1 -> a t < b t) -> Cc (fun t => bcoef c t (a t) (b t) j).
Proof.
  intros A B L. unfold bcoef.
  assert (W : Cc (fun t => (b t - a t) / 2)) by (apply Cc_div; [auto|now apply Cc_minus|apply Cc_const|intros; lra]).
  apply Cc_mult; auto.
  apply (Cc_rsum _ _ (fquad c) (fun xw t => let x := (b t - a t) / 2 * fst xw + (a t + b t) / 2 in snd xw * bdata c t x * basis Slab j x (a t) (b t))).
  intros [x w]. cbn [fst snd]. cbv zeta.
  assert (X : Cc (fun t => (b t - a t) / 2 * x + (a t + b t) / 2)).
  { apply Cc_plus; [apply Cc_mult; auto; apply Cc_const|]. apply Cc_div; [auto|now apply Cc_plus|apply Cc_const|intros; lra]. }
  apply Cc_mult; [apply Cc_mult; [apply Cc_const|now apply (bdata_Cc (fun t => (b t - a t) / 2 * x + (a t + b t) / 2))]|].
  now apply (basis_Cc j (fun t => (b t - a t) / 2 * x + (a t + b t) / 2)).
Qed.

(** the values entering at the two ends *)
Definition ghost_l (t : R) (e : nat -> R) : R :=
  let d := e 1%nat - e 0%nat in field Slab (fM c) (bcoef c t (e 0%nat - d) (e 0%nat)) (e 0%nat - d) (e 0%nat) (e 0%nat).
Definition ghost_r (t : R) (e : nat -> R) : R :=
  let d := e (fN c) - e (fN c - 1)%nat in field Slab (fM c) (bcoef c t (e (fN c)) (e (fN c) + d)) (e (fN c)) (e (fN c) + d) (e (fN c)).
Definition in_l (t : R) (e : nat -> R) : R := if is_boundary_source_on c 0 t then ghost_l t e else 0.
Definition in_r (t : R) (e : nat -> R) : R := if is_boundary_source_on c (fN c - 1) t then ghost_r t e else 0.
Lemma in_l_is t e refl v : inflow_l c t e refl v -> v = in_l t e.
Proof.
  unfold in_l, ghost_l. intros H. inversion H as [L d|L G|L G]; try congruence.
  - apply left_on_iff in L. rewrite L. unfold d. now rewrite Hg.
  - destruct (is_boundary_source_on c 0 t) eqn:B; auto. apply left_on_iff in B. contradiction.
Qed.
Lemma in_r_is t e v : inflow_r c t e v -> v = in_r t e.
Proof.
  unfold in_r, ghost_r. intros H. inversion H as [L d|L].
  - apply right_on_iff in L; auto. rewrite L. unfold d. now rewrite Hg.
  - destruct (is_boundary_source_on c (fN c - 1) t) eqn:B; auto. apply right_on_iff in B; auto. contradiction.
Qed.
Lemma ghost_l_Cc : Cc (fun t => ghost_l t (fun k => E k t)).
Proof.
  pose proof (E_Cc 0 ltac:(lia)) as E0. pose proof (E_Cc 1 ltac:(lia)) as E1.
  assert (X : Cc (fun t => E 0%nat t - (E 1%nat t - E 0%nat t))) by (apply Cc_minus; auto; now apply Cc_minus).
  assert (L : forall t, t0 <= t <= t1 -> E 0%nat t - (E 1%nat t - E 0%nat t) < E 0%nat t) by (intros t Ht; pose proof (E_lt 0 t ltac:(lia) Ht); lra).
  unfold ghost_l, field. cbv zeta. apply Cc_sumn; auto. intros j _. apply Cc_mult.
  - now apply (bcoef_Cc j (fun t => E 0%nat t - (E 1%nat t - E 0%nat t))).
  - now apply (basis_Cc j (E 0%nat) (fun t => E 0%nat t - (E 1%nat t - E 0%nat t))).
Qed.
Lemma ghost_r_Cc : Cc (fun t => ghost_r t (fun k => E k t)).
Proof.
  pose proof (E_Cc (fN c) ltac:(lia)) as E0. pose proof (E_Cc (fN c - 1) ltac:(lia)) as E1.
  assert (X : Cc (fun t => E (fN c) t + (E (fN c) t - E (fN c - 1)%nat t))) by (apply Cc_plus; auto; now apply Cc_minus).
  assert (L : forall t, t0 <= t <= t1 -> E (fN c) t < E (fN c) t + (E (fN c) t - E (fN c - 1)%nat t)).
  { intros t Ht. pose proof (E_lt (fN c - 1) t ltac:(lia) Ht) as Q. replace (S (fN c - 1)) with (fN c) in Q by lia. lra. }
  unfold ghost_r, field. cbv zeta. apply Cc_sumn; auto. intros j _. apply Cc_mult.
  - now apply (bcoef_Cc j (E (fN c)) (fun t => E (fN c) t + (E (fN c) t - E (fN c - 1)%nat t))).
  - now apply (basis_Cc j (E (fN c)) (E (fN c)) (fun t => E (fN c) t + (E (fN c) t - E (fN c - 1)%nat t))).
Qed.
Lemma in_l_Cc : Cc (fun t => in_l t (fun k => E k t)).
Proof.
  destruct HS as ([H|H] & _ & _).
  - apply (Cc_ext _ _ Hle (fun t => ghost_l t (fun k => E k t))); [|apply ghost_l_Cc].
    intros t Ht. unfold in_l. specialize (H t Ht). apply left_on_iff in H. now rewrite H.
  - apply (Cc_ext _ _ Hle (fun t => 0)); [|apply Cc_const].
    intros t Ht. unfold in_l. specialize (H t Ht). destruct (is_boundary_source_on c 0 t) eqn:B; auto. apply left_on_iff in B. contradiction.
Qed.
Lemma in_r_Cc : Cc (fun t => in_r t (fun k => E k t)).
Proof.
  destruct HS as (_ & [H|H] & _).
  - apply (Cc_ext _ _ Hle (fun t => ghost_r t (fun k => E k t))); [|apply ghost_r_Cc].
    intros t Ht. unfold in_r. specialize (H t Ht). apply right_on_iff in H; auto. now rewrite H.
  - apply (Cc_ext _ _ Hle (fun t => 0)); [|apply Cc_const].
    intros t Ht. unfold in_r. specialize (H t Ht). destruct (is_boundary_source_on c (fN c - 1) t) eqn:B; auto. apply right_on_iff in B; auto. contradiction.
Qed.

(** the values on both sides of a face, what enters included *)
Definition val_l (t : R) (e : nat -> R) (u : nat -> nat -> R) (f : nat) : R :=
  match f with 0%nat => in_l t e | S k => field Slab (fM c) (u k) (e k) (e (S k)) (e (S k)) end.
Definition val_r (t : R) (e : nat -> R) (u : nat -> nat -> R) (f : nat) : R :=
  if (f <? fN c)%nat then field Slab (fM c) (u f) (e f) (e (S f)) (e f) else in_r t e.
(** the flux through a face: particles moving to the right carry the value on the left *)
Definition flux (t : R) (e d : nat -> R) (u : nat -> nat -> R) (mul : R) (f : nat) : R :=
  Rmax 0 (mul - d f) * val_l t e u f + Rmin 0 (mul - d f) * val_r t e u f.
Definition LUf (t : R) (e d : nat -> R) (u : nat -> nat -> R) (s : nat) (mul : R) (i : nat) : R :=
  basis Slab i (e (S s)) (e s) (e (S s)) * flux t e d u mul (S s) - basis Slab i (e s) (e s) (e (S s)) * flux t e d u mul s.

Lemma face_flux t e d u mul refl f v : face c t e d u mul refl f v -> (mul - d f) * v = flux t e d u mul f.
Proof.
  intros H. unfold flux, val_l, val_r. inversion H as [w P J|k P K|k P K|w P J]; subst.
  - apply in_l_is in J. subst v. rewrite Rmax_right, Rmin_left by lra. ring.
  - rewrite Rmax_right, Rmin_left by lra. rewrite Hg. ring.
  - rewrite Rmax_left, Rmin_right by lra. destruct (Nat.ltb_spec f (fN c)); [|lia]. rewrite Hg. ring.
  - apply in_r_is in J. subst v. rewrite Rmax_left, Rmin_right by lra. rewrite Nat.ltb_irrefl. ring.
Qed.
Lemma LU_is st t e d u s mul refl i : increasing (fN c) e -> (s < fN c)%nat -> snd (make_LU c st t e d u s mul refl) i = LUf t e d u s mul i.
Proof.
  intros He Hs. destruct (LU_formula c t e d u mul refl HN He st s i Hs) as (vl & vr & F1 & F2 & ->).
  rewrite Hg. cbn [wt]. unfold LUf. rewrite <- (face_flux _ _ _ _ _ _ _ _ F1), <- (face_flux _ _ _ _ _ _ _ _ F2). ring.
Qed.

Lemma field_LF a k (x : R -> R) : (k < fN c)%nat -> Cc x -> LF (fun t y => field Slab (fM c) (fun j => y (a, k, j)) (E k t) (E (S k) t) (x t)).
Proof.
  intros Hk X. unfold field. apply (LF_sumn I t0 t1 (fM c + 1) (fun j t (y : I -> R) => y (a, k, j) * basis Slab j (x t) (E k t) (E (S k) t))).
  intros j _. apply (LF_multr I t0 t1 Hle (fun t => basis Slab j (x t) (E k t) (E (S k) t))); [|apply LF_proj].
  apply basis_Cc; auto; [apply E_Cc; lia|apply E_Cc; lia|]. intros t Ht. now apply E_lt.
Qed.
Lemma val_l_LF a f : (f <= fN c)%nat -> LF (fun t y => val_l t (fun k => E k t) (fun k j => y (a, k, j)) f).
Proof.
  intros Hf. destruct f as [|k]; cbn [val_l].
  - apply (LF_coef I t0 t1 (fun t => in_l t (fun k => E k t))). apply in_l_Cc.
  - apply field_LF; [lia|]. now apply E_Cc.
Qed.
Lemma val_r_LF a f : (f <= fN c)%nat -> LF (fun t y => val_r t (fun k => E k t) (fun k j => y (a, k, j)) f).
Proof.
  intros Hf. unfold val_r. destruct (Nat.ltb_spec f (fN c)).
  - apply field_LF; [lia|]. now apply E_Cc.
  - apply (LF_coef I t0 t1 (fun t => in_r t (fun k => E k t))). apply in_r_Cc.
Qed.
Lemma flux_LF a mul f : (f <= fN c)%nat -> LF (fun t y => flux t (fun k => E k t) (fun k => D k t) (fun k j => y (a, k, j)) mul f).
Proof.
  intros Hf. unfold flux.
  assert (V : Cc (fun t => mul - D f t)) by (apply Cc_minus; [apply Cc_const|now apply D_Cc]).
  apply LF_plus.
  - apply (LF_mult I t0 t1 Hle (fun t => Rmax 0 (mul - D f t))); [|now apply val_l_LF].
    apply (Cc_comp _ _ (Rmax 0)); auto. apply pos_cont.
  - apply (LF_mult I t0 t1 Hle (fun t => Rmin 0 (mul - D f t))); [|now apply val_r_LF].
    apply (Cc_comp _ _ (Rmin 0)); auto. apply neg_cont.
Qed.
Lemma LUf_LF a s mul i : (s < fN c)%nat -> LF (fun t y => LUf t (fun k => E k t) (fun k => D k t) (fun k j => y (a, k, j)) s mul i).
Proof.
  intros Hs. unfold LUf.
  assert (L : forall t, t0 <= t <= t1 -> E s t < E (S s) t) by (intros; now apply E_lt).
  pose proof (E_Cc s ltac:(lia)). pose proof (E_Cc (S s) ltac:(lia)).
  apply LF_minus.
  - apply (LF_mult I t0 t1 Hle (fun t => basis Slab i (E (S s) t) (E s t) (E (S s) t))); [now apply basis_Cc|apply flux_LF; lia].
  - apply (LF_mult I t0 t1 Hle (fun t => basis Slab i (E s t) (E s t) (E (S s) t))); [now apply basis_Cc|apply flux_LF; lia].
Qed.

Lemma G_Cc s i j : (s < fN c)%nat -> Cc (fun t => G_slab (E s t) (E (S s) t) (D s t) (D (S s) t) i j).
Proof.
  intros Hs. pose proof (E_Cc s ltac:(lia)) as E0. pose proof (E_Cc (S s) ltac:(lia)) as E1.
  pose proof (D_Cc s ltac:(lia)) as D0. pose proof (D_Cc (S s) ltac:(lia)) as D1.
  assert (N : forall t, t0 <= t <= t1 -> E (S s) t - E s t <> 0) by (intros t Ht; pose proof (E_lt s t Hs Ht); lra).
  assert (H : Cc (fun t => 1 / (E (S s) t - E s t))) by (apply Cc_div; auto; [apply Cc_const|now apply Cc_minus]).
  unfold G_slab. cbv zeta. destruct (i =? j)%nat; [|destruct (j <? i)%nat; [destruct ((i + j) mod 2 =? 0)%nat|apply Cc_const]].
  all: apply Cc_mult; [apply Cc_mult; [apply Cc_const|exact H]|]; first [now apply Cc_minus|now apply Cc_plus].
Qed.
Lemma L_Cc s i j : (s < fN c)%nat -> Cc (fun t => L_slab (E s t) (E (S s) t) i j).
Proof.
  intros Hs. unfold L_slab. apply Cc_div; auto; [apply Cc_const|apply Cc_minus; apply E_Cc; lia|].
  intros t Ht. pose proof (E_lt s t Hs Ht). lra.
Qed.
Lemma dot_LF a s i (A : R -> nat -> nat -> R) : (forall j, Cc (fun t => A t i j)) -> LF (fun t y => dotv (fM c + 1) (A t) (fun j => y (a, s, j)) i).
Proof.
  intros H. unfold dotv. apply (LF_sumn I t0 t1 (fM c + 1) (fun j t (y : I -> R) => A t i j * y (a, s, j))). intros j _.
  apply (LF_mult I t0 t1 Hle (fun t => A t i j)); auto. apply LF_proj.
Qed.
Lemma P_LF N_ang ws s i : LF (fun t y => make_P N_ang ws (fun l j => y (l, s, j)) i).
Proof.
  unfold make_P. apply (LF_sumn I t0 t1 N_ang (fun l t (y : I -> R) => y (l, s, i) * ws l)). intros l _.
  apply (LF_multr I t0 t1 Hle (fun _ => ws l)); [apply Cc_const|]. apply LF_proj.
Qed.

(** the right-hand sides with the fluxes written out *)
Definition rhsF (N_ang : nat) (ws mus : nat -> R) (cc : R) (t : R) (S0 : nat -> R) (y : I -> R) (a s i : nat) : R :=
  dotv (fM c + 1) (G_slab (E s t) (E (S s) t) (D s t) (D (S s) t)) (fun j => y (a, s, j)) i
  - LUf t (fun k => E k t) (fun k => D k t) (fun k j => y (a, k, j)) s (mus a) i
  + mus a * dotv (fM c + 1) (L_slab (E s t) (E (S s) t)) (fun j => y (a, s, j)) i
  - y (a, s, i) + cc * make_P N_ang ws (fun l j => y (l, s, j)) i + 1 / 2 * S0 i.
Lemma rhsF_LF N_ang ws mus cc (S0 : nat -> R -> R) a s i : (s < fN c)%nat -> Cc (S0 i) ->
  LF (fun t y => rhsF N_ang ws mus cc t (fun j => S0 j t) y a s i).
Proof.
  intros Hs HC. unfold rhsF.
  apply LF_plus; [|apply LF_scal; auto; now apply (LF_coef I t0 t1 (S0 i))].
  apply LF_plus; [|apply LF_scal; auto; apply P_LF].
  apply LF_minus; [|apply LF_proj].
  apply LF_plus; [|apply LF_scal; auto; apply (dot_LF a s i (fun t => L_slab (E s t) (E (S s) t))); intros; now apply L_Cc].
  apply LF_minus; [|now apply LUf_LF].
  apply (dot_LF a s i (fun t => G_slab (E s t) (E (S s) t) (D s t) (D (S s) t))); intros; now apply G_Cc.
Qed.
Lemma rhsF_is st N_ang ws mus cc t S0 (y : I -> R) a s i : t0 <= t <= t1 -> (s < fN c)%nat ->
  slab_rhs c st N_ang ws mus cc t (fun k => E k t) (fun k => D k t) S0 (fun l k j => y (l, k, j)) a s i =
  rhsF N_ang ws mus cc t S0 y a s i.
Proof.
  intros Ht Hs. unfold slab_rhs, rhsF. cbv zeta. rewrite LU_is by (auto; destruct (HM t Ht); auto). rewrite (Nat.add_1_r s). reflexivity.
Qed.

(** the same for the coupled equations; the material energy is direction N_ang, as in the state array of the code *)
Definition thermF (N_ang : nat) (ws mus : nat -> R) (cc c_a l : R) (t : R) (S0 : nat -> R) (y : I -> R) (a s i : nat) : R :=
  let T := dotv (fM c + 1) (G_slab (E s t) (E (S s) t) (D s t) (D (S s) t)) (fun j => y (a, s, j)) i
    - LUf t (fun k => E k t) (fun k => D k t) (fun k j => y (a, k, j)) s (mus a) i
    + mus a * dotv (fM c + 1) (L_slab (E s t) (E (S s) t)) (fun j => y (a, s, j)) i - y (a, s, i) / l in
  let P := make_P N_ang ws (fun l j => y (l, s, j)) i in
  let H := c_a * (1 / 2) * y (N_ang, s, i) / l in
  if uncollided_on c then T + cc * (P + S0 i * (1 / 2)) / l + H else T + cc * P / l + S0 i * (1 / 2) / l + H.
Definition enerF (N_ang : nat) (ws : nat -> R) (c_a l : R) (t : R) (S0 : nat -> R) (y : I -> R) (s i : nat) : R :=
  let RHS := dotv (fM c + 1) (G_slab (E s t) (E (S s) t) (D s t) (D (S s) t)) (fun j => y (N_ang, s, j)) i
    - LUf t (fun k => E k t) (fun k => D k t) (fun k j => y (N_ang, k, j)) s 0 i
    + c_a * (2 * make_P N_ang ws (fun l j => y (l, s, j)) i - y (N_ang, s, i)) / l in
  if uncollided_on c then RHS + c_a * S0 i / l else RHS.
Lemma thermF_LF N_ang ws mus cc c_a l (S0 : nat -> R -> R) a s i : (s < fN c)%nat -> Cc (S0 i) ->
  LF (fun t y => thermF N_ang ws mus cc c_a l t (fun j => S0 j t) y a s i).
Proof.
  intros Hs HC. unfold thermF. cbv zeta.
  assert (T : LF (fun t y => dotv (fM c + 1) (G_slab (E s t) (E (S s) t) (D s t) (D (S s) t)) (fun j => y (a, s, j)) i
    - LUf t (fun k => E k t) (fun k => D k t) (fun k j => y (a, k, j)) s (mus a) i
    + mus a * dotv (fM c + 1) (L_slab (E s t) (E (S s) t)) (fun j => y (a, s, j)) i - y (a, s, i) / l)).
  { apply LF_minus; [|apply LF_div; auto; apply LF_proj].
    apply LF_plus; [|apply LF_scal; auto; apply (dot_LF a s i (fun t => L_slab (E s t) (E (S s) t))); intros; now apply L_Cc].
    apply LF_minus; [|now apply LUf_LF].
    apply (dot_LF a s i (fun t => G_slab (E s t) (E (S s) t) (D s t) (D (S s) t))); intros; now apply G_Cc. }
  assert (H : LF (fun t y => c_a * (1 / 2) * y (N_ang, s, i) / l)).
  { apply LF_div; auto. apply (LF_scal I t0 t1 Hle (fun t y => y (N_ang, s, i))). apply LF_proj. }
  assert (P : LF (fun t y => make_P N_ang ws (fun l j => y (l, s, j)) i)) by apply P_LF.
  assert (Q : LF (fun t (_ : I -> R) => S0 i t * (1 / 2))) by (apply (LF_coef I t0 t1 (fun t => S0 i t * (1 / 2))); apply Cc_mult; auto; apply Cc_const).
  destruct (uncollided_on c).
  - apply LF_plus; auto. apply LF_plus; auto. apply LF_div; auto. apply LF_scal; auto. now apply LF_plus.
  - apply LF_plus; auto. apply LF_plus; [apply LF_plus; auto; apply LF_div; auto; now apply LF_scal|now apply LF_div].
Qed.
Lemma enerF_LF N_ang ws c_a l (S0 : nat -> R -> R) s i : (s < fN c)%nat -> Cc (S0 i) ->
  LF (fun t y => enerF N_ang ws c_a l t (fun j => S0 j t) y s i).
Proof.
  intros Hs HC. unfold enerF. cbv zeta.
  assert (T : LF (fun t y => dotv (fM c + 1) (G_slab (E s t) (E (S s) t) (D s t) (D (S s) t)) (fun j => y (N_ang, s, j)) i
    - LUf t (fun k => E k t) (fun k => D k t) (fun k j => y (N_ang, k, j)) s 0 i
    + c_a * (2 * make_P N_ang ws (fun l j => y (l, s, j)) i - y (N_ang, s, i)) / l)).
  { apply LF_plus; [|apply LF_div; auto; apply LF_scal; auto; apply LF_minus; [apply LF_scal; auto; apply P_LF|apply LF_proj]].
    apply LF_minus; [|now apply LUf_LF].
    apply (dot_LF N_ang s i (fun t => G_slab (E s t) (E (S s) t) (D s t) (D (S s) t))); intros; now apply G_Cc. }
  destruct (uncollided_on c); auto.
  apply LF_plus; auto. apply LF_div; auto. apply LF_scal; auto. now apply (LF_coef I t0 t1 (S0 i)).
Qed.
Lemma thermF_is st N_ang ws mus cc c_a l t S0 (y : I -> R) a s i : t0 <= t <= t1 -> (s < fN c)%nat ->
  slab_rhs_thermal c st N_ang ws mus cc c_a l t (fun k => E k t) (fun k => D k t) (fun j => y (N_ang, s, j)) S0 (fun l k j => y (l, k, j)) a s i =
  thermF N_ang ws mus cc c_a l t S0 y a s i.
Proof.
  intros Ht Hs. unfold slab_rhs_thermal, thermF. cbv zeta. rewrite LU_is by (auto; destruct (HM t Ht); auto). rewrite (Nat.add_1_r s).
  destruct (N_ang =? 2)%nat, (uncollided_on c); unfold Rdiv; ring.
Qed.
Lemma enerF_is st N_ang ws c_a l t S0 (y : I -> R) s i : t0 <= t <= t1 -> (s < fN c)%nat ->
  slab_energy c st N_ang ws c_a l t (fun k => E k t) (fun k => D k t) (fun j => y (N_ang, s, j)) S0 (fun l k j => y (l, k, j)) (fun k j => y (N_ang, k, j)) s i =
  enerF N_ang ws c_a l t S0 y s i.
Proof.
  intros Ht Hs. unfold slab_energy, enerF. cbv zeta. rewrite LU_is by (auto; destruct (HM t Ht); auto). rewrite (Nat.add_1_r s). reflexivity.
Qed.

(** only the coefficients of existing cells, directions and orders matter *)
Lemma field_same (y z : I -> R) a k p q x : (forall j, (j <= fM c)%nat -> y (a, k, j) = z (a, k, j)) ->
  field Slab (fM c) (fun j => y (a, k, j)) p q x = field Slab (fM c) (fun j => z (a, k, j)) p q x.
Proof. intros H. unfold field. apply sumn_ext. intros j Hj. rewrite H; [reflexivity|lia]. Qed.
Lemma LUf_same t e d (y z : I -> R) a s mul i : (s < fN c)%nat -> (forall k j, (k < fN c)%nat -> (j <= fM c)%nat -> y (a, k, j) = z (a, k, j)) ->
  LUf t e d (fun k j => y (a, k, j)) s mul i = LUf t e d (fun k j => z (a, k, j)) s mul i.
Proof.
  intros Hs H.
  assert (FL : forall f, (f <= fN c)%nat -> flux t e d (fun k j => y (a, k, j)) mul f = flux t e d (fun k j => z (a, k, j)) mul f).
  { intros f Hf. unfold flux. f_equal; f_equal.
    - unfold val_l. destruct f as [|k]; [reflexivity|]. apply field_same. intros. apply H; auto; lia.
    - unfold val_r. destruct (Nat.ltb_spec f (fN c)); [|reflexivity]. apply field_same. intros. apply H; auto. }
  unfold LUf. rewrite !FL by lia. reflexivity.
Qed.
Lemma dot_same A (y z : I -> R) a s i : (forall j, (j <= fM c)%nat -> y (a, s, j) = z (a, s, j)) ->
  dotv (fM c + 1) A (fun j => y (a, s, j)) i = dotv (fM c + 1) A (fun j => z (a, s, j)) i.
Proof. intros H. unfold dotv. apply sumn_ext. intros j Hj. rewrite H; [reflexivity|lia]. Qed.
Lemma P_same N_ang ws (y z : I -> R) s i : (forall l, (l < N_ang)%nat -> y (l, s, i) = z (l, s, i)) ->
  make_P N_ang ws (fun l j => y (l, s, j)) i = make_P N_ang ws (fun l j => z (l, s, j)) i.
Proof. intros H. unfold make_P. apply sumn_ext. intros l Hl. rewrite H; auto. Qed.
Definition same (A : nat) (y z : I -> R) : Prop := forall a s j, (a < A)%nat -> (s < fN c)%nat -> (j <= fM c)%nat -> y (a, s, j) = z (a, s, j).
Lemma rhsF_same N_ang ws mus cc t S0 (y z : I -> R) a s i : same N_ang y z -> (a < N_ang)%nat -> (s < fN c)%nat -> (i <= fM c)%nat ->
  rhsF N_ang ws mus cc t S0 y a s i = rhsF N_ang ws mus cc t S0 z a s i.
Proof.
  intros H Ha Hs Hi. unfold rhsF.
  rewrite (LUf_same t _ _ y z a s (mus a) i), (P_same N_ang ws y z s i), !(dot_same _ y z a s i), H by (auto; intros; now apply H). reflexivity.
Qed.
Lemma thermF_same N_ang ws mus cc c_a l t S0 (y z : I -> R) a s i : same (S N_ang) y z -> (a < N_ang)%nat -> (s < fN c)%nat -> (i <= fM c)%nat ->
  thermF N_ang ws mus cc c_a l t S0 y a s i = thermF N_ang ws mus cc c_a l t S0 z a s i.
Proof.
  intros H Ha Hs Hi. unfold thermF. cbv zeta.
  rewrite (LUf_same t _ _ y z a s (mus a) i), (P_same N_ang ws y z s i), !(dot_same _ y z a s i), !H by (auto; intros; apply H; auto; lia). reflexivity.
Qed.
Lemma enerF_same N_ang ws c_a l t S0 (y z : I -> R) s i : same (S N_ang) y z -> (s < fN c)%nat -> (i <= fM c)%nat ->
  enerF N_ang ws c_a l t S0 y s i = enerF N_ang ws c_a l t S0 z s i.
Proof.
  intros H Hs Hi. unfold enerF. cbv zeta.
  rewrite (LUf_same t _ _ y z N_ang s 0 i), (P_same N_ang ws y z s i), !(dot_same _ y z N_ang s i), !H by (auto; intros; apply H; auto; lia). reflexivity.
Qed.
End Slab.
