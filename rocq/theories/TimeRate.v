(** The error of a Runge-Kutta method on moving meshes is at most proportional to the longest step. *)
From Coquelicot Require Import Coquelicot.
From Verif Require Import Py PyLemmas Calc Legendre Cheb DGModel DGSpec DGProofs StabSpec SymSpec Picard ExistSpec ExistProofs TimeModel TimeProofs TimeExist.

(** Lipschitz on [t0, t1] *)
Definition lipschitz_on (f : R -> R) (t0 t1 : R) : Prop :=
  exists L, 0 <= L /\ forall s t, t0 <= s <= t1 -> t0 <= t <= t1 -> Rabs (f s - f t) <= L * Rabs (s - t).

Section Lp.
Variables (I : Type) (t0 t1 : R).
Hypothesis Hle : t0 <= t1.
Definition Lp (f : R -> R) : Prop := lipschitz_on f t0 t1.
Lemma Lp_bounded f : Lp f -> exists M, 0 <= M /\ forall t, t0 <= t <= t1 -> Rabs (f t) <= M.
Proof.
  intros (L & P & H). exists (Rabs (f t0) + L * (t1 - t0)). assert (0 <= L * (t1 - t0)) by (apply Rmult_le_pos; lra).
  split; [pose proof (Rabs_pos (f t0)); lra|]. intros t Ht. specialize (H t t0 Ht ltac:(lra)). rewrite (Rabs_right (t - t0)) in H by lra.
  assert (L * (t - t0) <= L * (t1 - t0)) by (apply Rmult_le_compat_l; lra).
  replace (f t) with (f t0 + (f t - f t0)) by ring. eapply Rle_trans; [apply Rabs_triang|]. lra.
Qed.
Lemma clamp_lip s t : Rabs (clamp t0 t1 s - clamp t0 t1 t) <= Rabs (s - t).
Proof. unfold clamp, Rmax, Rmin. repeat destruct (Rle_dec _ _); unfold Rabs; repeat destruct (Rcase_abs _); lra. Qed.
Lemma Lp_Cc f : Lp f -> Cc t0 t1 f.
Proof.
  intros (L & P & H) t. apply continuity_pt_filterlim. intros e He. exists (e / (L + 1)). split; [apply Rdiv_lt_0_compat; lra|].
  intros s [_ Hs]. cbn in *. unfold R_dist in *.
  assert (Q := H (clamp t0 t1 s) (clamp t0 t1 t) (clamp_in _ _ _ Hle) (clamp_in _ _ _ Hle)).
  eapply Rle_lt_trans; [apply Q|]. pose proof (clamp_lip s t). pose proof (Rabs_pos (s - t)).
  apply Rle_lt_trans with (L * Rabs (s - t)); [apply Rmult_le_compat_l; lra|].
  apply Rle_lt_trans with ((L + 1) * Rabs (s - t)); [lra|]. apply Rlt_le_trans with ((L + 1) * (e / (L + 1))); [apply Rmult_lt_compat_l; lra|right; field; lra].
Qed.
Lemma Lp_const a : Lp (fun _ => a).
Proof. exists 0. split; [lra|]. intros. rewrite Rminus_eq_0, Rabs_R0. lra. Qed.
Lemma Lp_id : Lp (fun t => t).
Proof. exists 1. split; [lra|]. intros. lra. Qed.
Lemma Lp_plus f g : Lp f -> Lp g -> Lp (fun t => f t + g t).
Proof.
  intros (L1 & P1 & H1) (L2 & P2 & H2). exists (L1 + L2). split; [lra|]. intros s t Hs Ht. specialize (H1 s t Hs Ht). specialize (H2 s t Hs Ht).
  replace (f s + g s - (f t + g t)) with ((f s - f t) + (g s - g t)) by ring. eapply Rle_trans; [apply Rabs_triang|]. lra.
Qed.
Lemma Lp_opp f : Lp f -> Lp (fun t => - f t).
Proof.
  intros (L & P & H). exists L. split; auto. intros s t Hs Ht. replace (- f s - - f t) with (- (f s - f t)) by ring. rewrite Rabs_Ropp. auto.
Qed.
Lemma Lp_minus f g : Lp f -> Lp g -> Lp (fun t => f t - g t).
Proof. intros F G. apply (Lp_plus f (fun t => - g t)); auto. now apply Lp_opp. Qed.
Lemma Lp_mult f g : Lp f -> Lp g -> Lp (fun t => f t * g t).
Proof.
  intros F G. destruct (Lp_bounded f F) as (A & PA & HA). destruct (Lp_bounded g G) as (B & PB & HB).
  destruct F as (L1 & P1 & H1). destruct G as (L2 & P2 & H2). exists (A * L2 + B * L1).
  assert (0 <= A * L2) by now apply Rmult_le_pos. assert (0 <= B * L1) by now apply Rmult_le_pos.
  split; [lra|]. intros s t Hs Ht. specialize (H1 s t Hs Ht). specialize (H2 s t Hs Ht).
  replace (f s * g s - f t * g t) with (f s * (g s - g t) + g t * (f s - f t)) by ring.
  eapply Rle_trans; [apply Rabs_triang|]. rewrite !Rabs_mult, Rmult_plus_distr_r, !Rmult_assoc.
  apply Rplus_le_compat; apply Rmult_le_compat; try apply Rabs_pos; auto.
Qed.
Lemma Lp_inv f : Lp f -> (forall t, t0 <= t <= t1 -> f t <> 0) -> Lp (fun t => / f t).
Proof.
  intros F N. destruct (Cc_bounded t0 t1 Hle (fun t => / f t)) as (M & PM & HM). { apply Cc_inv; auto. now apply Lp_Cc. }
  destruct F as (L & P & H). exists (M * M * L). split; [repeat apply Rmult_le_pos; auto|]. intros s t Hs Ht.
  replace (/ f s - / f t) with (- (/ f s * / f t * (f s - f t))) by (field; split; apply N; auto).
  rewrite Rabs_Ropp, !Rabs_mult, (Rmult_assoc (M * M)). apply Rmult_le_compat; auto; try apply Rabs_pos; [apply Rmult_le_pos; apply Rabs_pos|].
  apply Rmult_le_compat; try apply Rabs_pos; [now apply HM|now apply HM].
Qed.
Lemma Lp_div f g : Lp f -> Lp g -> (forall t, t0 <= t <= t1 -> g t <> 0) -> Lp (fun t => f t / g t).
Proof. intros F G N. apply (Lp_mult f (fun t => / g t)); auto. now apply Lp_inv. Qed.
Lemma Lp_sqrt f : Lp f -> (forall t, t0 <= t <= t1 -> 0 < f t) -> Lp (fun t => sqrt (f t)).
Proof.
  intros F N. destruct (Cc_bounded t0 t1 Hle (fun t => / sqrt (f t))) as (M & PM & HM).
  { apply Cc_inv; auto; [apply Cc_sqrt; now apply Lp_Cc|]. intros t Ht. apply Rgt_not_eq, sqrt_lt_R0. auto. }
  destruct F as (L & P & H). exists (M * L). split; [now apply Rmult_le_pos|]. intros s t Hs Ht.
  pose proof (N s Hs) as Ns. pose proof (N t Ht) as Nt. pose proof (sqrt_lt_R0 _ Ns) as Qs. pose proof (sqrt_lt_R0 _ Nt) as Qt.
  replace (sqrt (f s) - sqrt (f t)) with (/ (sqrt (f s) + sqrt (f t)) * (f s - f t)).
  2: { rewrite <- (sqrt_sqrt (f s)) at 2 by lra. rewrite <- (sqrt_sqrt (f t)) at 2 by lra. field. lra. }
  rewrite Rabs_mult, Rmult_assoc. apply Rmult_le_compat; auto; try apply Rabs_pos.
  rewrite Rabs_right by (left; apply Rinv_0_lt_compat; lra). specialize (HM s Hs). rewrite Rabs_right in HM by (left; now apply Rinv_0_lt_compat).
  eapply Rle_trans; [|apply HM]. apply Rinv_le_contravar; lra.
Qed.
Lemma Lp_comp g g' f : (forall z, is_derive g z (g' z)) -> (forall z, continuous g' z) -> Lp f -> Lp (fun t => g (f t)).
Proof.
  intros G G' F. destruct (Lp_bounded f F) as (M & PM & HM). destruct F as (L & P & H).
  destruct (bounded_continuity g' (- M) M) as [B HB]. { intros x _. apply G'. }
  assert (PB : 0 <= B). { eapply Rle_trans; [apply Rabs_pos|left; apply (HB 0); lra]. }
  exists (B * L). split; [now apply Rmult_le_pos|]. intros s t Hs Ht.
  assert (X : Rabs (g (f s) - g (f t)) <= B * Rabs (f s - f t)).
  { destruct (MVT_gen g (f t) (f s) g') as (z & Hz & ->).
    - intros x _. apply G.
    - intros x _. apply continuity_pt_filterlim. apply (ex_derive_continuous g). exists (g' x). apply G.
    - rewrite Rabs_mult. apply Rmult_le_compat_r; [apply Rabs_pos|]. left. apply HB.
      pose proof (HM s Hs) as A1. pose proof (HM t Ht) as A2. apply Rabs_le_between in A1. apply Rabs_le_between in A2.
      unfold Rmin, Rmax in Hz. destruct (Rle_dec _ _); lra. }
  eapply Rle_trans; [apply X|]. rewrite Rmult_assoc. apply Rmult_le_compat_l; auto.
Qed.
Lemma Lp_exp f : Lp f -> Lp (fun t => exp (f t)).
Proof. apply (Lp_comp exp exp); [apply is_derive_exp|]. intros z. apply (ex_derive_continuous exp). exists (exp z). apply is_derive_exp. Qed.
Lemma Lp_non g f : (forall x y, Rabs (g x - g y) <= Rabs (x - y)) -> Lp f -> Lp (fun t => g (f t)).
Proof. intros G (L & P & H). exists L. split; auto. intros s t Hs Ht. eapply Rle_trans; [apply G|auto]. Qed.
Lemma pos_non x y : Rabs (Rmax 0 x - Rmax 0 y) <= Rabs (x - y).
Proof. unfold Rmax. repeat destruct (Rle_dec _ _); unfold Rabs; repeat destruct (Rcase_abs _); lra. Qed.
Lemma neg_non x y : Rabs (Rmin 0 x - Rmin 0 y) <= Rabs (x - y).
Proof. unfold Rmin. repeat destruct (Rle_dec _ _); unfold Rabs; repeat destruct (Rcase_abs _); lra. Qed.
Lemma Lp_ext f g : (forall t, t0 <= t <= t1 -> f t = g t) -> Lp f -> Lp g.
Proof. intros E (L & P & H). exists L. split; auto. intros s t Hs Ht. rewrite <- !E by auto. auto. Qed.
Lemma Lp_sumn n (f : nat -> R -> R) : (forall j, (j < n)%nat -> Lp (f j)) -> Lp (fun t => sumn n (fun j => f j t)).
Proof.
  clear Hle. intros H. induction n as [|n IH]; cbn [sumn]; [apply Lp_const|].
  apply (Lp_plus (fun t => sumn n (fun j => f j t)) (f n)); [apply IH; intros; apply H; lia|apply H; lia].
Qed.
Lemma Lp_rsum {A} (l : list A) (f : A -> R -> R) : (forall a, Lp (f a)) -> Lp (fun t => rsum (map (fun a => f a t) l)).
Proof. intros H. induction l as [|a l IH]; cbn [map rsum fold_right]; [apply Lp_const|]. apply (Lp_plus (f a)); auto. Qed.

(** Lipschitz in time along Lipschitz states *)
Definition LL (f : R -> (I -> R) -> R) : Prop := forall x : I -> R -> R, (forall i, Lp (x i)) -> Lp (fun t => f t (fun j => x j t)).
Lemma LL_proj i : LL (fun _ x => x i).
Proof. intros x H. apply H. Qed.
Lemma LL_coef c : Lp c -> LL (fun t _ => c t).
Proof. intros H x _. exact H. Qed.
Lemma LL_plus f g : LL f -> LL g -> LL (fun t x => f t x + g t x).
Proof. intros F G x H. apply (Lp_plus (fun t => f t (fun j => x j t))); auto. Qed.
Lemma LL_opp f : LL f -> LL (fun t x => - f t x).
Proof. intros F x H. apply (Lp_opp (fun t => f t (fun j => x j t))); auto. Qed.
Lemma LL_minus f g : LL f -> LL g -> LL (fun t x => f t x - g t x).
Proof. intros F G. apply LL_plus; auto. now apply LL_opp. Qed.
Lemma LL_mult c f : Lp c -> LL f -> LL (fun t x => c t * f t x).
Proof. intros C F x H. apply (Lp_mult c (fun t => f t (fun j => x j t))); auto. Qed.
Lemma LL_multr c f : Lp c -> LL f -> LL (fun t x => f t x * c t).
Proof. intros C F x H. apply (Lp_mult (fun t => f t (fun j => x j t)) c); auto. Qed.
Lemma LL_scal f k : LL f -> LL (fun t x => k * f t x).
Proof. intros F. apply (LL_mult (fun _ => k)); auto. apply Lp_const. Qed.
Lemma LL_div f k : LL f -> LL (fun t x => f t x / k).
Proof. intros F. apply (LL_multr (fun _ => / k)); auto. apply Lp_const. Qed.
Lemma LL_sumn n (f : nat -> R -> (I -> R) -> R) : (forall j, (j < n)%nat -> LL (f j)) -> LL (fun t x => sumn n (fun j => f j t x)).
Proof. intros H x Hx. apply (Lp_sumn n (fun j t => f j t (fun j => x j t))). intros j Hj. now apply H. Qed.
End Lp.

Section SlabL.
Variables (c : flux_cfg) (E D : nat -> R -> R) (t0 t1 : R).
Hypothesis Hg : fgeom c = Slab.
Hypothesis HN : (2 <= fN c)%nat.
Hypothesis Hle : t0 <= t1.
Hypothesis HM : mesh_ok c E D t0 t1.
Hypothesis HD : forall k, (k <= fN c)%nat -> lipschitz_on (D k) t0 t1.
Hypothesis HS : steady c t0 t1.
Let I := (nat * nat * nat)%type.
Notation Lp := (Lp t0 t1).
Notation LL := (LL I t0 t1).

Lemma D_Lp k : (k <= fN c)%nat -> Lp (D k).
Proof. intros Hk. now apply HD. Qed.
Lemma E_Lp k : (k <= fN c)%nat -> Lp (E k).
Proof.
  intros Hk. destruct (Lp_bounded t0 t1 Hle (D k) (D_Lp k Hk)) as (M & PM & H). exists M. split; auto.
  assert (X := x_lip unit t0 t1 (fun t _ _ => D k t) (fun _ => E k)). cbv beta in X.
  assert (Y : forall s t, t0 <= s <= t -> t <= t1 -> Rabs (E k t - E k s) <= M * (t - s)).
  { intros s t Hs Ht. apply (X (fun u _ Hu => proj2 (HM u Hu) k Hk) M (fun _ u Hu => H u Hu) tt); auto. }
  intros s t Hs Ht. destruct (Rle_dec s t).
  - rewrite (Rabs_minus_sym s t), (Rabs_minus_sym (E k s)), (Rabs_right (t - s)) by lra. apply Y; lra.
  - rewrite (Rabs_right (s - t)) by lra. apply Y; lra.
Qed.
Lemma E_lt k t : (k < fN c)%nat -> t0 <= t <= t1 -> E k t < E (S k) t.
Proof. intros Hk Ht. destruct (HM t Ht) as [H _]. now apply H. Qed.
Lemma basis_Lp j (x a b : R -> R) : Lp x -> Lp a -> Lp b -> (forall t, t0 <= t <= t1 -> a t < b t) -> Lp (fun t => basis Slab j (x t) (a t) (b t)).
Proof.
  intros X A B L. cbn [basis].
  assert (N : forall t, t0 <= t <= t1 -> b t - a t <> 0) by (intros t Ht; specialize (L t Ht); lra).
  apply (Lp_mult t0 t1 Hle (fun t => sqrt ((2 * INR j + 1) / (b t - a t))) (fun t => leg j (refz (x t) (a t) (b t)))).
  - apply (Lp_sqrt t0 t1 Hle); [apply Lp_div; auto; [apply Lp_const|]; now apply Lp_minus|]. intros t Ht. pose proof (pos_INR j). specialize (L t Ht). apply Rdiv_lt_0_compat; lra.
  - apply (Lp_comp _ _ Hle (leg j) (dleg j)); [apply leg_derive|apply dleg_cont|]. unfold refz. apply Lp_div; auto.
    + apply Lp_minus; auto. apply Lp_minus; auto. apply (Lp_mult t0 t1 Hle); auto. apply Lp_const.
    + now apply Lp_minus.
Qed.
Lemma bdata_Lp (x : R -> R) : Lp x -> Lp (fun t => bdata c t (x t)).
Proof.
  intros X. unfold bdata. destruct HS as (_ & _ & H). destruct (src4 c); [|apply Lp_const].
  assert (Z : forall t, t0 <= t <= t1 -> t + 1 <> 0) by (intros t Ht; specialize (H eq_refl); lra).
  apply Lp_div; [auto| |apply Lp_const|intros; lra]. apply Lp_div; auto.
  - apply (Lp_exp t0 t1 Hle). apply Lp_div; [auto| |apply Lp_const|intros; lra]. apply (Lp_mult t0 t1 Hle); auto. now apply Lp_opp.
  - apply Lp_plus; [apply Lp_id; auto|apply Lp_const].
Qed.
Lemma bcoef_Lp j (a b : R -> R) : Lp a -> Lp b -> (forall t, t0 <= t <= t1 -> a t < b t) -> Lp (fun t => bcoef c t (a t) (b t) j).
Proof.
  intros A B L. unfold bcoef.
  assert (W : Lp (fun t => (b t - a t) / 2)) by (apply Lp_div; [auto|now apply Lp_minus|apply Lp_const|intros; lra]).
  apply (Lp_mult t0 t1 Hle); auto.
  apply (Lp_rsum _ _ (fquad c) (fun xw t => let x := (b t - a t) / 2 * fst xw + (a t + b t) / 2 in snd xw * bdata c t x * basis Slab j x (a t) (b t))).
  intros [x w]. cbn [fst snd]. cbv zeta.
  assert (X : Lp (fun t => (b t - a t) / 2 * x + (a t + b t) / 2)).
  { apply Lp_plus; [apply (Lp_mult t0 t1 Hle); auto; apply Lp_const|]. apply Lp_div; [auto|now apply Lp_plus|apply Lp_const|intros; lra]. }
  apply (Lp_mult t0 t1 Hle); [apply (Lp_mult t0 t1 Hle); [apply Lp_const|now apply (bdata_Lp (fun t => (b t - a t) / 2 * x + (a t + b t) / 2))]|].
  now apply (basis_Lp j (fun t => (b t - a t) / 2 * x + (a t + b t) / 2)).
Qed.

Lemma ghost_l_Lp : Lp (fun t => ghost_l c t (fun k => E k t)).
Proof.
  pose proof (E_Lp 0 ltac:(lia)) as E0. pose proof (E_Lp 1 ltac:(lia)) as E1.
  assert (X : Lp (fun t => E 0%nat t - (E 1%nat t - E 0%nat t))) by (apply Lp_minus; auto; now apply Lp_minus).
  assert (L : forall t, t0 <= t <= t1 -> E 0%nat t - (E 1%nat t - E 0%nat t) < E 0%nat t) by (intros t Ht; pose proof (E_lt 0 t ltac:(lia) Ht); lra).
  unfold ghost_l, field. cbv zeta. apply Lp_sumn; auto. intros j _. apply (Lp_mult t0 t1 Hle).
  - now apply (bcoef_Lp j (fun t => E 0%nat t - (E 1%nat t - E 0%nat t))).
  - now apply (basis_Lp j (E 0%nat) (fun t => E 0%nat t - (E 1%nat t - E 0%nat t))).
Qed.
Lemma ghost_r_Lp : Lp (fun t => ghost_r c t (fun k => E k t)).
Proof.
  pose proof (E_Lp (fN c) ltac:(lia)) as E0. pose proof (E_Lp (fN c - 1) ltac:(lia)) as E1.
  assert (X : Lp (fun t => E (fN c) t + (E (fN c) t - E (fN c - 1)%nat t))) by (apply Lp_plus; auto; now apply Lp_minus).
  assert (L : forall t, t0 <= t <= t1 -> E (fN c) t < E (fN c) t + (E (fN c) t - E (fN c - 1)%nat t)).
  { intros t Ht. pose proof (E_lt (fN c - 1) t ltac:(lia) Ht) as Q. replace (S (fN c - 1)) with (fN c) in Q by lia. lra. }
  unfold ghost_r, field. cbv zeta. apply Lp_sumn; auto. intros j _. apply (Lp_mult t0 t1 Hle).
  - now apply (bcoef_Lp j (E (fN c)) (fun t => E (fN c) t + (E (fN c) t - E (fN c - 1)%nat t))).
  - now apply (basis_Lp j (E (fN c)) (E (fN c)) (fun t => E (fN c) t + (E (fN c) t - E (fN c - 1)%nat t))).
Qed.
Lemma in_l_Lp : Lp (fun t => in_l c t (fun k => E k t)).
Proof.
  destruct HS as ([H|H] & _ & _).
  - apply (Lp_ext _ _ (fun t => ghost_l c t (fun k => E k t))); [|apply ghost_l_Lp].
    intros t Ht. unfold in_l. specialize (H t Ht). apply left_on_iff in H. now rewrite H.
  - apply (Lp_ext _ _ (fun t => 0)); [|apply Lp_const].
    intros t Ht. unfold in_l. specialize (H t Ht). destruct (is_boundary_source_on c 0 t) eqn:B; auto. apply left_on_iff in B. contradiction.
Qed.
Lemma in_r_Lp : Lp (fun t => in_r c t (fun k => E k t)).
Proof.
  destruct HS as (_ & [H|H] & _).
  - apply (Lp_ext _ _ (fun t => ghost_r c t (fun k => E k t))); [|apply ghost_r_Lp].
    intros t Ht. unfold in_r. specialize (H t Ht). apply right_on_iff in H; auto. now rewrite H.
  - apply (Lp_ext _ _ (fun t => 0)); [|apply Lp_const].
    intros t Ht. unfold in_r. specialize (H t Ht). destruct (is_boundary_source_on c (fN c - 1) t) eqn:B; auto. apply right_on_iff in B; auto. contradiction.
Qed.

Lemma field_LL a k (x : R -> R) : (k < fN c)%nat -> Lp x -> LL (fun t y => field Slab (fM c) (fun j => y (a, k, j)) (E k t) (E (S k) t) (x t)).
Proof.
  intros Hk X. unfold field. apply (LL_sumn I t0 t1 (fM c + 1) (fun j t (y : I -> R) => y (a, k, j) * basis Slab j (x t) (E k t) (E (S k) t))).
  intros j _. apply (LL_multr I t0 t1 Hle (fun t => basis Slab j (x t) (E k t) (E (S k) t))); [|apply LL_proj].
  apply basis_Lp; auto; [apply E_Lp; lia|apply E_Lp; lia|]. intros t Ht. now apply E_lt.
Qed.
Lemma val_l_LL a f : (f <= fN c)%nat -> LL (fun t y => val_l c t (fun k => E k t) (fun k j => y (a, k, j)) f).
Proof.
  intros Hf. destruct f as [|k]; cbn [val_l].
  - apply (LL_coef I t0 t1 (fun t => in_l c t (fun k => E k t))). apply in_l_Lp.
  - apply field_LL; [lia|]. now apply E_Lp.
Qed.
Lemma val_r_LL a f : (f <= fN c)%nat -> LL (fun t y => val_r c t (fun k => E k t) (fun k j => y (a, k, j)) f).
Proof.
  intros Hf. unfold val_r. destruct (Nat.ltb_spec f (fN c)).
  - apply field_LL; [lia|]. now apply E_Lp.
  - apply (LL_coef I t0 t1 (fun t => in_r c t (fun k => E k t))). apply in_r_Lp.
Qed.
Lemma flux_LL a mul f : (f <= fN c)%nat -> LL (fun t y => flux c t (fun k => E k t) (fun k => D k t) (fun k j => y (a, k, j)) mul f).
Proof.
  intros Hf. unfold flux.
  assert (V : Lp (fun t => mul - D f t)) by (apply Lp_minus; [apply Lp_const|now apply D_Lp]).
  apply LL_plus.
  - apply (LL_mult I t0 t1 Hle (fun t => Rmax 0 (mul - D f t))); [|now apply val_l_LL].
    apply (Lp_non _ _ (Rmax 0)); auto. apply pos_non.
  - apply (LL_mult I t0 t1 Hle (fun t => Rmin 0 (mul - D f t))); [|now apply val_r_LL].
    apply (Lp_non _ _ (Rmin 0)); auto. apply neg_non.
Qed.
Lemma LUf_LL a s mul i : (s < fN c)%nat -> LL (fun t y => LUf c t (fun k => E k t) (fun k => D k t) (fun k j => y (a, k, j)) s mul i).
Proof.
  intros Hs. unfold LUf.
  assert (L : forall t, t0 <= t <= t1 -> E s t < E (S s) t) by (intros; now apply E_lt).
  pose proof (E_Lp s ltac:(lia)). pose proof (E_Lp (S s) ltac:(lia)).
  apply LL_minus.
  - apply (LL_mult I t0 t1 Hle (fun t => basis Slab i (E (S s) t) (E s t) (E (S s) t))); [now apply basis_Lp|apply flux_LL; lia].
  - apply (LL_mult I t0 t1 Hle (fun t => basis Slab i (E s t) (E s t) (E (S s) t))); [now apply basis_Lp|apply flux_LL; lia].
Qed.

Lemma G_Lp s i j : (s < fN c)%nat -> Lp (fun t => G_slab (E s t) (E (S s) t) (D s t) (D (S s) t) i j).
Proof.
  intros Hs. pose proof (E_Lp s ltac:(lia)) as E0. pose proof (E_Lp (S s) ltac:(lia)) as E1.
  pose proof (D_Lp s ltac:(lia)) as D0. pose proof (D_Lp (S s) ltac:(lia)) as D1.
  assert (N : forall t, t0 <= t <= t1 -> E (S s) t - E s t <> 0) by (intros t Ht; pose proof (E_lt s t Hs Ht); lra).
  assert (H : Lp (fun t => 1 / (E (S s) t - E s t))) by (apply Lp_div; auto; [apply Lp_const|now apply Lp_minus]).
  unfold G_slab. cbv zeta. destruct (i =? j)%nat; [|destruct (j <? i)%nat; [destruct ((i + j) mod 2 =? 0)%nat|apply Lp_const]].
  all: apply (Lp_mult t0 t1 Hle); [apply (Lp_mult t0 t1 Hle); [apply Lp_const|exact H]|]; first [now apply Lp_minus|now apply Lp_plus].
Qed.
Lemma L_Lp s i j : (s < fN c)%nat -> Lp (fun t => L_slab (E s t) (E (S s) t) i j).
Proof.
  intros Hs. unfold L_slab. apply Lp_div; auto; [apply Lp_const|apply Lp_minus; apply E_Lp; lia|].
  intros t Ht. pose proof (E_lt s t Hs Ht). lra.
Qed.
Lemma dot_LL a s i (A : R -> nat -> nat -> R) : (forall j, Lp (fun t => A t i j)) -> LL (fun t y => dotv (fM c + 1) (A t) (fun j => y (a, s, j)) i).
Proof.
  intros H. unfold dotv. apply (LL_sumn I t0 t1 (fM c + 1) (fun j t (y : I -> R) => A t i j * y (a, s, j))). intros j _.
  apply (LL_mult I t0 t1 Hle (fun t => A t i j)); auto. apply LL_proj.
Qed.
Lemma P_LL N_ang ws s i : LL (fun t y => make_P N_ang ws (fun l j => y (l, s, j)) i).
Proof.
  unfold make_P. apply (LL_sumn I t0 t1 N_ang (fun l t (y : I -> R) => y (l, s, i) * ws l)). intros l _.
  apply (LL_multr I t0 t1 Hle (fun _ => ws l)); [apply Lp_const|]. apply LL_proj.
Qed.

Lemma rhsF_LL N_ang ws mus cc (S0 : nat -> R -> R) a s i : (s < fN c)%nat -> Lp (S0 i) ->
  LL (fun t y => rhsF c E D N_ang ws mus cc t (fun j => S0 j t) y a s i).
Proof.
  intros Hs HC. unfold rhsF.
  apply LL_plus; [|apply LL_scal; auto; now apply (LL_coef I t0 t1 (S0 i))].
  apply LL_plus; [|apply LL_scal; auto; apply P_LL].
  apply LL_minus; [|apply LL_proj].
  apply LL_plus; [|apply LL_scal; auto; apply (dot_LL a s i (fun t => L_slab (E s t) (E (S s) t))); intros; now apply L_Lp].
  apply LL_minus; [|now apply LUf_LL].
  apply (dot_LL a s i (fun t => G_slab (E s t) (E (S s) t) (D s t) (D (S s) t))); intros; now apply G_Lp.
Qed.
Lemma thermF_LL N_ang ws mus cc c_a l (S0 : nat -> R -> R) a s i : (s < fN c)%nat -> Lp (S0 i) ->
  LL (fun t y => thermF c E D N_ang ws mus cc c_a l t (fun j => S0 j t) y a s i).
Proof.
  intros Hs HC. unfold thermF. cbv zeta.
  assert (T : LL (fun t y => dotv (fM c + 1) (G_slab (E s t) (E (S s) t) (D s t) (D (S s) t)) (fun j => y (a, s, j)) i
    - LUf c t (fun k => E k t) (fun k => D k t) (fun k j => y (a, k, j)) s (mus a) i
    + mus a * dotv (fM c + 1) (L_slab (E s t) (E (S s) t)) (fun j => y (a, s, j)) i - y (a, s, i) / l)).
  { apply LL_minus; [|apply LL_div; auto; apply LL_proj].
    apply LL_plus; [|apply LL_scal; auto; apply (dot_LL a s i (fun t => L_slab (E s t) (E (S s) t))); intros; now apply L_Lp].
    apply LL_minus; [|now apply LUf_LL].
    apply (dot_LL a s i (fun t => G_slab (E s t) (E (S s) t) (D s t) (D (S s) t))); intros; now apply G_Lp. }
  assert (H : LL (fun t y => c_a * (1 / 2) * y (N_ang, s, i) / l)).
  { apply LL_div; auto. apply (LL_scal I t0 t1 Hle (fun t y => y (N_ang, s, i))). apply LL_proj. }
  assert (P : LL (fun t y => make_P N_ang ws (fun l j => y (l, s, j)) i)) by apply P_LL.
  assert (Q : LL (fun t (_ : I -> R) => S0 i t * (1 / 2))) by (apply (LL_coef I t0 t1 (fun t => S0 i t * (1 / 2))); apply (Lp_mult t0 t1 Hle); auto; apply Lp_const).
  destruct (uncollided_on c).
  - apply LL_plus; auto. apply LL_plus; auto. apply LL_div; auto. apply LL_scal; auto. now apply LL_plus.
  - apply LL_plus; auto. apply LL_plus; [apply LL_plus; auto; apply LL_div; auto; now apply LL_scal|now apply LL_div].
Qed.
Lemma enerF_LL N_ang ws c_a l (S0 : nat -> R -> R) s i : (s < fN c)%nat -> Lp (S0 i) ->
  LL (fun t y => enerF c E D N_ang ws c_a l t (fun j => S0 j t) y s i).
Proof.
  intros Hs HC. unfold enerF. cbv zeta.
  assert (T : LL (fun t y => dotv (fM c + 1) (G_slab (E s t) (E (S s) t) (D s t) (D (S s) t)) (fun j => y (N_ang, s, j)) i
    - LUf c t (fun k => E k t) (fun k => D k t) (fun k j => y (N_ang, k, j)) s 0 i
    + c_a * (2 * make_P N_ang ws (fun l j => y (l, s, j)) i - y (N_ang, s, i)) / l)).
  { apply LL_plus; [|apply LL_div; auto; apply LL_scal; auto; apply LL_minus; [apply LL_scal; auto; apply P_LL|apply LL_proj]].
    apply LL_minus; [|now apply LUf_LL].
    apply (dot_LL N_ang s i (fun t => G_slab (E s t) (E (S s) t) (D s t) (D (S s) t))); intros; now apply G_Lp. }
  destruct (uncollided_on c); auto.
  apply LL_plus; auto. apply LL_div; auto. apply LL_scal; auto. now apply (LL_coef I t0 t1 (S0 i)).
Qed.
End SlabL.

Section Rate.
Variables (I : Type) (t0 t1 : R).
Hypothesis Hle : t0 <= t1.
Variables (l : list I) (F : R -> (I -> R) -> I -> R).
Hypothesis HF : forall i, In i l -> LF I t0 t1 (fun t x => F t x i).
Hypothesis HO : forall i, In i l \/ forall t x, F t x i = 0.
Hypothesis HLL : forall i, In i l -> LL I t0 t1 (fun t x => F t x i).
Variable x : I -> R -> R.
Hypothesis HX : forall t i, t0 <= t <= t1 -> is_derive (x i) t (F t (fun j => x j t) i).
Variable T : tableau.
Hypothesis HT : consistent T.

Lemma x_Lp i : Lp t0 t1 (x i).
Proof.
  destruct (G_bound I t0 t1 Hle l F HF HO x HX) as (B & PB & HB). exists B. split; auto.
  pose proof (x_lip I t0 t1 F x HX B HB i) as Y. intros s t Hs Ht. destruct (Rle_dec s t).
  - rewrite (Rabs_minus_sym s t), (Rabs_minus_sym (x i s)), (Rabs_right (t - s)) by lra. apply Y; lra.
  - rewrite (Rabs_right (s - t)) by lra. apply Y; lra.
Qed.
Lemma G_Lip : exists Lg, 0 <= Lg /\ forall i s t, t0 <= s <= t1 -> t0 <= t <= t1 ->
  Rabs (F s (fun j => x j s) i - F t (fun j => x j t) i) <= Lg * Rabs (s - t).
Proof.
  assert (X : forall r, (forall i, In i r -> In i l) -> exists Lg, 0 <= Lg /\ forall i s t, In i r -> t0 <= s <= t1 -> t0 <= t <= t1 ->
    Rabs (F s (fun j => x j s) i - F t (fun j => x j t) i) <= Lg * Rabs (s - t)).
  { induction r as [|a r IH]; intros Hr; [exists 0; split; [lra|intros i s t []]|].
    destruct IH as (L1 & P1 & H1). { intros; apply Hr; now right. }
    destruct (HLL a (Hr a (or_introl eq_refl)) x x_Lp) as (L2 & P2 & H2). exists (L1 + L2). split; [lra|].
    intros i s t Hi Hs Ht. pose proof (Rmult_le_pos _ _ P1 (Rabs_pos (s - t))). pose proof (Rmult_le_pos _ _ P2 (Rabs_pos (s - t))).
    destruct Hi as [->|Hi]; [specialize (H2 s t Hs Ht)|specialize (H1 i s t Hi Hs Ht)]; lra. }
  destruct (X l) as (L & P & H); auto. exists L. split; auto. intros i s t Hs Ht. destruct (HO i) as [Hi|Hz]; auto.
  rewrite !Hz, Rminus_eq_0, Rabs_R0. apply Rmult_le_pos; auto. apply Rabs_pos.
Qed.
Theorem rk_rate : exists C d0, 0 <= C /\ 0 < d0 /\ forall d e hs y y', 0 <= d <= d0 -> 0 <= e -> (forall h, In h hs -> 0 <= h <= d) -> t0 + total hs <= t1 ->
  rk_run T F t0 y hs y' -> (forall i, Rabs (y i - x i t0) <= e) -> forall i, Rabs (y' i - x i (t0 + total hs)) <= C * (e + d).
Proof.
  destruct (lip I t0 t1 l F HF HO) as (K & HK & HL). destruct (G_bound I t0 t1 Hle l F HF HO x HX) as (B & PB & HB). destruct G_Lip as (Lg & PG & HG).
  pose proof (A_pos T) as PA. pose proof (be_pos T) as Pb.
  set (A := sumn (rs T) (fun i => sumn (rs T) (fun j => Rabs (rA T i j)))) in *. set (be := sumn (rs T) (fun i => Rabs (rb T i))) in *.
  set (L := 2 * K * be). set (E0 := exp (L * (t1 - t0))).
  assert (PL : 0 <= L) by (unfold L; apply Rmult_le_pos; lra).
  assert (PE : 0 < E0) by apply exp_pos. set (W := t1 - t0). assert (PW : 0 <= W) by (unfold W; lra).
  set (Q := be * (2 * K * (A * B + B))). assert (PQ : 0 <= Q).
  { unfold Q. apply Rmult_le_pos; auto. apply Rmult_le_pos; [lra|]. assert (0 <= A * B) by now apply Rmult_le_pos. lra. }
  assert (PKA : 0 <= K * A) by now apply Rmult_le_pos.
  set (Z := Q + (be + 1) * Lg). assert (PZ : 0 <= Z) by (unfold Z; assert (0 <= (be + 1) * Lg) by (apply Rmult_le_pos; lra); lra).
  assert (PZW : 0 <= Z * W) by now apply Rmult_le_pos.
  exists (E0 * (1 + Z * W)), (/ (2 * (K * A + 1))). split; [apply Rmult_le_pos; lra|]. split; [apply Rinv_0_lt_compat; lra|].
  intros d e0 hs0 y0 y0' Hd He0 Hh0 Hs0 Hr0 Hy0 i0.
  assert (D2 : d * (K * A) <= 1 / 2).
  { apply Rle_trans with (/ (2 * (K * A + 1)) * (K * A)); [apply Rmult_le_compat_r; lra|].
    apply Rmult_le_reg_l with (2 * (K * A + 1)); [lra|]. rewrite <- Rmult_assoc, Rinv_r by lra. lra. }
  set (eta := be * (2 * K * (A * B + B) * d) + (be + 1) * (Lg * d)).
  assert (Eeta : eta = Z * d) by (unfold eta, Z, Q; ring).
  assert (Peta : 0 <= eta) by (rewrite Eeta; apply Rmult_le_pos; lra).
  assert (Main : forall hs t y y' e, 0 <= e -> t0 <= t -> (forall h, In h hs -> 0 <= h <= d) -> t + total hs <= t1 -> rk_run T F t y hs y' ->
    (forall i, Rabs (y i - x i t) <= e) -> forall i, Rabs (y' i - x i (t + total hs)) <= exp (L * total hs) * (e + eta * total hs)).
  { induction hs as [|h hs IH]; intros t y y' e Pe Ht Hh Hs Hr Hy i.
    - cbn [total] in *. rewrite Hr, Rmult_0_r, exp_0, Rplus_0_r, Rmult_0_r. specialize (Hy i). lra.
    - cbn [total] in *. destruct Hr as (y1 & S1 & Hr). assert (Ph := Hh h (or_introl eq_refl)).
      assert (Pt : 0 <= total hs).
      { assert (G0 : forall r, (forall h, In h r -> 0 <= h <= d) -> 0 <= total r).
        { induction r as [|b r IHr]; intros Hb; cbn [total]; [lra|]. specialize (IHr ltac:(intros; apply Hb; now right)). specialize (Hb b (or_introl eq_refl)). lra. }
        apply G0. intros; apply Hh; now right. }
      set (e' := (1 + h * L) * e + h * eta).
      assert (Hy1 : forall i, Rabs (y1 i - x i (t + h)) <= e').
      { intros j. unfold e', L, eta. apply (step_error I t0 t1 l F HO x HX T HT K B d (Lg * d) HK PB HL HB) with (y := y); auto; try lra. intros q s u Hs' Hu Hsu. eapply Rle_trans; [now apply HG|]. apply Rmult_le_compat_l; auto. }
      assert (Pe' : 0 <= e') by (unfold e'; apply Rplus_le_le_0_compat; [apply Rmult_le_pos; auto; pose proof (Rmult_le_pos h L); lra|apply Rmult_le_pos; lra]).
      replace (t + (h + total hs)) with (t + h + total hs) by ring.
      eapply Rle_trans; [apply (IH (t + h) y1 y' e'); auto; try lra; intros; apply Hh; now right|].
      replace (L * (h + total hs)) with (L * h + L * total hs) by ring. rewrite exp_plus, (Rmult_comm (exp (L * h))), Rmult_assoc.
      apply Rmult_le_compat_l; [left; apply exp_pos|].
      assert (X : 1 + h * L <= exp (L * h)). { pose proof (exp_ineq1_le (L * h)). lra. }
      assert (X1 : 1 <= exp (L * h)) by (assert (0 <= h * L) by (apply Rmult_le_pos; lra); lra).
      unfold e'. apply Rle_trans with (exp (L * h) * e + h * eta + eta * total hs).
      + apply Rplus_le_compat_r, Rplus_le_compat_r. apply Rmult_le_compat_r; auto.
      + assert (Y : 0 <= eta * h + eta * total hs) by (apply Rplus_le_le_0_compat; apply Rmult_le_pos; lra).
        assert (1 * (eta * h + eta * total hs) <= exp (L * h) * (eta * h + eta * total hs)) by (apply Rmult_le_compat_r; auto). lra. }

  eapply Rle_trans; [apply (Main hs0 t0 y0 y0' e0); auto; lra|].
  assert (Pt : 0 <= total hs0).
  { assert (G0 : forall r, (forall h, In h r -> 0 <= h <= d) -> 0 <= total r).
    { induction r as [|b r IHr]; intros Hb; cbn [total]; [lra|]. specialize (IHr ltac:(intros; apply Hb; now right)). specialize (Hb b (or_introl eq_refl)). lra. }
    now apply G0. }
  assert (TW : total hs0 <= W) by (unfold W; lra).
  assert (X1 : exp (L * total hs0) <= E0).
  { assert (Q1 : L * total hs0 <= L * (t1 - t0)) by (apply Rmult_le_compat_l; [auto|fold W; lra]).
    destruct (Rle_lt_or_eq_dec _ _ Q1) as [Q2|Q2]; [left; now apply exp_increasing|right; unfold E0; now rewrite Q2]. }
  apply Rle_trans with (E0 * (e0 + eta * W)).
  - apply Rmult_le_compat; [left; apply exp_pos| |auto|].
    + assert (0 <= eta * total hs0) by now apply Rmult_le_pos. lra.
    + assert (eta * total hs0 <= eta * W) by (apply Rmult_le_compat_l; auto). lra.
  - rewrite Eeta, (Rmult_assoc E0 (1 + Z * W)). apply Rmult_le_compat_l; [lra|].
    assert (0 <= Z * W * e0) by (apply Rmult_le_pos; auto). replace ((1 + Z * W) * (e0 + d)) with (e0 + Z * d * W + d + Z * W * e0) by ring. lra.
Qed.
End Rate.
