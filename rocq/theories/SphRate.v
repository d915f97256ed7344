(** The spherical right-hand side along a Lipschitz state is Lipschitz in time. *)
From Coq Require Import ZArith QArith Qreals.
From Coquelicot Require Import Coquelicot.
From Verif Require Import Py PyLemmas Calc Legendre Cheb DGModel DGSpec DGProofs DGInt DGBalance DGFinal GmatModel MatModel RhsModel RhsProofs
  SpherePoly SphereProofs SphereBal SphereWeak SphereThms PosDef SphMass SphMassThms SphUnif SphEnergy SphSpec ExistSpec Picard ExistProofs SphExist TimeModel TimeProofs TimeRate.
Open Scope R_scope.


Section Elim.
Variables (t0 t1 : R).
Hypothesis Hle : t0 <= t1.
Notation Lp := (Lp t0 t1).
Lemma elim_Lp n : forall (A : R -> nat -> nat -> R) (y : R -> nat -> R),
  (forall t, t0 <= t <= t1 -> pdef n (A t)) -> (forall i j, (i < n)%nat -> (j < n)%nat -> Lp (fun t => A t i j)) -> (forall i, (i < n)%nat -> Lp (fun t => y t i)) ->
  forall j, Lp (fun t => elim n (A t) (y t) j).
Proof.
  induction n as [|m IH]; intros A y P HA Hy j; [exact (Lp_const t0 t1 0)|].
  assert (D : forall t, t0 <= t <= t1 -> A t m m <> 0) by (intros t Ht; pose proof (pdef_diag _ _ m (P t Ht) ltac:(lia)); lra).
  assert (X : forall j, Lp (fun t => elim m (schur m (A t)) (fun i => y t i - A t i m * y t m / A t m m) j)).
  { intros k. apply (IH (fun t => schur m (A t)) (fun t i => y t i - A t i m * y t m / A t m m)).
    - intros t Ht. apply pdef_schur. auto.
    - intros i l Hi Hl. unfold schur. apply Lp_minus; [apply HA; lia|]. apply Lp_div; auto. apply (Lp_mult t0 t1 Hle); apply HA; lia.
    - intros i Hi. apply Lp_minus; [apply Hy; lia|]. apply Lp_div; auto. apply (Lp_mult t0 t1 Hle); [apply HA; lia|apply Hy; lia]. }
  cbn [elim]. destruct (j <? m)%nat; [apply X|].
  apply Lp_div; auto. apply Lp_minus; [apply Hy; lia|].
  unfold dotv. apply (Lp_sumn t0 t1 m (fun i t => A t m i * elim m (schur m (A t)) (fun i => y t i - A t i m * y t m / A t m m) i)).
  intros i Hi. apply (Lp_mult t0 t1 Hle); [apply HA; lia|apply X].
Qed.
Lemma ginv_Lp n (A : R -> nat -> nat -> R) j k : (forall t, t0 <= t <= t1 -> pdef n (A t)) -> (forall i j, (i < n)%nat -> (j < n)%nat -> Lp (fun t => A t i j)) ->
  Lp (fun t => ginv n (A t) j k).
Proof. intros P HA. apply elim_Lp; auto. intros. apply Lp_const. Qed.
End Elim.

Section SphL.
Variables (c : rhs_cfg) (E : nat -> R -> R) (t0 t1 : R).
Let fc := rflux c.
Let M := fM fc.
Let n := (M + 1)%nat.
Let N := fN fc.
Let K := N_ang c.
Let D := fun k t => r_Dedges c t k.
Hypothesis Hg : fgeom fc = Sphere.
Hypothesis HN : (2 <= N)%nat.
Hypothesis HM10 : (M <= 10)%nat.
Hypothesis Hle : t0 <= t1.
Hypothesis HM : forall t, t0 <= t <= t1 -> sph_mesh_at c E t.
Hypothesis HT : forall t, t0 <= t <= t1 -> sph_tables_at c E t.
Hypothesis HD : forall k, (k <= N)%nat -> lipschitz_on (D k) t0 t1.
Hypothesis HR : forall t, t0 <= t <= t1 -> ~ right_on fc t.
Hypothesis Hrefl : forallb (refl_ok c) (seq 0 K) = true.
Let I := (nat * nat * nat)%type.
Notation Lp := (Lp t0 t1).
Notation LL := (LL I t0 t1).


Lemma sD_Lp k : (k <= N)%nat -> Lp (D k).
Proof. intros Hk. now apply HD. Qed.
Lemma sE_Lp k : (k <= N)%nat -> Lp (E k).
Proof.
  intros Hk. destruct (Lp_bounded t0 t1 Hle (D k) (sD_Lp k Hk)) as (B & PB & H). exists B. split; auto.
  assert (X := x_lip unit t0 t1 (fun t _ _ => D k t) (fun _ => E k)). cbv beta in X.
  assert (Y : forall s t, t0 <= s <= t -> t <= t1 -> Rabs (E k t - E k s) <= B * (t - s)).
  { intros s t Hs Ht. apply (X (fun u _ Hu => proj2 (proj2 (proj2 (HM u Hu))) k Hk) B (fun _ u Hu => H u Hu) tt); auto. }
  intros s t Hs Ht. destruct (Rle_dec s t).
  - rewrite (Rabs_minus_sym s t), (Rabs_minus_sym (E k s)), (Rabs_right (t - s)) by lra. apply Y; lra.
  - rewrite (Rabs_right (s - t)) by lra. apply Y; lra.
Qed.
Lemma sE_lt k t : (k < N)%nat -> t0 <= t <= t1 -> E k t < E (S k) t.
Proof. intros Hk Ht. destruct (HM t Ht) as (_ & H & _). now apply H. Qed.
Lemma sE_nonneg k t : (k <= N)%nat -> t0 <= t <= t1 -> 0 <= E k t.
Proof.
  intros Hk Ht. induction k as [|k IH]; [destruct (HM t Ht) as (_ & _ & -> & _); lra|].
  specialize (IH ltac:(lia)). pose proof (sE_lt k t Hk Ht). lra.
Qed.
Lemma sbasis_Lp j (x a b : R -> R) : Lp x -> Lp a -> Lp b -> (forall t, t0 <= t <= t1 -> a t < b t) -> Lp (fun t => basis Sphere j (x t) (a t) (b t)).
Proof.
  intros X A B L. assert (H : forall t, t0 <= t <= t1 -> PI * (b t - a t) <> 0) by (intros t Ht; pose proof (ph_pos _ _ (L t Ht)); lra).
  assert (H2 : forall t, t0 <= t <= t1 -> b t - a t <> 0) by (intros t Ht; specialize (L t Ht); lra).
  assert (Z : Lp (fun t => cheb j (refz (x t) (a t) (b t)))).
  { apply (Lp_comp _ _ Hle (cheb j) (dcheb j)); [apply cheb_derive|intros z; apply pev_cont|]. unfold refz. apply Lp_div; auto.
    - apply Lp_minus; auto. apply Lp_minus; auto. apply (Lp_mult t0 t1 Hle); auto. apply Lp_const.
    - now apply Lp_minus. }
  assert (P : Lp (fun t => PI * (b t - a t))) by (apply (Lp_mult t0 t1 Hle); [apply Lp_const|now apply Lp_minus]).
  unfold basis. destruct (j =? 0)%nat.
  - apply (Lp_mult t0 t1 Hle (fun t => sqrt (1 / (PI * (b t - a t)))) (fun t => cheb j (refz (x t) (a t) (b t)))); auto.
    apply (Lp_sqrt t0 t1 Hle); [apply Lp_div; auto; apply Lp_const|]. intros t Ht. pose proof (ph_pos _ _ (L t Ht)). apply Rdiv_lt_0_compat; lra.
  - apply (Lp_mult t0 t1 Hle (fun t => sqrt (2 / (PI * (b t - a t)))) (fun t => cheb j (refz (x t) (a t) (b t)))); auto.
    apply (Lp_sqrt t0 t1 Hle); [apply Lp_div; auto; apply Lp_const|]. intros t Ht. pose proof (ph_pos _ _ (L t Ht)). apply Rdiv_lt_0_compat; lra.
Qed.
Lemma sfield_LL a k (x : R -> R) : (k < N)%nat -> Lp x -> LL (fun t y => field Sphere M (fun j => y (a, k, j)) (E k t) (E (S k) t) (x t)).
Proof.
  intros Hk X. unfold field. apply (LL_sumn I t0 t1 (M + 1) (fun j t (y : I -> R) => y (a, k, j) * basis Sphere j (x t) (E k t) (E (S k) t))).
  intros j _. apply (LL_multr I t0 t1 Hle (fun t => basis Sphere j (x t) (E k t) (E (S k) t))); [|apply LL_proj].
  apply sbasis_Lp; auto; [apply sE_Lp; lia|apply sE_Lp; lia|]. intros t Ht. now apply sE_lt.
Qed.
Lemma Lp_sq f : Lp f -> Lp (fun t => f t ^ 2).
Proof. intros H. apply (Lp_ext t0 t1 (fun t => f t * f t)); [intros; ring|]. now apply (Lp_mult t0 t1 Hle). Qed.
Lemma sflux_LL a s : (s < N)%nat -> LL (fun t y => sflux c E t y a s).
Proof.
  intros Hs. unfold sflux. assert (V : Lp (fun t => mus c a - D (S s) t)) by (apply Lp_minus; [apply Lp_const|now apply sD_Lp]).
  apply (LL_mult I t0 t1 Hle (fun t => E (S s) t ^ 2)); [apply Lp_sq; now apply sE_Lp|]. apply LL_plus.
  - apply (LL_mult I t0 t1 Hle (fun t => Rmax 0 (mus c a - D (S s) t))); [apply (Lp_non _ _ (Rmax 0)); auto; apply pos_non|].
    apply sfield_LL; auto. now apply sE_Lp.
  - apply (LL_mult I t0 t1 Hle (fun t => Rmin 0 (mus c a - D (S s) t))); [apply (Lp_non _ _ (Rmin 0)); auto; apply neg_non|].
    destruct (Nat.eqb_spec (S s) (fN (rflux c))) as [EN|NN]; [apply (LL_coef I t0 t1 (fun _ => 0)), Lp_const|]. apply sfield_LL; [unfold N, fc in *; lia|]. now apply sE_Lp.
Qed.
Lemma sLU_LL a s i : (s < N)%nat -> LL (fun t y => sLU c E t y a s i).
Proof.
  intros Hs. unfold sLU. assert (L : forall t, t0 <= t <= t1 -> E s t < E (S s) t) by (intros; now apply sE_lt).
  pose proof (sE_Lp s ltac:(lia)). pose proof (sE_Lp (S s) ltac:(lia)). apply LL_minus.
  - apply (LL_mult I t0 t1 Hle (fun t => basis Sphere i (E (S s) t) (E s t) (E (S s) t))); [now apply sbasis_Lp|now apply sflux_LL].
  - apply (LL_mult I t0 t1 Hle (fun t => basis Sphere i (E s t) (E s t) (E (S s) t))); [now apply sbasis_Lp|].
    destruct s as [|s]; [apply (LL_coef I t0 t1 (fun _ => 0)), Lp_const|]. apply sflux_LL. lia.
Qed.
Lemma Lp_divc f k : Lp f -> Lp (fun t => f t / k).
Proof. intros H. apply (Lp_mult t0 t1 Hle f (fun _ => / k)); auto. apply Lp_const. Qed.
Section Mats.
Variables a b a' b' : R -> R.
Hypothesis A : Lp a.
Hypothesis B : Lp b.
Hypothesis A' : Lp a'.
Hypothesis B' : Lp b'.
Hypothesis L : forall t, t0 <= t <= t1 -> a t < b t.
Lemma mass_Lp i j : Lp (fun t => make_mass_sphere (tabs c) (a t) (b t) i j).
Proof.
  unfold make_mass_sphere. cbv zeta. apply (Lp_mult t0 t1 Hle); [|apply Lp_const]. pose proof (Lp_sq a A). pose proof (Lp_sq b B).
  destruct (_ || _).
  - apply Lp_divc, (Lp_mult t0 t1 Hle); [|apply Lp_const].
    apply Lp_plus; [apply Lp_plus|]; (apply (Lp_mult t0 t1 Hle); [apply Lp_const|]); auto. now apply (Lp_mult t0 t1 Hle).
  - apply Lp_divc, (Lp_mult t0 t1 Hle); [|apply Lp_const]. apply Lp_plus; (apply (Lp_mult t0 t1 Hle); [apply Lp_const|]); auto.
Qed.
Lemma J_Lp i j : Lp (fun t => make_J_sphere (tabs c) (a t) (b t) i j).
Proof.
  unfold make_J_sphere. cbv zeta. apply (Lp_mult t0 t1 Hle); [|apply Lp_const].
  assert (Q : Lp (fun t => (J_coeff (tabs c) i j 0 * a t + J_coeff (tabs c) i j 1 * b t) / PI)).
  { apply Lp_divc, Lp_plus; (apply (Lp_mult t0 t1 Hle); [apply Lp_const|]); auto. }
  destruct (_ && _); destruct (_ && _); first [exact Q|apply Lp_divc; exact Q|apply Lp_divc, Lp_divc; exact Q].
Qed.
Lemma Ls_Lp i j : Lp (fun t => make_L_sphere (tabs c) (a t) (b t) i j).
Proof.
  unfold make_L_sphere. destruct (i =? 0)%nat; [apply Lp_const|]. cbv zeta. apply (Lp_mult t0 t1 Hle); [|apply Lp_const].
  pose proof (Lp_sq a A). pose proof (Lp_sq b B).
  assert (Q : Lp (fun t => if negb ((i + j + 2) mod 2 =? 0)%nat then
      (L_coeff_odd (tabs c) i j 0 * a t ^ 2 + L_coeff_odd (tabs c) i j 1 * (a t * b t) + L_coeff_odd (tabs c) i j 2 * b t ^ 2) / (a t - b t) / PI
      else (L_coeff_even (tabs c) i j 0 * a t + L_coeff_even (tabs c) i j 1 * b t) / PI)).
  { destruct (negb _).
    - apply Lp_divc, Lp_div; auto.
      + apply Lp_plus; [apply Lp_plus|]; (apply (Lp_mult t0 t1 Hle); [apply Lp_const|]); auto. now apply (Lp_mult t0 t1 Hle).
      + now apply Lp_minus.
      + intros t Ht. specialize (L t Ht). lra.
    - apply Lp_divc, Lp_plus; (apply (Lp_mult t0 t1 Hle); [apply Lp_const|]); auto. }
  destruct (j =? 0)%nat; [apply (Lp_mult t0 t1 Hle); [exact Q|apply Lp_const]|exact Q].
Qed.
Lemma G_Lp i j : Lp (fun t => Gform i j (a t) (b t) (a' t) (b' t) / PI).
Proof.
  unfold Gform, Aq, Bq, Cq. cbv zeta.
  assert (S1 : Lp (fun t => (a t + b t) / 2)) by now apply Lp_divc, Lp_plus.
  assert (S2 : Lp (fun t => (b t - a t) / 2)) by now apply Lp_divc, Lp_minus.
  assert (Q : forall p q r : R, Lp (fun t => ((a t + b t) / 2) ^ 2 * p + 2 * ((a t + b t) / 2) * ((b t - a t) / 2) * q + ((b t - a t) / 2) ^ 2 * r)).
  { intros p q r. apply Lp_plus; [apply Lp_plus|].
    - apply (Lp_mult t0 t1 Hle); [now apply (Lp_sq (fun t => (a t + b t) / 2))|apply Lp_const].
    - apply (Lp_mult t0 t1 Hle); [|apply Lp_const]. apply (Lp_mult t0 t1 Hle); auto. apply (Lp_mult t0 t1 Hle); auto. apply Lp_const.
    - apply (Lp_mult t0 t1 Hle); [now apply (Lp_sq (fun t => (b t - a t) / 2))|apply Lp_const]. }
  assert (NZ : forall t, t0 <= t <= t1 -> b t - a t <> 0) by (intros t Ht; specialize (L t Ht); lra).
  assert (H1 : Lp (fun t => (b' t - a' t) / (b t - a t))) by (apply Lp_div; auto; now apply Lp_minus).
  assert (H2 : Lp (fun t => (a' t + b' t) / (b t - a t))) by (apply Lp_div; auto; [now apply Lp_plus|now apply Lp_minus]).
  apply Lp_divc, (Lp_mult t0 t1 Hle); [apply Lp_const|].
  apply Lp_minus; [apply Lp_minus|]; (apply (Lp_mult t0 t1 Hle); [|apply Q]); auto. apply (Lp_mult t0 t1 Hle); auto. apply Lp_const.
Qed.
Lemma MP_Lp i j : Lp (fun t => M'form i j (a t) (b t) (a' t) (b' t) / PI).
Proof.
  unfold M'form. cbv zeta.
  assert (S1 : Lp (fun t => (a t + b t) / 2)) by now apply Lp_divc, Lp_plus.
  assert (S2 : Lp (fun t => (b t - a t) / 2)) by now apply Lp_divc, Lp_minus.
  assert (S3 : Lp (fun t => (a' t + b' t) / 2)) by now apply Lp_divc, Lp_plus.
  assert (S4 : Lp (fun t => (b' t - a' t) / 2)) by now apply Lp_divc, Lp_minus.
  apply Lp_divc, (Lp_mult t0 t1 Hle); [apply Lp_const|]. apply Lp_plus; [apply Lp_plus|]; (apply (Lp_mult t0 t1 Hle); [|apply Lp_const]).
  - apply (Lp_mult t0 t1 Hle); auto. apply (Lp_mult t0 t1 Hle); auto. apply Lp_const.
  - apply (Lp_mult t0 t1 Hle); [apply Lp_const|]. apply Lp_plus; now apply (Lp_mult t0 t1 Hle).
  - apply (Lp_mult t0 t1 Hle); auto. apply (Lp_mult t0 t1 Hle); auto. apply Lp_const.
Qed.
End Mats.
Lemma dotf_LL (A : R -> nat -> nat -> R) (f : nat -> R -> (I -> R) -> R) i : (forall j, (j < n)%nat -> Lp (fun t => A t i j)) -> (forall j, (j < n)%nat -> LL (f j)) ->
  LL (fun t y => dotv n (A t) (fun j => f j t y) i).
Proof.
  intros HA Hf. unfold dotv. apply (LL_sumn I t0 t1 n (fun j t (y : I -> R) => A t i j * f j t y)). intros j Hj.
  apply (LL_mult I t0 t1 Hle (fun t => A t i j)); auto.
Qed.
Lemma aterm_LL s j a : LL (fun t y => aterm K (mus c) (fun l => y (l, s, j)) a).
Proof.
  unfold aterm, finite_diff_uneven. cbv zeta.
  assert (Q : forall p q u v : nat, LL (fun t (y : I -> R) => 1 / 2 * (y (p, u, j) + y (q, v, j)))) by (intros; apply LL_scal; auto; apply LL_plus; apply LL_proj).
  destruct (negb _ && negb _); [|destruct (a =? 0)%nat]; apply LL_div; auto.
  - apply LL_minus; apply LL_scal; auto.
  - apply LL_scal; auto.
  - apply LL_scal; auto.
Qed.
Hypothesis HSrc : forall s i, (s < N)%nat -> (i <= M)%nat -> lipschitz_on (fun t => Src c t (E s t) (E (S s) t) i) t0 t1.
Lemma srhs0_LL a s k : (s < N)%nat -> (k < n)%nat -> LL (fun t y => srhs0 c E t y a s k).
Proof.
  intros Hs Hk. pose proof (sE_Lp s ltac:(lia)). pose proof (sE_Lp (S s) ltac:(lia)). pose proof (sD_Lp s ltac:(lia)). pose proof (sD_Lp (S s) ltac:(lia)).
  assert (L : forall t, t0 <= t <= t1 -> E s t < E (S s) t) by (intros; now apply sE_lt).
  unfold srhs0. apply LL_minus; [apply LL_plus; [apply LL_plus; [apply LL_minus; [apply LL_plus|]|]|]|].
  - apply LL_opp. now apply sLU_LL.
  - apply LL_scal; auto. apply (dotf_LL (fun t => make_L_sphere (tabs c) (E s t) (E (S s) t)) (fun j _ y => y (a, s, j))); [|intros; apply LL_proj].
    intros j _. now apply (Ls_Lp (E s) (E (S s))).
  - apply (dotf_LL (fun t => make_J_sphere (tabs c) (E s t) (E (S s) t)) (fun j _ y => aterm K (mus c) (fun l => y (l, s, j)) a)); [|intros; apply aterm_LL].
    intros j _. now apply (J_Lp (E s) (E (S s))).
  - apply (dotf_LL (fun t => sG c E t s) (fun j _ y => y (a, s, j))); [|intros; apply LL_proj].
    intros j _. now apply (G_Lp (E s) (E (S s)) (D s) (D (S s))).
  - apply (LL_coef I t0 t1 (fun t => 1 / 2 * Src c t (E s t) (E (S s) t) k * sigma_s c)). apply (Lp_mult t0 t1 Hle); [|apply Lp_const]. apply (Lp_mult t0 t1 Hle); [apply Lp_const|].
    apply HSrc; auto. unfold n in *. lia.
  - apply (dotf_LL (fun t => sMP c E t s) (fun j _ y => y (a, s, j))); [|intros; apply LL_proj].
    intros j _. now apply (MP_Lp (E s) (E (S s)) (D s) (D (S s))).
Qed.
Lemma srhs_LL a s i : (s < N)%nat -> (i < n)%nat -> LL (fun t y => srhs c E t y a s i).
Proof.
  intros Hs Hi. unfold srhs. apply LL_minus; [apply LL_plus|apply LL_proj].
  - apply (dotf_LL (fun t => ginv n (smass c E t s)) (fun k t y => srhs0 c E t y a s k)); [|intros; now apply srhs0_LL].
    intros j Hj. apply (ginv_Lp t0 t1 Hle).
    + intros t Ht. destruct (HT t Ht s Hs) as (M1 & _). apply mass_pdef; [apply sE_nonneg; [lia|auto]|now apply sE_lt|exact M1].
    + intros p q _ _. apply (mass_Lp (E s) (E (S s))); apply sE_Lp; lia.
  - apply (LL_multr I t0 t1 Hle (fun _ => sigma_s c)); [apply Lp_const|].
    unfold make_P. apply (LL_sumn I t0 t1 K (fun l t (y : I -> R) => y (l, s, i) * wsa c l)). intros l _.
    apply (LL_multr I t0 t1 Hle (fun _ => wsa c l)); [apply Lp_const|]. apply LL_proj.
Qed.
End SphL.
