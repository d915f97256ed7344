(** The spherical right-hand side as a continuous linear function of the state. *)
From Coq Require Import ZArith QArith Qreals.
From Coquelicot Require Import Coquelicot.
From Verif Require Import Py PyLemmas Calc Legendre Cheb DGModel DGSpec DGProofs DGInt DGBalance DGFinal GmatModel MatModel RhsModel RhsProofs
  SpherePoly SphereProofs SphereBal SphereWeak SphereThms PosDef SphMass SphMassThms SphUnif SphEnergy SphSpec ExistSpec Picard ExistProofs.
Open Scope R_scope.

Section S.
Variables (c : rhs_cfg) (E : nat -> R -> R) (t0 t1 : R).
Let fc := rflux c.
Let M := fM fc.
Let n := (M + 1)%nat.
Let N := fN fc.
Let K := N_ang c.
Let D := fun k t => r_Dedges c t k.
Hypothesis Hg : fgeom fc = Sphere.
Hypothesis HN : (2 <= N)%nat.
Hypothesis HM10 : (M <= 10)%nat.
Hypothesis Hle : t0 <= t1.
Hypothesis HM : forall t, t0 <= t <= t1 -> sph_mesh_at c E t.
Hypothesis HT : forall t, t0 <= t <= t1 -> sph_tables_at c E t.
Hypothesis HD : forall k, (k <= N)%nat -> continuous_on (D k) t0 t1.
Hypothesis HR : forall t, t0 <= t <= t1 -> ~ right_on fc t.
Hypothesis Hrefl : forallb (refl_ok c) (seq 0 K) = true.
Let I := (nat * nat * nat)%type.
Notation Cc := (Cc t0 t1).
Notation LF := (LF I t0 t1).

Lemma sE_Cc k : (k <= N)%nat -> Cc (E k).
Proof.
  intros Hk. apply Cc_of; auto. intros t Ht. destruct (HM t Ht) as (_ & _ & _ & H). apply (ex_derive_continuous (E k)). exists (r_Dedges c t k). now apply H.
Qed.
Lemma sD_Cc k : (k <= N)%nat -> Cc (D k).
Proof. intros Hk. apply Cc_of; auto. now apply HD. Qed.
Lemma sE_lt k t : (k < N)%nat -> t0 <= t <= t1 -> E k t < E (S k) t.
Proof. intros Hk Ht. destruct (HM t Ht) as (_ & H & _). now apply H. Qed.
Lemma sE_nonneg k t : (k <= N)%nat -> t0 <= t <= t1 -> 0 <= E k t.
Proof.
  intros Hk Ht. induction k as [|k IH]; [destruct (HM t Ht) as (_ & _ & -> & _); lra|].
  specialize (IH ltac:(lia)). pose proof (sE_lt k t Hk Ht). lra.
Qed.
Lemma sbasis_Cc j (x a b : R -> R) : Cc x -> Cc a -> Cc b -> (forall t, t0 <= t <= t1 -> a t < b t) -> Cc (fun t => basis Sphere j (x t) (a t) (b t)).
Proof.
  intros X A B L. assert (H : forall t, t0 <= t <= t1 -> PI * (b t - a t) <> 0) by (intros t Ht; pose proof (ph_pos _ _ (L t Ht)); lra).
  assert (H2 : forall t, t0 <= t <= t1 -> b t - a t <> 0) by (intros t Ht; specialize (L t Ht); lra).
  assert (Z : Cc (fun t => cheb j (refz (x t) (a t) (b t)))).
  { apply (Cc_comp _ _ (cheb j)); [intros z; apply (cont_of_derive _ (dcheb j)); intro; apply cheb_derive|]. unfold refz. apply Cc_div; auto.
    - apply Cc_minus; auto. apply Cc_minus; auto. apply Cc_mult; auto. apply Cc_const.
    - now apply Cc_minus. }
  assert (P : Cc (fun t => PI * (b t - a t))) by (apply Cc_mult; [apply Cc_const|now apply Cc_minus]).
  unfold basis. destruct (j =? 0)%nat.
  - apply (Cc_mult _ _ (fun t => sqrt (1 / (PI * (b t - a t)))) (fun t => cheb j (refz (x t) (a t) (b t)))); auto.
    apply Cc_sqrt. apply Cc_div; auto. apply Cc_const.
  - apply (Cc_mult _ _ (fun t => sqrt (2 / (PI * (b t - a t)))) (fun t => cheb j (refz (x t) (a t) (b t)))); auto.
    apply Cc_sqrt. apply Cc_div; auto. apply Cc_const.
Qed.
Lemma sfield_LF a k (x : R -> R) : (k < N)%nat -> Cc x -> LF (fun t y => field Sphere M (fun j => y (a, k, j)) (E k t) (E (S k) t) (x t)).
Proof.
  intros Hk X. unfold field. apply (LF_sumn I t0 t1 (M + 1) (fun j t (y : I -> R) => y (a, k, j) * basis Sphere j (x t) (E k t) (E (S k) t))).
  intros j _. apply (LF_multr I t0 t1 Hle (fun t => basis Sphere j (x t) (E k t) (E (S k) t))); [|apply LF_proj].
  apply sbasis_Cc; auto; [apply sE_Cc; lia|apply sE_Cc; lia|]. intros t Ht. now apply sE_lt.
Qed.

(** flux through face S s, the face area E^2 included; nothing enters from outside *)
Definition sflux (t : R) (y : I -> R) (a s : nat) : R :=
  E (S s) t ^ 2 * (Rmax 0 (mus c a - D (S s) t) * field Sphere M (fun j => y (a, s, j)) (E s t) (E (S s) t) (E (S s) t)
    + Rmin 0 (mus c a - D (S s) t) * (if (S s =? N)%nat then 0 else field Sphere M (fun j => y (a, S s, j)) (E (S s) t) (E (S (S s)) t) (E (S s) t))).
Definition sLU (t : R) (y : I -> R) (a s i : nat) : R :=
  basis Sphere i (E (S s) t) (E s t) (E (S s) t) * sflux t y a s
  - basis Sphere i (E s t) (E s t) (E (S s) t) * match s with O => 0 | S s' => sflux t y a s' end.
Lemma Cc_sq f : Cc f -> Cc (fun t => f t ^ 2).
Proof. intros H. apply (Cc_comp _ _ (fun z => z ^ 2)); auto. intros z. apply cpow, cid. Qed.
Lemma sflux_LF a s : (s < N)%nat -> LF (fun t y => sflux t y a s).
Proof.
  intros Hs. unfold sflux. assert (V : Cc (fun t => mus c a - D (S s) t)) by (apply Cc_minus; [apply Cc_const|now apply sD_Cc]).
  apply (LF_mult I t0 t1 Hle (fun t => E (S s) t ^ 2)); [apply Cc_sq; now apply sE_Cc|]. apply LF_plus.
  - apply (LF_mult I t0 t1 Hle (fun t => Rmax 0 (mus c a - D (S s) t))); [apply (Cc_comp _ _ (Rmax 0)); auto; apply pos_cont|].
    apply sfield_LF; auto. now apply sE_Cc.
  - apply (LF_mult I t0 t1 Hle (fun t => Rmin 0 (mus c a - D (S s) t))); [apply (Cc_comp _ _ (Rmin 0)); auto; apply neg_cont|].
    destruct (Nat.eqb_spec (S s) N) as [EN|NN]; [apply (LF_coef I t0 t1 (fun _ => 0)), Cc_const|]. apply sfield_LF; [lia|]. now apply sE_Cc.
Qed.
Lemma sLU_LF a s i : (s < N)%nat -> LF (fun t y => sLU t y a s i).
Proof.
  intros Hs. unfold sLU. assert (L : forall t, t0 <= t <= t1 -> E s t < E (S s) t) by (intros; now apply sE_lt).
  pose proof (sE_Cc s ltac:(lia)). pose proof (sE_Cc (S s) ltac:(lia)). apply LF_minus.
  - apply (LF_mult I t0 t1 Hle (fun t => basis Sphere i (E (S s) t) (E s t) (E (S s) t))); [now apply sbasis_Cc|now apply sflux_LF].
  - apply (LF_mult I t0 t1 Hle (fun t => basis Sphere i (E s t) (E s t) (E (S s) t))); [now apply sbasis_Cc|].
    destruct s as [|s]; [apply (LF_coef I t0 t1 (fun _ => 0)), Cc_const|]. apply sflux_LF. lia.
Qed.
Lemma sface_flux t y a refl s v : t0 <= t <= t1 -> (s < N)%nat ->
  face fc t (fun k => E k t) (fun k => D k t) (fun k j => y (a, k, j)) (mus c a) refl (S s) v -> E (S s) t ^ 2 * (mus c a - D (S s) t) * v = sflux t y a s.
Proof.
  intros Ht Hs H. unfold sflux. inversion H as [w P J|k P Q|k P Q|w P J]; subst.
  - rewrite Rmax_right, Rmin_left by lra. fold M. rewrite Hg. ring.
  - rewrite Rmax_left, Rmin_right by lra. destruct (Nat.eqb_spec (S s) N); [unfold N in *; lia|]. fold M. rewrite Hg. ring.
  - rewrite Rmax_left, Rmin_right by lra.
    inversion J as [L d|L]; [exfalso; now apply (HR t Ht)|]. unfold N. rewrite Nat.eqb_refl. ring.
Qed.
Lemma sLU_is st t (y : I -> R) a s i refl : t0 <= t <= t1 -> (s < N)%nat ->
  snd (make_LU fc st t (fun k => E k t) (fun k => D k t) (fun k j => y (a, k, j)) s (mus c a) refl) i = sLU t y a s i.
Proof.
  intros Ht Hs. destruct (HM t Ht) as (HE & He & H0 & _).
  destruct (LU_formula fc t (fun k => E k t) (fun k => D k t) (fun k j => y (a, k, j)) (mus c a) refl HN He st s i Hs) as (vl & vr & F1 & F2 & ->).
  rewrite Hg. cbn [wt]. unfold sLU. rewrite (sface_flux t y a refl s vr Ht Hs F2). destruct s as [|s].
  - rewrite H0. ring.
  - rewrite (sface_flux t y a refl s vl Ht ltac:(lia) F1). reflexivity.
Qed.

(* ------------------------------------------------------------------ the matrices *)
Lemma Cc_divc f k : Cc f -> Cc (fun t => f t / k).
Proof. intros H. apply (Cc_mult _ _ f (fun _ => / k)); auto. apply Cc_const. Qed.
Section Mats.
Variables a b a' b' : R -> R.
Hypothesis A : Cc a.
Hypothesis B : Cc b.
Hypothesis A' : Cc a'.
Hypothesis B' : Cc b'.
Hypothesis L : forall t, t0 <= t <= t1 -> a t < b t.
Lemma mass_Cc i j : Cc (fun t => make_mass_sphere (tabs c) (a t) (b t) i j).
Proof.
  unfold make_mass_sphere. cbv zeta. apply Cc_mult; [|apply Cc_const]. pose proof (Cc_sq a A). pose proof (Cc_sq b B).
  destruct (_ || _).
  - apply Cc_divc, Cc_mult; [|apply Cc_const].
    apply Cc_plus; [apply Cc_plus|]; (apply Cc_mult; [apply Cc_const|]); auto. now apply Cc_mult.
  - apply Cc_divc, Cc_mult; [|apply Cc_const]. apply Cc_plus; (apply Cc_mult; [apply Cc_const|]); auto.
Qed.
Lemma J_Cc i j : Cc (fun t => make_J_sphere (tabs c) (a t) (b t) i j).
Proof.
  unfold make_J_sphere. cbv zeta. apply Cc_mult; [|apply Cc_const].
  assert (Q : Cc (fun t => (J_coeff (tabs c) i j 0 * a t + J_coeff (tabs c) i j 1 * b t) / PI)).
  { apply Cc_divc, Cc_plus; (apply Cc_mult; [apply Cc_const|]); auto. }
  destruct (_ && _); destruct (_ && _); first [exact Q|apply Cc_divc; exact Q|apply Cc_divc, Cc_divc; exact Q].
Qed.
Lemma Ls_Cc i j : Cc (fun t => make_L_sphere (tabs c) (a t) (b t) i j).
Proof.
  unfold make_L_sphere. destruct (i =? 0)%nat; [apply Cc_const|]. cbv zeta. apply Cc_mult; [|apply Cc_const].
  pose proof (Cc_sq a A). pose proof (Cc_sq b B).
  assert (Q : Cc (fun t => if negb ((i + j + 2) mod 2 =? 0)%nat then
      (L_coeff_odd (tabs c) i j 0 * a t ^ 2 + L_coeff_odd (tabs c) i j 1 * (a t * b t) + L_coeff_odd (tabs c) i j 2 * b t ^ 2) / (a t - b t) / PI
      else (L_coeff_even (tabs c) i j 0 * a t + L_coeff_even (tabs c) i j 1 * b t) / PI)).
  { destruct (negb _).
    - apply Cc_divc, Cc_div; auto.
      + apply Cc_plus; [apply Cc_plus|]; (apply Cc_mult; [apply Cc_const|]); auto. now apply Cc_mult.
      + now apply Cc_minus.
      + intros t Ht. specialize (L t Ht). lra.
    - apply Cc_divc, Cc_plus; (apply Cc_mult; [apply Cc_const|]); auto. }
  destruct (j =? 0)%nat; [apply Cc_mult; [exact Q|apply Cc_const]|exact Q].
Qed.
Lemma G_Cc i j : Cc (fun t => Gform i j (a t) (b t) (a' t) (b' t) / PI).
Proof.
  unfold Gform, Aq, Bq, Cq. cbv zeta.
  assert (S1 : Cc (fun t => (a t + b t) / 2)) by now apply Cc_divc, Cc_plus.
  assert (S2 : Cc (fun t => (b t - a t) / 2)) by now apply Cc_divc, Cc_minus.
  assert (Q : forall p q r : R, Cc (fun t => ((a t + b t) / 2) ^ 2 * p + 2 * ((a t + b t) / 2) * ((b t - a t) / 2) * q + ((b t - a t) / 2) ^ 2 * r)).
  { intros p q r. apply Cc_plus; [apply Cc_plus|].
    - apply Cc_mult; [now apply (Cc_sq (fun t => (a t + b t) / 2))|apply Cc_const].
    - apply Cc_mult; [|apply Cc_const]. apply Cc_mult; auto. apply Cc_mult; auto. apply Cc_const.
    - apply Cc_mult; [now apply (Cc_sq (fun t => (b t - a t) / 2))|apply Cc_const]. }
  assert (NZ : forall t, t0 <= t <= t1 -> b t - a t <> 0) by (intros t Ht; specialize (L t Ht); lra).
  assert (H1 : Cc (fun t => (b' t - a' t) / (b t - a t))) by (apply Cc_div; auto; now apply Cc_minus).
  assert (H2 : Cc (fun t => (a' t + b' t) / (b t - a t))) by (apply Cc_div; auto; [now apply Cc_plus|now apply Cc_minus]).
  apply Cc_divc, Cc_mult; [apply Cc_const|].
  apply Cc_minus; [apply Cc_minus|]; (apply Cc_mult; [|apply Q]); auto. apply Cc_mult; auto. apply Cc_const.
Qed.
Lemma MP_Cc i j : Cc (fun t => M'form i j (a t) (b t) (a' t) (b' t) / PI).
Proof.
  unfold M'form. cbv zeta.
  assert (S1 : Cc (fun t => (a t + b t) / 2)) by now apply Cc_divc, Cc_plus.
  assert (S2 : Cc (fun t => (b t - a t) / 2)) by now apply Cc_divc, Cc_minus.
  assert (S3 : Cc (fun t => (a' t + b' t) / 2)) by now apply Cc_divc, Cc_plus.
  assert (S4 : Cc (fun t => (b' t - a' t) / 2)) by now apply Cc_divc, Cc_minus.
  apply Cc_divc, Cc_mult; [apply Cc_const|]. apply Cc_plus; [apply Cc_plus|]; (apply Cc_mult; [|apply Cc_const]).
  - apply Cc_mult; auto. apply Cc_mult; auto. apply Cc_const.
  - apply Cc_mult; [apply Cc_const|]. apply Cc_plus; now apply Cc_mult.
  - apply Cc_mult; auto. apply Cc_mult; auto. apply Cc_const.
Qed.
End Mats.

(* ------------------------------------------------------------------ the right-hand side *)
Definition sG (t : R) (s i j : nat) : R := Gform i j (E s t) (E (S s) t) (D s t) (D (S s) t) / PI.
Definition sMP (t : R) (s i j : nat) : R := M'form i j (E s t) (E (S s) t) (D s t) (D (S s) t) / PI.
Definition smass (t : R) (s : nat) : nat -> nat -> R := make_mass_sphere (tabs c) (E s t) (E (S s) t).
Definition srhs0 (t : R) (y : I -> R) (a s k : nat) : R :=
  - sLU t y a s k + mus c a * dotv n (make_L_sphere (tabs c) (E s t) (E (S s) t)) (fun j => y (a, s, j)) k
  - dotv n (make_J_sphere (tabs c) (E s t) (E (S s) t)) (fun j => aterm K (mus c) (fun l => y (l, s, j)) a) k
  + dotv n (sG t s) (fun j => y (a, s, j)) k + 1 / 2 * Src c t (E s t) (E (S s) t) k * sigma_s c - dotv n (sMP t s) (fun j => y (a, s, j)) k.
Definition srhs (t : R) (y : I -> R) (a s i : nat) : R :=
  dotv n (ginv n (smass t s)) (srhs0 t y a s) i + make_P K (wsa c) (fun l j => y (l, s, j)) i * sigma_s c - y (a, s, i).

Lemma dotf_LF (A : R -> nat -> nat -> R) (f : nat -> R -> (I -> R) -> R) i : (forall j, (j < n)%nat -> Cc (fun t => A t i j)) -> (forall j, (j < n)%nat -> LF (f j)) ->
  LF (fun t y => dotv n (A t) (fun j => f j t y) i).
Proof.
  intros HA Hf. unfold dotv. apply (LF_sumn I t0 t1 n (fun j t (y : I -> R) => A t i j * f j t y)). intros j Hj.
  apply (LF_mult I t0 t1 Hle (fun t => A t i j)); auto.
Qed.
Lemma aterm_LF s j a : LF (fun t y => aterm K (mus c) (fun l => y (l, s, j)) a).
Proof.
  unfold aterm, finite_diff_uneven. cbv zeta.
  assert (Q : forall p q u v : nat, LF (fun t (y : I -> R) => 1 / 2 * (y (p, u, j) + y (q, v, j)))) by (intros; apply LF_scal; auto; apply LF_plus; apply LF_proj).
  destruct (negb _ && negb _); [|destruct (a =? 0)%nat]; apply LF_div; auto.
  - apply LF_minus; apply LF_scal; auto.
  - apply LF_scal; auto.
  - apply LF_scal; auto.
Qed.
Hypothesis HSrc : forall s i, (s < N)%nat -> (i <= M)%nat -> continuous_on (fun t => Src c t (E s t) (E (S s) t) i) t0 t1.
Lemma srhs0_LF a s k : (s < N)%nat -> (k < n)%nat -> LF (fun t y => srhs0 t y a s k).
Proof.
  intros Hs Hk. pose proof (sE_Cc s ltac:(lia)). pose proof (sE_Cc (S s) ltac:(lia)). pose proof (sD_Cc s ltac:(lia)). pose proof (sD_Cc (S s) ltac:(lia)).
  assert (L : forall t, t0 <= t <= t1 -> E s t < E (S s) t) by (intros; now apply sE_lt).
  unfold srhs0. apply LF_minus; [apply LF_plus; [apply LF_plus; [apply LF_minus; [apply LF_plus|]|]|]|].
  - apply LF_opp. now apply sLU_LF.
  - apply LF_scal; auto. apply (dotf_LF (fun t => make_L_sphere (tabs c) (E s t) (E (S s) t)) (fun j _ y => y (a, s, j))); [|intros; apply LF_proj].
    intros j _. now apply (Ls_Cc (E s) (E (S s))).
  - apply (dotf_LF (fun t => make_J_sphere (tabs c) (E s t) (E (S s) t)) (fun j _ y => aterm K (mus c) (fun l => y (l, s, j)) a)); [|intros; apply aterm_LF].
    intros j _. now apply (J_Cc (E s) (E (S s))).
  - apply (dotf_LF (fun t => sG t s) (fun j _ y => y (a, s, j))); [|intros; apply LF_proj].
    intros j _. now apply (G_Cc (E s) (E (S s)) (D s) (D (S s))).
  - apply (LF_coef I t0 t1 (fun t => 1 / 2 * Src c t (E s t) (E (S s) t) k * sigma_s c)). apply Cc_mult; [|apply Cc_const]. apply Cc_mult; [apply Cc_const|].
    apply Cc_of; auto. apply HSrc; auto. unfold n in *. lia.
  - apply (dotf_LF (fun t => sMP t s) (fun j _ y => y (a, s, j))); [|intros; apply LF_proj].
    intros j _. now apply (MP_Cc (E s) (E (S s)) (D s) (D (S s))).
Qed.
Lemma srhs_LF a s i : (s < N)%nat -> (i < n)%nat -> LF (fun t y => srhs t y a s i).
Proof.
  intros Hs Hi. unfold srhs. apply LF_minus; [apply LF_plus|apply LF_proj].
  - apply (dotf_LF (fun t => ginv n (smass t s)) (fun k t y => srhs0 t y a s k)); [|intros; now apply srhs0_LF].
    intros j Hj. apply (ginv_Cc t0 t1 Hle).
    + intros t Ht. destruct (HT t Ht s Hs) as (M1 & _). apply mass_pdef; [apply sE_nonneg; [lia|auto]|now apply sE_lt|exact M1].
    + intros p q _ _. apply (mass_Cc (E s) (E (S s))); apply sE_Cc; lia.
  - apply (LF_multr I t0 t1 Hle (fun _ => sigma_s c)); [apply Cc_const|].
    unfold make_P. apply (LF_sumn I t0 t1 K (fun l t (y : I -> R) => y (l, s, i) * wsa c l)). intros l _.
    apply (LF_multr I t0 t1 Hle (fun _ => wsa c l)); [apply Cc_const|]. apply LF_proj.
Qed.

Lemma srhs_is st t (y : I -> R) s : t0 <= t <= t1 -> (s < N)%nat ->
  exists W, rhs_space c st t (fun l k j => y (l, k, j)) s = Ok W /\ forall a i, (i < n)%nat -> W a i = srhs t y a s i.
Proof.
  intros Ht Hs. destruct (proj2 (C25_update_defined_iff c st t (fun l k j => y (l, k, j)) s Hg Hrefl) HM10) as (W & HW). exists W. split; [exact HW|].
  intros a i Hi. destruct (HM t Ht) as (HE & He & H0 & _). destruct (HT t Ht s Hs) as (M1 & _ & _ & MI).
  assert (EE : r_edges c t = fun k => E k t) by (apply FunctionalExtensionality.functional_extensionality; auto).
  pose proof (sE_lt s t Hs Ht) as Lt. pose proof (sE_nonneg s t ltac:(lia) Ht) as Nn.
  unfold rhs_space in HW. rewrite (Hg : fgeom (rflux c) = Sphere) in HW. cbv zeta in HW.
  destruct (make_G_sphere _ _ _ _ _) as [G|] eqn:EG; [|discriminate]. cbn [bind] in HW.
  destruct (make_MPRIME _ _ _ _ _) as [P|] eqn:EP; [|discriminate]. cbn [bind] in HW.
  destruct (_ && _) in HW; [discriminate|]. injection HW as <-.
  rewrite EE, (Nat.add_1_r s) in EG, EP. cbv beta in EG, EP.
  unfold sphere_cell, srhs. cbv zeta. rewrite EE, (Nat.add_1_r s). cbv beta. fold fc M n K.
  fold (smass t s). fold n in MI. fold (smass t s) in MI.
  assert (X : forall x, dotv n (inv c (smass t s)) x i = dotv n (ginv n (smass t s)) x i) by (intros x; apply (inverse_is (tabs c) M (E s t) (E (S s) t)); auto).
  rewrite X. f_equal. f_equal.
  - apply dotv_ext; [reflexivity|]. intros k Hk. unfold srhs0.
    pose proof (sLU_is (st a) t y a s k (fun j => y (refl_index c s a, 0%nat, j)) Ht Hs) as QL. change (fun k => D k t) with (r_Dedges c t) in QL. rewrite QL.
    assert (QG : dotv n G (fun j => y (a, s, j)) k = dotv n (sG t s) (fun j => y (a, s, j)) k).
    { unfold dotv. apply sumn_ext. intros j Hj. f_equal. destruct (over_pi_inv _ _ _ EG k j Hk Hj) as (g & E1 & ->). unfold sG. f_equal.
      apply (G_entry k j (E s t) (E (S s) t) (r_Dedges c t s) (r_Dedges c t (S s)) g); [lra|exact E1]. }
    assert (QP : dotv n P (fun j => y (a, s, j)) k = dotv n (sMP t s) (fun j => y (a, s, j)) k).
    { unfold dotv. apply sumn_ext. intros j Hj. f_equal. destruct (over_pi_inv _ _ _ EP k j Hk Hj) as (g & E1 & ->). unfold sMP. f_equal.
      apply (M_entry k j (E s t) (E (S s) t) (r_Dedges c t s) (r_Dedges c t (S s)) g); exact E1. }
    change (fun i0 : nat => y (a, s, i0)) with (fun j : nat => y (a, s, j)). rewrite QG, QP. unfold aterm. fold K. reflexivity.
  - unfold Reqb. destruct (Req_EM_T (sigma_s c) 0) as [Z|Z]; [rewrite Z; ring|reflexivity].
Qed.
(** only the coefficients of existing cells, directions and orders matter *)
Lemma srhs_ext t (y z : I -> R) a s i : (2 <= K)%nat -> (forall l k j, (l < K)%nat -> (k < N)%nat -> (j <= M)%nat -> y (l, k, j) = z (l, k, j)) ->
  (a < K)%nat -> (s < N)%nat -> (i <= M)%nat -> srhs t y a s i = srhs t z a s i.
Proof.
  intros HK H Ha Hs Hi. unfold srhs.
  assert (FE : forall k (x : R), (k < N)%nat -> field Sphere M (fun j => y (a, k, j)) (E k t) (E (S k) t) x = field Sphere M (fun j => z (a, k, j)) (E k t) (E (S k) t) x).
  { intros k x Hk. unfold field. apply sumn_ext. intros j Hj. rewrite H; auto. lia. }
  assert (SF : forall k, (k < N)%nat -> sflux t y a k = sflux t z a k).
  { intros k Hk. unfold sflux. rewrite FE by auto. destruct (Nat.eqb_spec (S k) N); [reflexivity|]. rewrite FE by lia. reflexivity. }
  assert (DE : forall A k, dotv n A (fun j => y (a, s, j)) k = dotv n A (fun j => z (a, s, j)) k).
  { intros A k. unfold dotv. apply sumn_ext. intros j Hj. rewrite H; auto. unfold n in *. lia. }
  rewrite H by auto. f_equal. f_equal.
  - unfold dotv. apply sumn_ext. intros k Hk. f_equal. unfold srhs0. rewrite !DE. f_equal. f_equal. f_equal.
    f_equal.
    + f_equal. f_equal. unfold sLU. rewrite SF by auto. f_equal. destruct s; [reflexivity|]. rewrite SF by lia. reflexivity.
    + unfold dotv. apply sumn_ext. intros j Hj. f_equal. assert (Hj' : (j <= M)%nat) by (unfold n in *; lia).
      unfold aterm, finite_diff_uneven. cbv zeta. destruct (negb (a =? 0)%nat && negb (a =? K - 1)%nat) eqn:Q.
      * apply andb_true_iff in Q. destruct Q as [Q1 Q2]. rewrite negb_true_iff in Q1, Q2. apply Nat.eqb_neq in Q1, Q2. rewrite !H by (auto; lia). reflexivity.
      * destruct (Nat.eqb_spec a 0); rewrite !H by (auto; lia); reflexivity.
  - f_equal. unfold make_P. apply sumn_ext. intros l Hl. rewrite H; auto.
Qed.
End S.
