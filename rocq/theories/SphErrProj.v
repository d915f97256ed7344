(** The r^2-weighted projection on a moving cell: it solves its normal equations, is orthogonal to the polynomials,
    and its coefficients have derivatives. *)
From Coq Require Import ZArith QArith Qreals Classical_Prop.
From Coquelicot Require Import Coquelicot.
From Verif Require Import Py PyLemmas Calc Legendre Cheb DGModel DGSpec DGProofs DGInt DGBalance FuncLobatto GaussExist MatModel RhsModel RhsProofs
  SpherePoly SphereProofs SphereBal DGFinal StabSpec StabProofs SphereWeak SphereThms PosDef SphMass SphUnif SphEnergy SphStab SphSpec ErrSpec ErrLeib ErrProofs SphErrSpec.
Open Scope R_scope.

(** ** Chebyshev polynomials span the polynomials *)
Lemma deg_cheb n : deg_le n (cheb n).
Proof.
  revert n. apply (cheb_ind2 (fun n => deg_le n (cheb n))).
  - apply (deg_ext _ (fun _ => 1)); [intros; now rewrite cheb_0|apply deg_const].
  - apply (deg_ext _ (fun z => z * 1)); [intros; rewrite cheb_1; ring|apply deg_x, deg_const].
  - intros n H0 H1. apply (deg_ext _ (fun z => 2 * (z * cheb (S n) z) + -1 * cheb n z)); [intros; rewrite cheb_SS; ring|].
    apply deg_lin; [now apply deg_x|]. apply (deg_mono n); [lia|auto].
Qed.
Lemma deg_dcheb n : deg_le (n - 1) (dcheb n).
Proof.
  destruct n as [|n].
  - apply (deg_ext _ (fun _ => 0)); [|apply deg_const]. intros z.
    assert (X : is_derive (cheb 0) z 0) by (apply (dd_ext (fun _ => 1)); [intros; now rewrite cheb_0|apply dd_const]).
    now rewrite <- (is_derive_unique _ _ _ X), (is_derive_unique _ _ _ (cheb_derive 0 z)).
  - replace (S n - 1)%nat with n by lia. apply (deg_derive n (cheb (S n))); [apply deg_cheb|apply cheb_derive].
Qed.
Lemma deg_zdcheb n : deg_le n (fun z => z * dcheb n z).
Proof.
  destruct n as [|n].
  - apply (deg_ext _ (fun _ => 0)); [|apply deg_const]. intros z.
    assert (X : is_derive (cheb 0) z 0) by (apply (dd_ext (fun _ => 1)); [intros; now rewrite cheb_0|apply dd_const]).
    rewrite <- (is_derive_unique _ _ _ (cheb_derive 0 z)), (is_derive_unique _ _ _ X). ring.
  - apply deg_x. pose proof (deg_dcheb (S n)) as H. now replace (S n - 1)%nat with n in H by lia.
Qed.
Definition cspan (m : nat) (v : R -> R) : Prop := exists u : nat -> R, forall z, v z = sumn m (fun j => u j * cheb j z).
Lemma cspan_ext m u v : (forall z, u z = v z) -> cspan m u -> cspan m v.
Proof. intros E (w & H). exists w. intros z. now rewrite <- E. Qed.
Lemma cspan_lin m u v p q : cspan m u -> cspan m v -> cspan m (fun z => p * u z + q * v z).
Proof.
  intros (a & A) (b & B). exists (fun j => p * a j + q * b j). intros z. rewrite A, B, <- !sumn_scal, <- sumn_plus. apply sumn_ext. intros; ring.
Qed.
Lemma cspan_zero m : cspan m (fun _ => 0).
Proof. exists (fun _ => 0). intros z. symmetry. apply sumn_zero. intros; ring. Qed.
Lemma cspan_cheb m j : (j < m)%nat -> cspan m (cheb j).
Proof.
  intros H. exists (fun i => if (i =? j)%nat then 1 else 0). intros z. symmetry.
  rewrite (sumn_single _ _ j); [rewrite Nat.eqb_refl; ring|exact H|]. intros i _ N. apply Nat.eqb_neq in N. rewrite N. ring.
Qed.
Lemma cspan_sumn m n (v : nat -> R -> R) : (forall i, (i < n)%nat -> cspan m (v i)) -> cspan m (fun z => sumn n (fun i => v i z)).
Proof.
  induction n as [|n IH]; intros H; cbn [sumn]; [apply cspan_zero|].
  apply (cspan_ext m (fun z => 1 * sumn n (fun i => v i z) + 1 * v n z)); [intros; ring|]. apply cspan_lin; auto.
Qed.
Lemma cspan_x m v : cspan m v -> cspan (S m) (fun z => z * v z).
Proof.
  intros (u & H). apply (cspan_ext (S m) (fun z => sumn m (fun j => z * (u j * cheb j z)))); [intros z; now rewrite H, <- sumn_scal|].
  apply cspan_sumn. intros j Hj. destruct j as [|j].
  - apply (cspan_ext (S m) (fun z => u 0%nat * cheb 1 z + 0 * cheb 1 z)); [intros z; rewrite cheb_0, cheb_1; ring|]. apply cspan_lin; apply cspan_cheb; lia.
  - apply (cspan_ext (S m) (fun z => u (S j) / 2 * cheb (S (S j)) z + u (S j) / 2 * cheb j z)).
    + intros z. rewrite cheb_SS. field.
    + apply cspan_lin; apply cspan_cheb; lia.
Qed.
Lemma deg_cspan m v : deg_le m v -> cspan (m + 1) v.
Proof.
  intros (l & L & H). apply (cspan_ext _ (ph l)); [intros; now rewrite H|]. clear v H.
  assert (G : forall l m, (length l <= m)%nat -> cspan m (ph l)).
  { clear. induction l as [|c l IH]; intros m L.
    - apply (cspan_ext _ (fun _ => 0)); [reflexivity|apply cspan_zero].
    - destruct m as [|m]; [cbn in L; lia|]. cbn in L.
      apply (cspan_ext _ (fun z => c * cheb 0 z + 1 * (z * ph l z))); [intros z; rewrite cheb_0; change (ph (c :: l) z) with (c + z * ph l z); ring|].
      apply cspan_lin; [apply cspan_cheb; lia|]. apply cspan_x, IH. lia. }
  apply G. lia.
Qed.
(** a polynomial of degree at most M in the reference coordinate is an expansion *)
Lemma cspan_field M q a b : a < b -> deg_le M q -> exists u, forall x, q (refz x a b) = field Sphere M u a b x.
Proof.
  intros H D. destruct (deg_cspan M q D) as (u & Hu). exists (fun j => u j / sqrt (cn j / (PI * (b - a)))).
  intros x. rewrite Hu. apply sumn_ext. intros j _. rewrite basis_sph.
  assert (0 < sqrt (cn j / (PI * (b - a)))) by (apply sqrt_lt_R0, Rdiv_lt_0_compat; [apply cn_pos|now apply ph_pos]). field. lra.
Qed.
Lemma cspan_field_x M q a b : a < b -> deg_le M q -> exists u, forall x, q x = field Sphere M u a b x.
Proof.
  intros H D. destruct (cspan_field M (fun z => q ((b - a) / 2 * z + (a + b) / 2)) a b H) as (u & Hu); [now apply deg_affine|].
  exists u. intros x. rewrite <- Hu. f_equal. unfold refz. field. lra.
Qed.
(** each basis function of the sphere is a combination of those of the slab, with the same numbers on every cell *)
Lemma basis_conv i : exists w : nat -> R, forall x a b, a < b -> basis Sphere i x a b = sumn (i + 1) (fun k => w k * basis Slab k x a b).
Proof.
  destruct (deg_span i (cheb i) (deg_cheb i)) as (u & Hu). exists (fun k => u k * (sqrt (cn i / PI) / sqrt (2 * INR k + 1))).
  intros x a b H. rewrite basis_sph, Hu, <- sumn_scal. apply sumn_ext. intros k _. unfold basis.
  assert (Hh : 0 < b - a) by lra. pose proof (INR2_pos k) as P.
  assert (S1 : 0 < sqrt (2 * INR k + 1)) by (apply sqrt_lt_R0; lra).
  assert (S2 : 0 < sqrt (b - a)) by (apply sqrt_lt_R0; lra).
  rewrite (sqrt_div_alt (2 * INR k + 1)) by lra.
  replace (cn i / (PI * (b - a))) with (cn i / PI / (b - a)) by (field; split; [lra|apply PI_neq0]).
  rewrite (sqrt_div_alt (cn i / PI)) by lra. field. lra.
Qed.

(** ** The normal equations *)
Lemma gram_form i j a b : a < b -> rgram a b i j = Mform i j a b / PI.
Proof. intros H. apply int_uniq. now apply mass_is. Qed.
Lemma gram_is i j a b : a < b -> is_RInt (fun x => x ^ 2 * basis Sphere i x a b * basis Sphere j x a b) a b (rgram a b i j).
Proof. intros H. rewrite gram_form by auto. now apply mass_is. Qed.
Lemma gram_quad M a b x : a < b -> is_RInt (fun r => r ^ 2 * field Sphere M x a b r ^ 2) a b (quad (M + 1) (rgram a b) x).
Proof.
  intros H. unfold quad. apply (int_ext (fun r => r ^ 2 * sumn (M + 1) (fun i => x i * basis Sphere i r a b) * field Sphere M x a b r)).
  { intros r. unfold field. ring. }
  apply (int_bil (fun r => r ^ 2) (fun i r => basis Sphere i r a b)). intros; now apply gram_is.
Qed.
Lemma gram_pdef M a b : a < b -> pdef (M + 1) (rgram a b).
Proof.
  intros H x (j & Hj & Hx). destruct (field_nonzero M x a b j H ltac:(lia) Hx) as (r0 & Hr0 & F0).
  assert (X : exists r, a < r < b /\ r <> 0 /\ field Sphere M x a b r <> 0).
  { destruct (Req_dec r0 0) as [Z|Z]; [|eauto].
    pose proof (sph_field_cont M x a b r0 H) as C.
    assert (P : 0 < Rabs (field Sphere M x a b r0)) by now apply Rabs_pos_lt.
    destruct (C (ball (field Sphere M x a b r0) (mkposreal _ P))) as [d Hd]. { exists (mkposreal _ P). auto. }
    pose (e := Rmin (d / 2) ((b - r0) / 2)). pose proof (cond_pos d).
    assert (He : 0 < e /\ e < d /\ r0 + e < b) by (unfold e, Rmin; destruct (Rle_dec _ _); lra).
    exists (r0 + e). split; [lra|split; [lra|]]. intro F1.
    assert (Bx : ball r0 d (r0 + e)). { unfold ball. cbn. unfold AbsRing_ball, abs, minus, plus, opp. cbn. rewrite Rabs_pos_eq; lra. }
    specialize (Hd _ Bx). unfold ball in Hd. cbn in Hd. unfold AbsRing_ball, abs, minus, plus, opp in Hd. cbn in Hd. rewrite F1 in Hd.
    rewrite Rplus_0_l, Rabs_Ropp in Hd. lra. }
  destruct X as (r & Hr & R0 & F).
  apply (int_pos (fun r => r ^ 2 * field Sphere M x a b r ^ 2) a b r); auto.
  - intros y. apply cmult; apply cpow; [apply cid|now apply sph_field_cont].
  - intros y. apply Rmult_le_pos; apply pow2_ge_0.
  - apply Rmult_lt_0_compat; apply pow2_gt_0; auto.
  - now apply gram_quad.
Qed.
Lemma rproj_solves M f a b i : a < b -> (i < M + 1)%nat -> dotv (M + 1) (rgram a b) (rproj M f a b) i = rmom f a b i.
Proof. intros H Hi. unfold rproj. apply elim_solves; auto. now apply gram_pdef. Qed.
Lemma rmom_is f a b i : a < b -> (forall x, continuous f x) -> is_RInt (fun x => x ^ 2 * f x * basis Sphere i x a b) a b (rmom f a b i).
Proof. intros H C. apply int_val. intros x. apply cmult; [apply cmult; [apply cpow, cid|apply C]|now apply sph_basis_cont]. Qed.

(** what is tested with a combination of basis functions does not see the difference *)
Lemma rproj_test M f a b u v : a < b -> (forall x, continuous f x) ->
  is_RInt (fun x => x ^ 2 * field Sphere M u a b x * f x) a b v -> is_RInt (fun x => x ^ 2 * field Sphere M u a b x * field Sphere M (rproj M f a b) a b x) a b v.
Proof.
  intros H C I. assert (I2 : is_RInt (fun x => x ^ 2 * field Sphere M u a b x * f x) a b (sumn (M + 1) (fun i => u i * rmom f a b i))).
  { apply (int_ext (fun x => sumn (M + 1) (fun i => u i * (x ^ 2 * f x * basis Sphere i x a b)))).
    { intros x. unfold field. transitivity (x ^ 2 * f x * sumn (M + 1) (fun j => u j * basis Sphere j x a b)); [|ring]. rewrite <- sumn_scal. apply sumn_ext. intros; ring. }
    apply int_sumn. intros i _. apply int_scal. now apply rmom_is. }
  rewrite (int_uniq2 _ _ _ _ _ I I2). clear I I2 v.
  eapply int_eq; [apply (int_bil (fun x => x ^ 2) (fun i x => basis Sphere i x a b) M u (rproj M f a b) a b (rgram a b)); intros; now apply gram_is|].
  apply sumn_ext. intros i Hi. f_equal. now apply rproj_solves.
Qed.
Lemma rproj_orth M f a b u : a < b -> (forall x, continuous f x) ->
  is_RInt (fun x => x ^ 2 * field Sphere M u a b x * (field Sphere M (rproj M f a b) a b x - f x)) a b 0.
Proof.
  intros H C. assert (I : is_RInt (fun x => x ^ 2 * field Sphere M u a b x * f x) a b (RInt (fun x => x ^ 2 * field Sphere M u a b x * f x) a b)).
  { apply int_val. intros x. apply cmult; [apply cmult; [apply cpow, cid|now apply sph_field_cont]|apply C]. }
  apply (int_ext (fun x => x ^ 2 * field Sphere M u a b x * field Sphere M (rproj M f a b) a b x - x ^ 2 * field Sphere M u a b x * f x)); [intros; ring|].
  eapply int_eq; [apply int_minus; [apply rproj_test; eauto|exact I]|ring].
Qed.
Lemma rproj_unique M f a b u : a < b -> (forall x, continuous f x) ->
  (forall i, (i <= M)%nat -> is_RInt (fun x => x ^ 2 * (field Sphere M u a b x - f x) * basis Sphere i x a b) a b 0) -> forall i, (i <= M)%nat -> u i = rproj M f a b i.
Proof.
  intros H C O i Hi. apply (pdef_unique (M + 1) (rgram a b)); [now apply gram_pdef| |lia]. intros k Hk. rewrite rproj_solves by auto.
  pose proof (O k ltac:(lia)) as Ok.
  assert (I := int_minus _ _ _ _ _ _ (int_dot (fun x => x ^ 2 * basis Sphere k x a b) M u a b (rgram a b) k (fun j _ => gram_is k j a b H)) (rmom_is f a b k H C)).
  assert (X : dotv (M + 1) (rgram a b) u k - rmom f a b k = 0); [|lra].
  apply (int_uniq2 _ _ _ _ _ I). eapply int_ext; [|exact Ok]. intros; cbv beta; ring.
Qed.
Lemma rproj_field M u a b : a < b -> forall i, (i <= M)%nat -> rproj M (field Sphere M u a b) a b i = u i.
Proof.
  intros H i Hi. symmetry. apply rproj_unique; auto; [intros; now apply sph_field_cont|].
  intros k Hk. apply (int_ext (fun _ => 0)); [intros; ring|]. eapply int_eq; [apply int_const|ring].
Qed.

(** ** Coefficients of the projection have derivatives *)
Lemma elim_D t n : forall (A : R -> nat -> nat -> R) (y : R -> nat -> R), pdef n (A t) ->
  (forall i j, (i < n)%nat -> (j < n)%nat -> ex_derive (fun w => A w i j) t) -> (forall i, (i < n)%nat -> ex_derive (fun w => y w i) t) ->
  forall j, ex_derive (fun w => elim n (A w) (y w) j) t.
Proof.
  induction n as [|m IH]; intros A y P HA Hy j; [exists 0; exact (dd_const 0 t)|].
  assert (D : A t m m <> 0) by (pose proof (pdef_diag _ _ m P ltac:(lia)); lra).
  assert (Dm : forall f g : R -> R, ex_derive f t -> ex_derive g t -> ex_derive (fun w => f w * g w) t) by (intros f g [x X] [z Z]; eexists; apply dd_mult; eassumption).
  assert (Dd : forall f : R -> R, ex_derive f t -> ex_derive (fun w => f w / A w m m) t).
  { intros f [x X]. destruct (HA m m ltac:(lia) ltac:(lia)) as [z Z]. eexists. apply (dd_div f (fun w => A w m m)); eassumption. }
  assert (Ds : forall f g : R -> R, ex_derive f t -> ex_derive g t -> ex_derive (fun w => f w - g w) t) by (intros f g [x X] [z Z]; eexists; apply dd_minus; eassumption).
  assert (X : forall j, ex_derive (fun w => elim m (schur m (A w)) (fun i => y w i - A w i m * y w m / A w m m) j) t).
  { intros k. apply (IH (fun w => schur m (A w)) (fun w i => y w i - A w i m * y w m / A w m m)).
    - now apply pdef_schur.
    - intros i l Hi Hl. unfold schur. apply Ds; [apply HA; lia|]. apply (Dd (fun w => A w i m * A w m l)). apply Dm; apply HA; lia.
    - intros i Hi. apply Ds; [apply Hy; lia|]. apply (Dd (fun w => A w i m * y w m)). apply Dm; [apply HA; lia|apply Hy; lia]. }
  cbn [elim]. destruct (j <? m)%nat; [apply X|].
  apply (Dd (fun w => y w m - dotv m (A w) (elim m (schur m (A w)) (fun i => y w i - A w i m * y w m / A w m m)) m)). apply Ds; [apply Hy; lia|].
  unfold dotv. assert (G : forall k, (k <= m)%nat -> ex_derive (fun w => sumn k (fun i => A w m i * elim m (schur m (A w)) (fun i => y w i - A w i m * y w m / A w m m) i)) t).
  { induction k as [|k IHk]; intros Hk; cbn [sumn]; [exists 0; exact (dd_const 0 t)|]. destruct (IHk ltac:(lia)) as [p Hp].
    destruct (Dm (fun w => A w m k) (fun w => elim m (schur m (A w)) (fun i => y w i - A w i m * y w m / A w m m) k)) as [q Hq]; [apply HA; lia|apply X|].
    eexists. apply dd_plus; [exact Hp|exact Hq]. }
  now apply G.
Qed.

Section Mov.
Variables (a b da db : R -> R) (psi fx ft : R -> R -> R).
Hypothesis Ha : forall t, is_derive a t (da t) /\ continuous da t.
Hypothesis Hb : forall t, is_derive b t (db t) /\ continuous db t.
Hypothesis HP : c1 psi fx ft.
Let p2 := fun x t => x ^ 2 * psi x t.
Let fx2 := fun x t => 2 * x * psi x t + x ^ 2 * fx x t.
Let ft2 := fun x t => x ^ 2 * ft x t.
Lemma c1_cont2 (x t : R) : continuity_2d_pt psi x t.
Proof.
  assert (D : differentiable_pt_lim psi x t (fx x t) (ft x t)).
  { apply filterdiff_differentiable_pt_lim. apply (is_derive_filterdiff psi x t fx (ft x t)).
    - apply filter_forall. intros [u v]. cbn. apply HP.
    - apply HP.
    - apply c2_cont. apply HP. }
  apply differentiable_continuity_pt. now exists (fx x t), (ft x t).
Qed.
Lemma c1_sq : c1 p2 fx2 ft2.
Proof.
  intros x t. destruct (HP x t) as (D1 & D2 & C1 & C2).
  assert (CX : forall n, continuity_2d_pt (fun x _ => x ^ n) x t).
  { intros n. apply c2_cont. apply (continuous_comp (fun p : R * R => fst p) (fun x => x ^ n)); [apply continuous_fst|apply cpow, cid]. }
  split; [|split; [|split]].
  - unfold p2, fx2. eapply dd_eq; [apply dd_mult; [apply (dd_ext (fun x => x * x)); [intros; ring|apply dd_mult; apply dd_id]|exact D1]|]. cbv beta. ring.
  - unfold p2, ft2. now apply dd_scal.
  - unfold fx2. apply continuity_2d_pt_plus; apply continuity_2d_pt_mult; [|apply c1_cont2|apply CX|exact C1].
    apply continuity_2d_pt_mult; [apply continuity_2d_pt_const|]. apply (continuity_2d_pt_ext (fun x _ => x ^ 1)); [intros; ring|apply CX].
  - unfold ft2. apply continuity_2d_pt_mult; [apply CX|exact C2].
Qed.
Lemma derive_sumn_dt i t w x : a t < b t -> (forall x a b, a < b -> basis Sphere i x a b = sumn (i + 1) (fun k => w k * basis Slab k x a b)) ->
  Derive (fun s => basis Sphere i x (a s) (b s)) t = sumn (i + 1) (fun k => w k * Derive (fun s => basis Slab k x (a s) (b s)) t).
Proof.
  intros H Hw. apply is_derive_unique. apply (dd_loc (fun s => sumn (i + 1) (fun k => w k * basis Slab k x (a s) (b s)))).
  - generalize (locally_lt a b t (da t) (db t) (proj1 (Ha t)) (proj1 (Hb t)) H). apply filter_imp. intros s Hs. symmetry. now apply Hw.
  - apply (dd_sumn (i + 1) (fun k s => w k * basis Slab k x (a s) (b s))). intros k _. apply dd_scal. apply Derive_correct. eexists. apply basis_dt; [apply Ha|apply Hb|auto].
Qed.
Lemma rmom_dt i t : a t < b t -> exists I1 I2,
  is_RInt (fun x => x ^ 2 * ft x t * basis Sphere i x (a t) (b t)) (a t) (b t) I1 /\
  is_RInt (fun x => x ^ 2 * psi x t * Derive (fun w => basis Sphere i x (a w) (b w)) t) (a t) (b t) I2 /\
  is_derive (fun w => rmom (fun x => psi x w) (a w) (b w) i) t
    (I1 + I2 + db t * (b t ^ 2 * psi (b t) t) * basis Sphere i (b t) (a t) (b t) - da t * (a t ^ 2 * psi (a t) t) * basis Sphere i (a t) (a t) (b t)).
Proof.
  intros H. destruct (basis_conv i) as (w & Hw).
  destruct (fin_choice (R * R) (i + 1) (fun k I =>
     is_RInt (fun x => ft2 x t * basis Slab k x (a t) (b t)) (a t) (b t) (fst I) /\
     is_RInt (fun x => p2 x t * Derive (fun w => basis Slab k x (a w) (b w)) t) (a t) (b t) (snd I) /\
     is_derive (fun w => RInt (fun x => p2 x w * basis Slab k x (a w) (b w)) (a w) (b w)) t
    (fst I + snd I + db t * p2 (b t) t * basis Slab k (b t) (a t) (b t) - da t * p2 (a t) t * basis Slab k (a t) (a t) (b t)))) as (g & G).
  { now exists (0, 0). }
  { intros k _. destruct (leibniz a b da db p2 fx2 ft2 Ha Hb c1_sq k t H) as (I1 & I2 & X). now exists (I1, I2). }
  exists (sumn (i + 1) (fun k => w k * fst (g k))), (sumn (i + 1) (fun k => w k * snd (g k))). split; [|split].
  - apply (int_ext (fun x => sumn (i + 1) (fun k => w k * (ft2 x t * basis Slab k x (a t) (b t))))).
    { intros x. rewrite Hw by auto. unfold ft2. rewrite <- sumn_scal. apply sumn_ext. intros; ring. }
    apply int_sumn. intros k Hk. apply int_scal, G, Hk.
  - apply (int_ext (fun x => sumn (i + 1) (fun k => w k * (p2 x t * Derive (fun w => basis Slab k x (a w) (b w)) t)))).
    { intros x. rewrite (derive_sumn_dt i t w x H Hw). unfold p2. rewrite <- sumn_scal. apply sumn_ext. intros; ring. }
    apply int_sumn. intros k Hk. apply int_scal, G, Hk.
  - apply (dd_loc (fun s => sumn (i + 1) (fun k => w k * RInt (fun x => p2 x s * basis Slab k x (a s) (b s)) (a s) (b s)))).
    + generalize (locally_lt a b t (da t) (db t) (proj1 (Ha t)) (proj1 (Hb t)) H). apply filter_imp. intros s Hs. symmetry.
      apply int_uniq. apply (int_ext (fun x => sumn (i + 1) (fun k => w k * (p2 x s * basis Slab k x (a s) (b s))))).
      { intros x. rewrite Hw by auto. unfold p2. rewrite <- sumn_scal. apply sumn_ext. intros; ring. }
      apply int_sumn. intros k _. apply int_scal. apply int_val. intros x. apply cmult; [|now apply basis_cont].
      apply (c1_cont p2 fx2 ft2), c1_sq.
    + eapply dd_eq; [apply (dd_sumn (i + 1) (fun k s => w k * RInt (fun x => p2 x s * basis Slab k x (a s) (b s)) (a s) (b s))); intros k Hk; apply dd_scal, G, Hk|].
      cbv beta. rewrite !Hw by auto. unfold p2.
      rewrite <- !sumn_scal, <- !sumn_plus, <- sumn_minus. apply sumn_ext. intros; ring.
Qed.

Variable M : nat.
Definition pc (j : nat) (w : R) : R := rproj M (fun x => psi x w) (a w) (b w) j.
Lemma pc_ex j t : a t < b t -> ex_derive (pc j) t.
Proof.
  intros H. unfold pc, rproj. apply (elim_D t (M + 1) (fun w => rgram (a w) (b w)) (fun w => rmom (fun x => psi x w) (a w) (b w))).
  - now apply gram_pdef.
  - intros i k _ _. eexists. apply (mass_rate a b t (da t) (db t)); [apply Ha|apply Hb|auto].
  - intros i _. destruct (rmom_dt i t H) as (I1 & I2 & _ & _ & D). eexists. exact D.
Qed.
(** rate of the normal equations *)
Lemma pc_rate i t : a t < b t -> (i < M + 1)%nat ->
  is_derive (fun w => rmom (fun x => psi x w) (a w) (b w) i) t
    (sumn (M + 1) (fun j => M'form i j (a t) (b t) (da t) (db t) / PI * pc j t) + dotv (M + 1) (rgram (a t) (b t)) (fun j => Derive (pc j) t) i).
Proof.
  intros H Hi. apply (dd_loc (fun w => sumn (M + 1) (fun j => rgram (a w) (b w) i j * pc j w))).
  - generalize (locally_lt a b t (da t) (db t) (proj1 (Ha t)) (proj1 (Hb t)) H). apply filter_imp. intros s Hs. now apply rproj_solves.
  - eapply dd_eq.
    + apply (dd_sumn (M + 1) (fun j w => rgram (a w) (b w) i j * pc j w)). intros j Hj. apply (dd_mult (fun w => rgram (a w) (b w) i j) (pc j)).
      * apply (mass_rate a b t (da t) (db t)); [apply Ha|apply Hb|auto].
      * apply Derive_correct. now apply pc_ex.
    + cbv beta. rewrite sumn_plus. reflexivity.
Qed.
End Mov.
