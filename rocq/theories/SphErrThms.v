(** C159: the error of spherical runs in terms of what the projections of the exact solution leave.  C160: its order.
    C161: convergence to the solution of the transport equation in radius and angle. *)
From Coq Require Import FunctionalExtensionality.
From Coquelicot Require Import Coquelicot.
From Verif Require Import Py PyLemmas Calc Legendre Cheb DGModel DGSpec DGProofs DGInt DGBalance DGFinal FuncLobatto MatModel RhsModel RhsProofs
  SphereProofs SphereBal SphereWeak SphereThms PosDef SphMass SphMassThms SphUnif SphEnergy SphSpec SphStab SphStabThms SphExistThms StabSpec StabProofs ErrSpec ErrLeib ErrProofs ErrEnergy ErrApprox
  AngleThms SphErrSpec SphErrProj SphErrEn SphErrCons SphErrInv SphErrRate SphErrEst.
Open Scope R_scope.

(* ---------------------------------------------------------------- C159 *)
(** The projection is orthogonal to the expansions, is determined by this, and is nearer to f than any other expansion. *)
Theorem C159_projection : forall M f a b, a < b -> (forall x, continuous f x) ->
  (forall i, (i <= M)%nat -> is_RInt (fun x => x ^ 2 * (field Sphere M (rproj M f a b) a b x - f x) * basis Sphere i x a b) a b 0) /\
  (forall u, (forall i, (i <= M)%nat -> is_RInt (fun x => x ^ 2 * (field Sphere M u a b x - f x) * basis Sphere i x a b) a b 0) -> forall i, (i <= M)%nat -> u i = rproj M f a b i) /\
  (forall u, RInt (fun x => x ^ 2 * (field Sphere M (rproj M f a b) a b x - f x) ^ 2) a b <= RInt (fun x => x ^ 2 * (field Sphere M u a b x - f x) ^ 2) a b).
Proof.
  intros M f a b H C. split; [|split].
  - intros i Hi. pose proof (rproj_orth M f a b (fun j => if (j =? i)%nat then 1 else 0) H C) as X.
    eapply int_ext; [|exact X]. intros x. cbv beta.
    assert (EF : field Sphere M (fun j => if (j =? i)%nat then 1 else 0) a b x = basis Sphere i x a b).
    { unfold field. rewrite (sumn_single (M + 1) _ i); [rewrite Nat.eqb_refl; ring|lia|]. intros j _ Hj. destruct (Nat.eqb_spec j i); [contradiction|ring]. }
    rewrite EF. ring.
  - intros u O. now apply rproj_unique.
  - intros u. rewrite (rproj_pyth M f a b u H C).
    assert (0 <= RInt (fun x => x ^ 2 * (field Sphere M u a b x - field Sphere M (rproj M f a b) a b x) ^ 2) a b); [|lra].
    apply RInt_ge_0; [lra|apply ex_int; intros; apply cmult; [apply cpow, cid|apply cpow, cminus; now apply sph_field_cont]|]. intros. apply Rmult_le_pos; apply pow2_ge_0.
Qed.
Print Assumptions C159_projection.

(** The distance of a run from the exact solution splits into its distance from the projections and what these leave. *)
Theorem C159_pythagoras : forall c E Q psi ang em t0 t1 V t, sph_exact c E Q psi ang em t0 t1 -> t0 <= t <= t1 -> increasing (fN (rflux c)) (fun k => E k t) ->
  sph_dist c E (fun a s x => psi a s x t) V t = sph_dist c E (fun a s x => rproj_at (fM (rflux c)) E (psi a s) s t x) V t +
  sumn (N_ang c) (fun a => awidth (N_ang c) (mus c) a * sumn (fN (rflux c)) (fun s =>
    RInt (fun x => x ^ 2 * (rproj_at (fM (rflux c)) E (psi a s) s t x - psi a s x t) ^ 2) (E s t) (E (S s) t))).
Proof. intros c E Q psi ang em t0 t1 V t HX Ht He. exact (dist_pyth c E Q psi ang em t0 t1 V HX t Ht He). Qed.
Print Assumptions C159_pythagoras.

(** The distance of a run from the projections is governed by its start and the defects: at the faces, in the angular
    differences and in the scattering sum.  gam is what directions away from the middle of their angular cells cost; it
    is 0 when no direction lies below the middle of its cell. *)
Theorem C159_error : forall c E Q psi ang em t0 t1 V st lam gam g,
  fgeom (rflux c) = Sphere -> (2 <= fN (rflux c))%nat -> (2 <= N_ang c)%nat -> directions (N_ang c) (mus c) -> t0 <= t1 ->
  mesh_c1 (rflux c) E (fun k t => r_Dedges c t k) -> sph_exact c E Q psi ang em t0 t1 -> sph_run c E st V t0 t1 ->
  0 < lam -> 0 <= gam -> 0 <= sigma_s c ->
  (forall t a s, t0 <= t <= t1 -> (a < N_ang c)%nat -> (s < fN (rflux c))%nat -> 8 * (INR (fM (rflux c)) + 1) ^ 2 * offset c a <= gam * (E (S s) t - E s t)) ->
  (forall t, t0 <= t <= t1 -> sph_defects c E psi ang em lam t <= g) ->
  let k := gam + 2 * (kappa c * sigma_s c - 1) + 2 * lam in
  sph_dist c E (fun a s x => rproj_at (fM (rflux c)) E (psi a s) s t1 x) V t1 <=
  exp (k * (t1 - t0)) * sph_dist c E (fun a s x => rproj_at (fM (rflux c)) E (psi a s) s t0 x) V t0 + exp (Rmax k 0 * (t1 - t0)) * (g * (t1 - t0)).
Proof.
  intros c E Q psi ang em t0 t1 V st lam gam g Hg HN HK Hd Hle HM HX Hrun Hl Hga Hs Hoff Hdef.
  exact (estimate c E Q psi ang em t0 t1 V st HM HX Hg HN HK Hd lam gam g Hle Hrun Hl Hga Hs Hoff Hdef).
Qed.
Print Assumptions C159_error.

(* ---------------------------------------------------------------- C160 *)
(** what is left of a function with M + 1 derivatives on a cell of width h *)
Definition sph_eta (M : nat) (Kd h : R) : R := (1 + 3 * (INR M + 1) ^ 3) * (Kd * h ^ (S M) / INR (fact (S M))).
Theorem C160_projection_order : forall M f a b Kd h, a < b -> 0 <= a -> b - a <= h -> (forall x, continuous f x) ->
  (forall x k, a <= x <= b -> (k <= S M)%nat -> ex_derive_n f k x) -> (forall x, a <= x <= b -> Rabs (Derive_n f (S M) x) <= Kd) ->
  forall x, a <= x <= b -> Rabs (field Sphere M (rproj M f a b) a b x - f x) <= sph_eta M Kd h.
Proof.
  intros M f a b Kd h Hab H0 Hh C Hf HK x Hx. destruct (taylor M f a b Kd Hab Hf HK) as (q & Dq & Hq).
  assert (K0 : 0 <= Kd) by (apply (Rle_trans _ _ _ (Rabs_pos (Derive_n f (S M) a))), HK; lra).
  assert (Fp : 0 < INR (fact (S M))) by (apply lt_0_INR, lt_O_fact). pose proof (pos_INR M) as PM.
  eapply Rle_trans; [apply (rproj_near M a b f q _ Hab H0 C Dq Hq x Hx)|]. unfold sph_eta.
  apply Rmult_le_compat_l; [assert (0 <= (INR M + 1) ^ 3) by (apply pow_le; lra); lra|].
  unfold Rdiv. apply Rmult_le_compat_r; [apply Rlt_le, Rinv_0_lt_compat; auto|]. apply Rmult_le_compat_l; [auto|]. apply pow_incr. lra.
Qed.
Print Assumptions C160_projection_order.

(** The squared distance of a run from the exact solution: N cells no wider than h inside radius Rr, angular cells no
    narrower than wmin, angular differences of the exact solution off by at most alpha, its scattering sum by at most beta. *)
Theorem C160_order : forall c E Q psi ang em t0 t1 V st lam gam h Kd sg Rr wmin alpha beta,
  fgeom (rflux c) = Sphere -> (2 <= fN (rflux c))%nat -> (2 <= N_ang c)%nat -> directions (N_ang c) (mus c) -> t0 <= t1 ->
  mesh_c1 (rflux c) E (fun k t => r_Dedges c t k) -> sph_exact c E Q psi ang em t0 t1 -> sph_run c E st V t0 t1 ->
  0 < lam -> 0 <= gam -> 0 <= sigma_s c ->
  (forall t a s, t0 <= t <= t1 -> (a < N_ang c)%nat -> (s < fN (rflux c))%nat -> 8 * (INR (fM (rflux c)) + 1) ^ 2 * offset c a <= gam * (E (S s) t - E s t)) ->
  (forall t s, t0 <= t <= t1 -> (s < fN (rflux c))%nat -> E (S s) t - E s t <= h) -> (forall t, t0 <= t <= t1 -> E (fN (rflux c)) t <= Rr) ->
  (forall t a s x, t0 <= t <= t1 -> (a < N_ang c)%nat -> (s < fN (rflux c))%nat -> E s t <= x <= E (S s) t ->
     (forall k, (k <= S (fM (rflux c)))%nat -> ex_derive_n (fun y => psi a s y t) k x) /\ Rabs (Derive_n (fun y => psi a s y t) (S (fM (rflux c))) x) <= Kd /\
     Rabs (ang a s x t - aterm (N_ang c) (mus c) (fun l => psi l s x t) a) <= alpha /\ Rabs (em s x t - sumn (N_ang c) (fun l => wsa c l * psi l s x t)) <= beta) ->
  (forall t a s, t0 <= t <= t1 -> (a < N_ang c)%nat -> (s < fN (rflux c))%nat -> Rabs (mus c a - r_Dedges c t (S s)) <= sg) ->
  0 < wmin -> (forall a, (a < N_ang c)%nat -> wmin <= awidth (N_ang c) (mus c) a) ->
  let k := gam + 2 * (kappa c * sigma_s c - 1) + 2 * lam in let eta := sph_eta (fM (rflux c)) Kd h in
  sph_dist c E (fun a s x => psi a s x t1) V t1 <=
  exp (k * (t1 - t0)) * sph_dist c E (fun a s x => rproj_at (fM (rflux c)) E (psi a s) s t0 x) V t0
  + exp (Rmax k 0 * (t1 - t0)) * (2 * (INR (fN (rflux c)) * Rr ^ 2 * sg * eta ^ 2 + / lam * Rr * (alpha + 2 * eta / wmin) ^ 2 + sigma_s c ^ 2 / lam * Rr ^ 3 * beta ^ 2) * (t1 - t0))
  + 2 * Rr ^ 3 * eta ^ 2.
Proof.
  intros c E Q psi ang em t0 t1 V st lam gam h Kd sg Rr wmin alpha beta Hg HN HK Hd Hle HM HX Hrun Hl Hga Hs Hoff Hh HR Hsm Hsg Hw Hwm k eta.
  assert (MS : forall t, t0 <= t <= t1 -> increasing (fN (rflux c)) (fun k => E k t) /\ E 0%nat t = 0) by (intros t Ht; destruct (Hrun t Ht) as ((_ & A & B & _) & _); auto).
  assert (NE : forall t j, t0 <= t <= t1 -> (j <= fN (rflux c))%nat -> 0 <= E j t).
  { intros t j Ht Hj. destruct (MS t Ht) as [He H0]. apply (edge_range c E t HK He H0 Rr (HR t Ht) j Hj). }
  assert (AP : forall t a s x, t0 <= t <= t1 -> (a < N_ang c)%nat -> (s < fN (rflux c))%nat -> E s t <= x <= E (S s) t -> Rabs (rproj_at (fM (rflux c)) E (psi a s) s t x - psi a s x t) <= eta).
  { intros t a s x Ht Ha Hs' Hx. unfold rproj_at, eta. destruct (MS t Ht) as [He H0]. apply (C160_projection_order (fM (rflux c)) (fun y => psi a s y t) (E s t) (E (S s) t) Kd h); auto.
    - apply NE; auto. lia.
    - intros y. exact (psi_c c E Q psi ang em t0 t1 HX t s Hs' a y Ha).
    - intros y j Hy Hj. now apply (Hsm t a s y).
    - intros y Hy. now apply (Hsm t a s y). }
  assert (HT : t0 <= t1 <= t1) by lra. destruct (MS t1 HT) as [He1 H01].
  rewrite (C159_pythagoras c E Q psi ang em t0 t1 V t1 HX HT He1). apply Rplus_le_compat.
  - apply (C159_error c E Q psi ang em t0 t1 V st lam gam); auto. intros t Ht. destruct (MS t Ht) as [He H0].
    apply (defects_size c E Q psi ang em t0 t1 t HX Ht HK Hd He H0 eta alpha beta sg Rr wmin); auto.
    + intros a s x Ha Hs' Hx. destruct (Hsm t a s x Ht Ha Hs' Hx) as (_ & _ & B & _). exact B.
    + intros s x Hs' Hx. destruct (Hsm t 0%nat s x Ht ltac:(lia) Hs' Hx) as (_ & _ & _ & B). exact B.
  - apply (rest_size c E Q psi ang em t0 t1 t1 HX HK Hd He1 H01 eta Rr); auto.
Qed.
Print Assumptions C160_order.

(* ---------------------------------------------------------------- C161 *)
(** f s x mu t solves the transport equation in a sphere on cell s: the angular term is the derivative of (1 - mu^2) f,
    the scattering source half the integral over all directions *)
Definition sph_transport (c : rhs_cfg) (E : nat -> R -> R) (Q : nat -> R -> R -> R) (f : nat -> R -> R -> R -> R) (t0 t1 : R) : Prop :=
  sph_exact c E Q (fun a s x t => f s x (mus c a) t) (fun a s x t => Derive (fun m => (1 - m ^ 2) * f s x m t) (mus c a)) (fun s x t => 1 / 2 * RInt (fun m => f s x m t) (-1) 1) t0 t1.
(** directions in the middles of equal angular cells *)
Definition even_directions (c : rhs_cfg) : Prop :=
  forall a, (a < N_ang c)%nat -> mus c a = -1 + (2 * INR a + 1) / INR (N_ang c) /\ wsa c a = 1 / INR (N_ang c).

Section Even.
Variable c : rhs_cfg.
Hypothesis HK : (2 <= N_ang c)%nat.
Hypothesis Hev : even_directions c.
Lemma NK_pos : 0 < INR (N_ang c). Proof. apply lt_0_INR. lia. Qed.
Lemma even_dirs : directions (N_ang c) (mus c).
Proof.
  pose proof NK_pos as PK. refine (conj _ (conj _ _)).
  - intros a Ha. rewrite (proj1 (Hev a ltac:(lia))), (proj1 (Hev (S a) Ha)). rewrite S_INR.
    apply Rplus_lt_compat_l. apply Rmult_lt_compat_r; [apply Rinv_0_lt_compat; auto|lra].
  - rewrite (proj1 (Hev 0%nat ltac:(lia))). simpl (INR 0).
    assert (0 < (2 * 0 + 1) / INR (N_ang c)) by (apply Rdiv_lt_0_compat; lra). lra.
  - rewrite (proj1 (Hev (N_ang c - 1)%nat ltac:(lia))). rewrite minus_INR by lia. simpl (INR 1).
    apply Rplus_le_reg_l with 1. replace (1 + (-1 + (2 * (INR (N_ang c) - 1) + 1) / INR (N_ang c))) with (2 - 1 / INR (N_ang c)) by (field; lra).
    assert (0 < 1 / INR (N_ang c)) by (apply Rdiv_lt_0_compat; lra). lra.
Qed.
Lemma even_edge a : (a <= N_ang c)%nat -> aedge (N_ang c) (mus c) a = -1 + 2 * INR a / INR (N_ang c).
Proof.
  pose proof NK_pos as PK. intros Ha. unfold aedge. destruct (Nat.eqb_spec a 0) as [->|N0]; [simpl; field; lra|].
  destruct (Nat.eqb_spec a (N_ang c)) as [->|N1]; [field; lra|].
  rewrite (proj1 (Hev a ltac:(lia))), (proj1 (Hev (a - 1)%nat ltac:(lia))), minus_INR by lia. simpl (INR 1). field. lra.
Qed.
Lemma even_width a : (a < N_ang c)%nat -> awidth (N_ang c) (mus c) a = 2 / INR (N_ang c).
Proof. pose proof NK_pos as PK. intros Ha. unfold awidth. rewrite !even_edge by lia. rewrite S_INR. field. lra. Qed.
Lemma even_offset a : (a < N_ang c)%nat -> offset c a = 0.
Proof. pose proof NK_pos as PK. intros Ha. unfold offset. rewrite !even_edge by lia. rewrite (proj1 (Hev a Ha)), S_INR. field. lra. Qed.
Lemma even_kappa : kappa c = 1.
Proof.
  pose proof NK_pos as PK. unfold kappa. rewrite (sumn_ext (N_ang c) _ (fun _ => / (2 * INR (N_ang c)))).
  - rewrite sumn_const. replace (2 * (INR (N_ang c) * / (2 * INR (N_ang c)))) with 1 by (field; lra). apply sqrt_1.
  - intros a Ha. rewrite even_width, (proj2 (Hev a Ha)) by auto. field. lra.
Qed.
(** the code's scattering sum against the integral over the directions *)
Lemma even_quadrature (g g1 : R -> R) F1 : (forall z, -1 <= z <= 1 -> is_derive g z (g1 z)) -> (forall z, -1 <= z <= 1 -> Rabs (g1 z) <= F1) ->
  Rabs (1 / 2 * RInt g (-1) 1 - sumn (N_ang c) (fun a => wsa c a * g (mus c a))) <= F1 / INR (N_ang c).
Proof.
  intros Dg Bg. pose proof NK_pos as PK. set (n := INR (N_ang c)) in *.
  assert (F0 : 0 <= F1) by (apply (Rle_trans _ _ _ (Rabs_pos (g1 0))), Bg; lra).
  pose (e := fun k => -1 + 2 * INR k / n).
  assert (Eb : forall k, (k <= N_ang c)%nat -> -1 <= e k <= 1).
  { intros k Hk. unfold e. assert (INR k <= n) by (apply le_INR; auto). pose proof (pos_INR k). assert (0 <= 2 * INR k / n <= 2); [|lra]. split.
    - unfold Rdiv. apply Rmult_le_pos; [lra|apply Rlt_le, Rinv_0_lt_compat; auto].
    - apply Rmult_le_reg_r with n; auto. unfold Rdiv. rewrite Rmult_assoc, Rinv_l by lra. lra. }
  assert (Es : forall k, e (S k) - e k = 2 / n) by (intros; unfold e; rewrite S_INR; field; lra).
  assert (P2 : 0 < 2 / n) by (apply Rdiv_lt_0_compat; lra).
  assert (EX : forall p q, -1 <= p -> p <= q -> q <= 1 -> ex_RInt g p q).
  { intros p q H1 H2 H3. apply (ex_RInt_continuous (V := R_CompleteNormedModule)). intros z Hz. rewrite Rmin_left, Rmax_right in Hz by lra. apply (ex_derive_continuous (V := R_NormedModule)). exists (g1 z). apply Dg. lra. }
  assert (S1 : forall k, (k <= N_ang c)%nat -> is_RInt g (-1) (e k) (sumn k (fun a => RInt g (e a) (e (S a))))).
  { induction k as [|k IH]; intros Hk.
    - cbn [sumn]. replace (e 0%nat) with (-1) by (unfold e; simpl; field; lra). apply (is_RInt_point (V := R_NormedModule)).
    - cbn [sumn]. apply (is_RInt_Chasles (V := R_NormedModule) _ _ (e k)); [apply IH; lia|]. apply (RInt_correct (V := R_CompleteNormedModule)).
      pose proof (Eb k ltac:(lia)). pose proof (Eb (S k) Hk). pose proof (Es k). apply EX; lra. }
  assert (S2 : RInt g (-1) 1 = sumn (N_ang c) (fun a => RInt g (e a) (e (S a)))).
  { apply int_uniq. replace 1 with (e (N_ang c)) by (unfold e; fold n; field; lra). apply S1. lia. }
  assert (C1 : forall a, (a < N_ang c)%nat -> Rabs (RInt g (e a) (e (S a)) - 2 / n * g (mus c a)) <= F1 / n * (2 / n)).
  { intros a Ha. pose proof (Eb a ltac:(lia)) as B1. pose proof (Eb (S a) ltac:(lia)) as B2. pose proof (Es a) as B3.
    assert (Em : mus c a = e a + / n) by (rewrite (proj1 (Hev a Ha)); unfold e; fold n; field; lra).
    assert (In : 0 < / n) by (apply Rinv_0_lt_compat; auto).
    assert (I1 : is_RInt (fun z => g z - g (mus c a)) (e a) (e (S a)) (RInt g (e a) (e (S a)) - 2 / n * g (mus c a))).
    { eapply int_eq; [apply int_minus; [apply (RInt_correct (V := R_CompleteNormedModule)), EX; lra|apply int_const]|]. rewrite B3. ring. }
    apply (Rle_trans _ ((e (S a) - e a) * (F1 / n))); [|rewrite B3; right; ring].
    refine (norm_RInt_le_const (V := R_NormedModule) (fun z => g z - g (mus c a)) (e a) (e (S a)) _ (F1 / n) _ _ I1); [lra|].
    intros z Hz. change (Rabs (g z - g (mus c a)) <= F1 / n).
    eapply Rle_trans; [apply (lip g g1 (-1) 1 F1 Dg Bg z (mus c a)); unfold Rdiv in *; lra|]. unfold Rdiv. apply Rmult_le_compat_l; auto. rewrite Em. apply Rabs_le. unfold Rdiv in B3. lra. }
  rewrite S2, <- sumn_scal, <- sumn_minus.
  rewrite (sumn_ext (N_ang c) _ (fun a => 1 / 2 * (RInt g (e a) (e (S a)) - 2 / n * g (mus c a)))).
  2: { intros a Ha. rewrite (proj2 (Hev a Ha)). fold n. field. lra. }
  eapply Rle_trans; [apply sumn_abs|]. apply Rle_trans with (sumn (N_ang c) (fun _ => F1 / n * / n)).
  - apply sumn_le. intros a Ha. rewrite Rabs_mult, (Rabs_pos_eq (1 / 2)) by lra. specialize (C1 a Ha). unfold Rdiv in *. lra.
  - rewrite sumn_const. fold n. right. field. lra.
Qed.
End Even.

(** Even directions, exact solution with M + 1 derivatives in the radius bounded by Kd and with two derivatives in the
    direction cosine (f, f', f'' bounded by F0, F1, F2), cells no wider than h, radius at most Rr: *)
Theorem C161_error : forall c E Q f t0 t1 V st h Kd sg Rr F0 F1 F2,
  fgeom (rflux c) = Sphere -> (2 <= fN (rflux c))%nat -> (2 <= N_ang c)%nat -> even_directions c -> t0 <= t1 ->
  mesh_c1 (rflux c) E (fun k t => r_Dedges c t k) -> sph_transport c E Q f t0 t1 -> sph_run c E st V t0 t1 -> 0 <= sigma_s c ->
  (forall t s, t0 <= t <= t1 -> (s < fN (rflux c))%nat -> E (S s) t - E s t <= h) -> (forall t, t0 <= t <= t1 -> E (fN (rflux c)) t <= Rr) ->
  (forall t a s x, t0 <= t <= t1 -> (a < N_ang c)%nat -> (s < fN (rflux c))%nat -> E s t <= x <= E (S s) t ->
     (forall k, (k <= S (fM (rflux c)))%nat -> ex_derive_n (fun y => f s y (mus c a) t) k x) /\ Rabs (Derive_n (fun y => f s y (mus c a) t) (S (fM (rflux c))) x) <= Kd) ->
  (forall t s x, t0 <= t <= t1 -> (s < fN (rflux c))%nat -> E s t <= x <= E (S s) t -> exists f1 f2, forall m, -1 <= m <= 1 ->
     is_derive (fun z => f s x z t) m (f1 m) /\ is_derive f1 m (f2 m) /\ Rabs (f s x m t) <= F0 /\ Rabs (f1 m) <= F1 /\ Rabs (f2 m) <= F2) ->
  (forall t a s, t0 <= t <= t1 -> (a < N_ang c)%nat -> (s < fN (rflux c))%nat -> Rabs (mus c a - r_Dedges c t (S s)) <= sg) ->
  let K := INR (N_ang c) in let eta := sph_eta (fM (rflux c)) Kd h in
  sph_dist c E (fun a s x => f s x (mus c a) t1) V t1 <=
  exp (2 * sigma_s c * (t1 - t0)) * (sph_dist c E (fun a s x => rproj_at (fM (rflux c)) E (fun y w => f s y (mus c a) w) s t0 x) V t0
    + 2 * (INR (fN (rflux c)) * Rr ^ 2 * sg * eta ^ 2 + Rr * ((2 * F0 + 4 * F1 + 3 / 2 * F2) / K + K * eta) ^ 2 + sigma_s c ^ 2 * Rr ^ 3 * (F1 / K) ^ 2) * (t1 - t0))
  + 2 * Rr ^ 3 * eta ^ 2.
Proof.
  intros c E Q f t0 t1 V st h Kd sg Rr F0 F1 F2 Hg HN HK Hev Hle HM HX Hrun Hs Hh HR Hr Hm Hsg K eta.
  pose proof (NK_pos c HK) as PK. fold K in PK. assert (Hd := even_dirs c HK Hev). assert (IK : 0 < / K) by (apply Rinv_0_lt_compat; auto).
  assert (X := C160_order c E Q (fun a s x t => f s x (mus c a) t) (fun a s x t => Derive (fun m => (1 - m ^ 2) * f s x m t) (mus c a)) (fun s x t => 1 / 2 * RInt (fun m => f s x m t) (-1) 1)
    t0 t1 V st 1 0 h Kd sg Rr (2 / K) ((2 * F0 + 4 * F1 + 3 / 2 * F2) / K) (F1 / K) Hg HN HK Hd Hle HM HX Hrun Rlt_0_1 (Rle_refl 0) Hs).
  rewrite (even_kappa c HK Hev) in X. cbv zeta in X. fold eta in X.
  replace (0 + 2 * (1 * sigma_s c - 1) + 2 * 1) with (2 * sigma_s c) in X by ring. rewrite (Rmax_left (2 * sigma_s c) 0) in X by lra.
  replace (2 * eta / (2 / K)) with (K * eta) in X by (field; lra). replace (sigma_s c ^ 2 / 1) with (sigma_s c ^ 2) in X by field. rewrite Rinv_1, Rmult_1_l in X.
  rewrite Rmult_plus_distr_l. apply X; clear X; auto.
  - intros t a s Ht Ha Hs'. rewrite (even_offset c HK Hev a Ha). right. ring.
  - intros t a s x Ht Ha Hs' Hx. destruct (Hr t a s x Ht Ha Hs' Hx) as [A1 A2]. destruct (Hm t s x Ht Hs' Hx) as (f1 & f2 & Hf). refine (conj A1 (conj A2 (conj _ _))).
    + destruct (C152_angular_term_first_order (N_ang c) (mus c) (fun m => f s x m t) f1 f2 F2 (F2 + 4 * F1 + 2 * F0) (/ K) a HK) as (d & Dd & Bd); auto.
      * intros b Hb. apply Hd; auto.
      * apply Hd.
      * apply Hd.
      * intros b Hb. rewrite (proj1 (Hev b ltac:(lia))), (proj1 (Hev (S b) Hb)), S_INR. fold K. right. field. lra.
      * rewrite (proj1 (Hev 0%nat ltac:(lia))). fold K. simpl (INR 0). right. field. lra.
      * rewrite (proj1 (Hev (N_ang c - 1)%nat ltac:(lia))), minus_INR by lia. fold K. simpl (INR 1). right. field. lra.
      * intros z Hz. apply Hf. auto.
      * intros z Hz. apply Hf. auto.
      * intros z Hz. apply Hf. auto.
      * intros z Hz. destruct (Hf z Hz) as (_ & _ & B0 & B1 & B2). apply Rabs_le_between in B0, B1, B2. apply Rabs_le. assert (Z1 : 0 <= 1 - z ^ 2 <= 1) by nra.
        assert (- F2 <= (1 - z ^ 2) * f2 z <= F2) by nra. assert (- F1 <= z * f1 z <= F1) by nra. lra.
      * match goal with |- Rabs (?D - _) <= _ => assert (ED : D = d) by exact (is_derive_unique _ _ _ Dd) end. cbv beta in ED |- *. rewrite ED. rewrite Rabs_minus_sym. eapply Rle_trans; [exact Bd|]. right. field. lra.
    + destruct (even_quadrature c HK Hev (fun m => f s x m t) f1 F1) as [B|B].
      * intros z Hz. apply Hf. auto.
      * intros z Hz. apply Hf. auto.
      * left. exact B.
      * right. exact B.
  - apply Rdiv_lt_0_compat; lra.
  - intros a Ha. rewrite (even_width c HK Hev a Ha). fold K. lra.
Qed.
Print Assumptions C161_error.

(** Refining radius and angle together, with runs started from the projections, the distance becomes as small as one
    likes.  N cells of width h in K directions: K h^(M+1) and N h^(2M+2) must go to 0 (for cells of comparable width the
    second follows from the first condition on h). *)
Theorem C161_converges : forall M T sigma Kd sg Rr F0 F1 F2 eps, 0 <= T -> 0 <= sigma -> 0 <= Kd -> 0 <= sg -> 0 <= Rr -> 0 <= F0 -> 0 <= F1 -> 0 <= F2 -> 0 < eps ->
  exists del, 0 < del /\ forall c E Q f t0 V st h,
  fM (rflux c) = M -> sigma_s c = sigma -> fgeom (rflux c) = Sphere -> (2 <= fN (rflux c))%nat -> (2 <= N_ang c)%nat -> even_directions c ->
  mesh_c1 (rflux c) E (fun k t => r_Dedges c t k) -> sph_transport c E Q f t0 (t0 + T) -> sph_run c E st V t0 (t0 + T) ->
  (forall t s, t0 <= t <= t0 + T -> (s < fN (rflux c))%nat -> E (S s) t - E s t <= h) -> (forall t, t0 <= t <= t0 + T -> E (fN (rflux c)) t <= Rr) ->
  (forall t a s x, t0 <= t <= t0 + T -> (a < N_ang c)%nat -> (s < fN (rflux c))%nat -> E s t <= x <= E (S s) t ->
     (forall k, (k <= S M)%nat -> ex_derive_n (fun y => f s y (mus c a) t) k x) /\ Rabs (Derive_n (fun y => f s y (mus c a) t) (S M) x) <= Kd) ->
  (forall t s x, t0 <= t <= t0 + T -> (s < fN (rflux c))%nat -> E s t <= x <= E (S s) t -> exists f1 f2, forall m, -1 <= m <= 1 ->
     is_derive (fun z => f s x z t) m (f1 m) /\ is_derive f1 m (f2 m) /\ Rabs (f s x m t) <= F0 /\ Rabs (f1 m) <= F1 /\ Rabs (f2 m) <= F2) ->
  (forall t a s, t0 <= t <= t0 + T -> (a < N_ang c)%nat -> (s < fN (rflux c))%nat -> Rabs (mus c a - r_Dedges c t (S s)) <= sg) ->
  (forall a s j, (a < N_ang c)%nat -> (s < fN (rflux c))%nat -> (j <= M)%nat -> V a s j t0 = rproj M (fun y => f s y (mus c a) t0) (E s t0) (E (S s) t0) j) ->
  0 <= h -> INR (N_ang c) * h ^ S M <= del -> INR (fN (rflux c)) * (h ^ S M) ^ 2 <= del -> / INR (N_ang c) <= del ->
  sph_dist c E (fun a s x => f s x (mus c a) (t0 + T)) V (t0 + T) <= eps.
Proof.
  intros M T sigma Kd sg Rr F0 F1 F2 eps HT Hsi HKd Hsg0 HRr HF0 HF1 HF2 Heps.
  set (C1 := (1 + 3 * (INR M + 1) ^ 3) * (Kd / INR (fact (S M)))). set (A := 2 * F0 + 4 * F1 + 3 / 2 * F2).
  pose proof (pos_INR M) as PM. assert (Fp : 0 < INR (fact (S M))) by (apply lt_0_INR, lt_O_fact).
  assert (C1p : 0 <= C1). { unfold C1. apply Rmult_le_pos; [assert (0 <= (INR M + 1) ^ 3) by (apply pow_le; lra); lra|]. unfold Rdiv. apply Rmult_le_pos; [auto|apply Rlt_le, Rinv_0_lt_compat; auto]. }
  assert (Ap : 0 <= A) by (unfold A; lra).
  set (Ct := exp (2 * sigma * T) * (2 * (Rr ^ 2 * sg * C1 ^ 2 + Rr * (A + C1) ^ 2 + sigma ^ 2 * Rr ^ 3 * F1 ^ 2) * T) + 2 * Rr ^ 3 * C1 ^ 2).
  assert (R2 : 0 <= Rr ^ 2) by apply pow2_ge_0. assert (R3 : 0 <= Rr ^ 3) by (apply pow_le; auto).
  assert (B0 : 0 <= Rr ^ 2 * sg * C1 ^ 2) by (apply Rmult_le_pos; [apply Rmult_le_pos; auto|apply pow2_ge_0]).
  assert (B1 : 0 <= Rr * (A + C1) ^ 2) by (apply Rmult_le_pos; [auto|apply pow2_ge_0]).
  assert (B2 : 0 <= sigma ^ 2 * Rr ^ 3 * F1 ^ 2) by (apply Rmult_le_pos; [apply Rmult_le_pos; [apply pow2_ge_0|auto]|apply pow2_ge_0]).
  assert (B3 : 0 <= 2 * Rr ^ 3 * C1 ^ 2) by (apply Rmult_le_pos; [lra|apply pow2_ge_0]).
  pose proof (exp_pos (2 * sigma * T)) as EP.
  assert (Ctp : 0 <= Ct). { unfold Ct. apply Rplus_le_le_0_compat; [|auto]. apply Rmult_le_pos; [lra|]. apply Rmult_le_pos; [lra|auto]. }
  exists (Rmin 1 (eps / (Ct + 1))). assert (E1 : 0 < eps / (Ct + 1)) by (apply Rdiv_lt_0_compat; lra). split; [apply Rmin_glb_lt; lra|].
  set (del := Rmin 1 (eps / (Ct + 1))). assert (D1 : del <= 1) by apply Rmin_l. assert (D2 : del <= eps / (Ct + 1)) by apply Rmin_r.
  intros c E Q f t0 V st h EM ES Hg HN HK Hev HM HX Hrun Hh HR Hr Hm Hsg HV Hh0 G1 G2 G3.
  assert (DE : Ct * del <= eps).
  { apply Rle_trans with (Ct * (eps / (Ct + 1))); [apply Rmult_le_compat_l; auto|].
    apply Rmult_le_reg_r with (Ct + 1); [lra|]. replace (Ct * (eps / (Ct + 1)) * (Ct + 1)) with (Ct * eps) by (field; lra). lra. }
  assert (X := C161_error c E Q f t0 (t0 + T) V st h Kd sg Rr F0 F1 F2 Hg HN HK Hev ltac:(lra) HM HX Hrun). rewrite EM, ES in X.
  specialize (X Hsi Hh HR Hr Hm Hsg). cbv zeta in X. replace (t0 + T - t0) with T in X by ring. fold A in X.
  assert (Z0 : sph_dist c E (fun a s x => rproj_at M E (fun y w => f s y (mus c a) w) s t0 x) V t0 = 0).
  { unfold sph_dist. rewrite (sumn_ext (N_ang c) _ (fun _ => 0)); [rewrite sumn_const; ring|]. intros a Ha.
    rewrite (sumn_ext (fN (rflux c)) _ (fun _ => 0)); [rewrite sumn_const; ring|]. intros s Hs.
    apply int_uniq. apply (int_ext (fun _ => 0)); [|eapply int_eq; [apply int_const|ring]]. intros x.
    assert (XX : psi_at c E V a s t0 x = rproj_at M E (fun y w => f s y (mus c a) w) s t0 x).
    { unfold psi_at, rproj_at, field. rewrite EM. apply sumn_ext. intros j Hj. rewrite HV by (auto; lia). reflexivity. }
    rewrite XX. ring. }
  rewrite Z0 in X. eapply Rle_trans; [exact X|]. eapply Rle_trans; [|exact DE]. clear X.
  set (K := INR (N_ang c)) in *. pose proof (NK_pos c HK) as PK. fold K in PK. assert (K2 : 2 <= K) by (unfold K; change 2 with (INR 2); now apply le_INR).
  set (u := h ^ S M) in *. assert (Hu : 0 <= u) by (apply pow_le; auto).
  assert (EE : sph_eta M Kd h = C1 * u) by (unfold sph_eta, C1, u; field; lra). rewrite EE.
  assert (ud : u <= del) by nra.
  assert (T1 : INR (fN (rflux c)) * Rr ^ 2 * sg * (C1 * u) ^ 2 <= Rr ^ 2 * sg * C1 ^ 2 * del).
  { replace (INR (fN (rflux c)) * Rr ^ 2 * sg * (C1 * u) ^ 2) with (Rr ^ 2 * sg * C1 ^ 2 * (INR (fN (rflux c)) * u ^ 2)) by ring. now apply Rmult_le_compat_l. }
  assert (dsq : forall y, 0 <= y -> y <= del -> y ^ 2 <= del) by (intros y Y0 Y1; nra).
  assert (T2 : Rr * (A / K + K * (C1 * u)) ^ 2 <= Rr * (A + C1) ^ 2 * del).
  { rewrite Rmult_assoc. apply Rmult_le_compat_l; [auto|]. assert (W : 0 <= A / K + K * (C1 * u) <= (A + C1) * del).
    { split; [apply Rplus_le_le_0_compat; [unfold Rdiv; apply Rmult_le_pos; [auto|apply Rlt_le, Rinv_0_lt_compat; auto]|apply Rmult_le_pos; [lra|apply Rmult_le_pos; auto]]|].
      rewrite Rmult_plus_distr_r. apply Rplus_le_compat; [unfold Rdiv; apply Rmult_le_compat_l; auto|]. replace (K * (C1 * u)) with (C1 * (K * u)) by ring. now apply Rmult_le_compat_l. }
    apply Rle_trans with (((A + C1) * del) ^ 2); [apply pow_incr; auto|]. rewrite Rpow_mult_distr. apply Rmult_le_compat_l; [apply pow2_ge_0|]. apply dsq; lra. }
  assert (T3 : sigma ^ 2 * Rr ^ 3 * (F1 / K) ^ 2 <= sigma ^ 2 * Rr ^ 3 * F1 ^ 2 * del).
  { rewrite Rmult_assoc with (r3 := del). apply Rmult_le_compat_l; [apply Rmult_le_pos; [apply pow2_ge_0|auto]|]. unfold Rdiv. rewrite Rpow_mult_distr. apply Rmult_le_compat_l; [apply pow2_ge_0|].
    apply dsq; [apply Rlt_le, Rinv_0_lt_compat; auto|auto]. }
  assert (T4 : 2 * Rr ^ 3 * (C1 * u) ^ 2 <= 2 * Rr ^ 3 * C1 ^ 2 * del).
  { rewrite Rmult_assoc with (r3 := del). apply Rmult_le_compat_l; [lra|]. rewrite Rpow_mult_distr. apply Rmult_le_compat_l; [apply pow2_ge_0|]. now apply dsq. }
  unfold Ct. rewrite Rplus_0_l. rewrite Rmult_plus_distr_r. apply Rplus_le_compat; [|exact T4].
  rewrite (Rmult_assoc (exp _)). apply Rmult_le_compat_l; [lra|].
  match goal with |- 2 * ?p * T <= 2 * ?q * T * del => apply Rle_trans with (2 * (q * del) * T); [apply Rmult_le_compat_r; [auto|]; lra|right; ring] end.
Qed.
Print Assumptions C161_converges.

(** A shrinking sphere of two linear cells with two directions.  With A s = 0 the function A e^-t (x mu - t) + B e^-(1-s)t
    solves the transport equation with scattering s: particles in free flight for s = 0, an isotropic field for any s.
    Started at the projections the run stays within the bound. *)
Definition hE (k : nat) (w : R) : R := INR k * (3 - w).
Definition hcfg (ss : R) : rhs_cfg := {|
  rflux := {| fgeom := Sphere; fM := 1; fN := 2; src4 := false; boundary_source := false; uncollided_on := false;
              ft0 := 1; bon_left := false; bon_right := false; strength := 0; fquad := nil |};
  N_ang := 2; mus := mus scfg; wsa := fun _ => 1 / 2; sigma_s := ss; sigma_t := 1;
  r_edges := fun w k => hE k w; r_Dedges := fun _ k => - INR k; tabs := ideal; inv := ginv 2; Src := fun _ _ _ _ => 0 |}.
Definition hf (A B ss : R) (s : nat) (x m t : R) : R := A * (exp (- t) * (x * m - t)) + B * exp (- (1 - ss) * t).
Lemma h_even ss : even_directions (hcfg ss).
Proof. intros a Ha. cbn [N_ang hcfg mus wsa scfg] in *. assert (a = 0 \/ a = 1)%nat as [-> | ->] by lia; cbn [Nat.eqb INR]; split; field. Qed.
Lemma h_mesh ss : mesh_c1 (rflux (hcfg ss)) hE (fun k t => r_Dedges (hcfg ss) t k).
Proof.
  intros k _ t. split; [|apply continuous_const]. unfold hE. cbn [r_Dedges hcfg]. auto_derive; [exact I|ring].
Qed.
Lemma h_data ss : sph_data (hcfg ss) hE 0 1.
Proof.
  split; [|split].
  - intros t Ht. assert (LT : forall s, hE s t < hE (S s) t) by (intro s; unfold hE; rewrite S_INR; lra).
    assert (NN : forall s, 0 <= hE s t) by (intro s; unfold hE; pose proof (pos_INR s); apply Rmult_le_pos; lra).
    refine (conj _ (conj _ _)).
    + refine (conj (fun _ => eq_refl) (conj (fun k _ => LT k) (conj _ _))).
      * unfold hE. simpl. ring.
      * intros k Hk. apply (h_mesh ss k Hk).
    + intros s Hs. cbn zeta. assert (M1 : mass_exact ideal (1 + 1) (hE s t) (hE (S s) t)) by (apply ideal_mass; apply LT).
      refine (conj M1 (conj _ (conj _ _))); [apply ideal_J; apply LT|apply ideal_L; apply LT|].
      intros x i Hi. apply ginv_right; [|exact Hi]. apply (mass_pdef ideal 1); auto.
    + intros [X|[X _]]; discriminate.
  - intros k _ t _. apply continuous_const.
  - intros s i _ _ t _. apply continuous_const.
Qed.
Lemma h_checks ss : forallb (refl_ok (hcfg ss)) (seq 0 2) = true.
Proof.
  apply (refl_all_ok (hcfg ss)); cbn [N_ang mus hcfg scfg].
  - intros a Ha. assert (a = 0)%nat as -> by lia. cbn [Nat.eqb]. lra.
  - intros a Ha. assert (a = 0 \/ a = 1)%nat as [-> | ->] by lia; cbn [Nat.eqb Nat.sub]; lra.
Qed.
Lemma h_ang A B ss s x t m : is_derive (fun z => (1 - z ^ 2) * hf A B ss s x z t) m (- (2 * m) * hf A B ss s x m t + (1 - m ^ 2) * (A * (exp (- t) * x))).
Proof. unfold hf. auto_derive; [exact I|ring]. Qed.
Lemma h_mean A B ss s x t : 1 / 2 * RInt (fun m => hf A B ss s x m t) (-1) 1 = A * (exp (- t) * (- t)) + B * exp (- (1 - ss) * t).
Proof.
  assert (I : is_RInt (fun m => hf A B ss s x m t) (-1) 1 (2 * (A * (exp (- t) * (- t)) + B * exp (- (1 - ss) * t)))).
  { pose (F := fun m : R => A * (exp (- t) * (x * m ^ 2 / 2 - t * m)) + B * exp (- (1 - ss) * t) * m).
    eapply int_eq; [apply (is_RInt_derive F); intros z _|].
    - unfold F, hf. auto_derive; [exact I|field].
    - apply (cont_of_derive _ (fun _ => A * (exp (- t) * x))). intros w. unfold hf. auto_derive; [exact I|ring].
    - unfold F, minus, plus, opp; simpl. field. }
  rewrite (is_RInt_unique _ _ _ _ I). match goal with |- @eq _ ?p ?q => change (@eq R p q) end. field.
Qed.
Lemma h_c1 A B ss a s : c1 (fun x t => hf A B ss s x a t) (fun x t => A * (exp (- t) * a)) (fun x t => A * (- exp (- t) * (x * a - t) - exp (- t)) - (1 - ss) * (B * exp (- (1 - ss) * t))).
Proof.
  intros x t.
  assert (EX : forall r, continuous (fun p : R * R => exp (- r * snd p)) (x, t)).
  { intros r. apply (continuous_comp (fun p : R * R => - r * snd p) exp); [|apply (cont_of_derive exp exp); intro; auto_derive; auto; ring].
    apply (continuous_scal_r (- r) (fun p : R * R => snd p)). apply continuous_snd. }
  assert (E1 : continuous (fun p : R * R => exp (- snd p)) (x, t)).
  { apply (continuous_ext (fun p : R * R => exp (- 1 * snd p))); [intros p; f_equal; ring|apply EX]. }
  refine (conj _ (conj _ (conj _ _))).
  - unfold hf. auto_derive; [exact I|ring].
  - unfold hf. auto_derive; [exact I|ring].
  - apply c2_cont. apply (continuous_scal_r A (fun p : R * R => exp (- snd p) * a)). apply (continuous_mult (fun p : R * R => exp (- snd p)) (fun _ => a)); [exact E1|apply continuous_const].
  - apply c2_cont. apply (continuous_minus (fun p : R * R => A * (- exp (- snd p) * (fst p * a - snd p) - exp (- snd p))) (fun p : R * R => (1 - ss) * (B * exp (- (1 - ss) * snd p)))).
    + apply (continuous_scal_r A (fun p : R * R => - exp (- snd p) * (fst p * a - snd p) - exp (- snd p))).
      apply (continuous_minus (fun p : R * R => - exp (- snd p) * (fst p * a - snd p)) (fun p : R * R => exp (- snd p))); [|exact E1].
      apply (continuous_mult (fun p : R * R => - exp (- snd p)) (fun p : R * R => fst p * a - snd p)).
      * apply (continuous_opp (fun p : R * R => exp (- snd p))). exact E1.
      * apply (continuous_minus (fun p : R * R => fst p * a) (fun p : R * R => snd p)); [|apply continuous_snd].
        apply (continuous_mult (fun p : R * R => fst p) (fun _ => a)); [apply continuous_fst|apply continuous_const].
    + apply (continuous_scal_r (1 - ss) (fun p : R * R => B * exp (- (1 - ss) * snd p))). apply (continuous_scal_r B (fun p : R * R => exp (- (1 - ss) * snd p))). apply EX.
Qed.
Lemma h_transport A B ss : A * ss = 0 -> sph_transport (hcfg ss) hE (fun _ _ _ => 0) (hf A B ss) 0 1.
Proof.
  intros HA. split.
  - intros a s Ha Hs. exists (fun x t => A * (exp (- t) * mus (hcfg ss) a)), (fun x t => A * (- exp (- t) * (x * mus (hcfg ss) a - t) - exp (- t)) - (1 - ss) * (B * exp (- (1 - ss) * t))).
    split; [apply h_c1|]. intros t x Ht Hx. rewrite h_mean. change (sigma_s (hcfg ss)) with ss. set (m := mus (hcfg ss) a).
    assert (EA : Derive (fun z => (1 - z ^ 2) * hf A B ss s x z t) m = - (2 * m) * hf A B ss s x m t + (1 - m ^ 2) * (A * (exp (- t) * x))) by exact (is_derive_unique _ _ _ (h_ang A B ss s x t m)).
    rewrite EA. unfold hf.
    match goal with |- @eq _ ?p ?q => change (@eq R p q) end.
    assert (X : ss * (A * (exp (- t) * - t)) = 0) by (replace (ss * (A * (exp (- t) * - t))) with (A * ss * (exp (- t) * - t)) by ring; rewrite HA; ring).
    rewrite (Rmult_plus_distr_l ss), X. ring.
  - intros a s t x _ _ _. refine (conj _ (conj _ _)); [| |apply continuous_const].
    + set (m := mus (hcfg ss) a). apply (continuous_ext (fun y => - (2 * m) * hf A B ss s y m t + (1 - m ^ 2) * (A * (exp (- t) * y)))).
      * intros y. symmetry. apply is_derive_unique. apply h_ang.
      * apply (cont_of_derive _ (fun _ => - (2 * m) * (A * (exp (- t) * m)) + (1 - m ^ 2) * (A * exp (- t)))). intros w. unfold hf. auto_derive; [exact I|ring].
    + apply (continuous_ext (fun _ => A * (exp (- t) * (- t)) + B * exp (- (1 - ss) * t))); [intros y; symmetry; apply h_mean|apply continuous_const].
  - intros s t i _ _ _. cbn [Src hcfg]. symmetry. apply int_uniq. apply (int_ext (fun _ => 0)); [intros x; ring|]. eapply int_eq; [apply int_const|ring].
  - intros a s t _ _ _. unfold hf. ring.
  - intros a t v Ha Ht Hn. exfalso. cbn [mus hcfg scfg r_Dedges fN rflux INR] in Hn. destruct (a =? 0)%nat; lra.
Qed.
Lemma h_run A B ss st : exists V, sph_run (hcfg ss) hE st V 0 1 /\
  forall a s i, V a s i 0 = rproj 1 (fun y => hf A B ss s y (mus (hcfg ss) a) 0) (hE s 0) (hE (S s) 0) i.
Proof. exact (C136_exists (hcfg ss) hE st (fun a s i => rproj 1 (fun y => hf A B ss s y (mus (hcfg ss) a) 0) (hE s 0) (hE (S s) 0) i) 0 1 eq_refl (le_n 2) ltac:(cbn; lia) ltac:(lra) (h_checks ss) (h_data ss)). Qed.
Lemma h_exp t : 0 <= t -> 0 < exp (- t) <= 1.
Proof. intros Ht. split; [apply exp_pos|]. rewrite <- exp_0. destruct Ht as [Ht| <-]; [left; apply exp_increasing; lra|right; f_equal; ring]. Qed.
Lemma h_range s x t : 0 <= t <= 1 -> (s < 2)%nat -> hE s t <= x <= hE (S s) t -> 0 <= x <= 6.
Proof. intros Ht Hs. unfold hE. assert (s = 0 \/ s = 1)%nat as [-> | ->] by lia; simpl; lra. Qed.
Lemma h_bound A B ss s x m t : 0 <= ss <= 1 -> 0 <= t <= 1 -> 0 <= x <= 6 -> -1 <= m <= 1 -> Rabs (hf A B ss s x m t) <= 7 * Rabs A + Rabs B /\ Rabs (A * (exp (- t) * x)) <= 6 * Rabs A.
Proof.
  intros Hss Ht Hx Hm. destruct (h_exp t ltac:(lra)) as [E0 E1]. assert (E2 := h_exp ((1 - ss) * t) ltac:(nra)). replace (- ((1 - ss) * t)) with (- (1 - ss) * t) in E2 by ring.
  pose proof (Rabs_pos A) as PA. pose proof (Rabs_pos B) as PB. split.
  - unfold hf. eapply Rle_trans; [apply Rabs_triang|]. rewrite !Rabs_mult. rewrite (Rabs_pos_eq (exp (- t))) by lra. rewrite (Rabs_pos_eq (exp (- (1 - ss) * t))) by lra.
    assert (Rabs (x * m - t) <= 7) by (apply Rabs_le; nra). pose proof (Rabs_pos (x * m - t)).
    assert (exp (- t) * Rabs (x * m - t) <= 7) by nra. assert (Rabs A * (exp (- t) * Rabs (x * m - t)) <= Rabs A * 7) by (apply Rmult_le_compat_l; auto).
    assert (Rabs B * exp (- (1 - ss) * t) <= Rabs B * 1) by (apply Rmult_le_compat_l; lra). lra.
  - rewrite !Rabs_mult. rewrite (Rabs_pos_eq (exp (- t))), (Rabs_pos_eq x) by lra. assert (exp (- t) * x <= 6) by nra.
    assert (Rabs A * (exp (- t) * x) <= Rabs A * 6) by (apply Rmult_le_compat_l; auto). lra.
Qed.
Lemma h_start A B ss V : (forall a s i, V a s i 0 = rproj 1 (fun y => hf A B ss s y (mus (hcfg ss) a) 0) (hE s 0) (hE (S s) 0) i) ->
  sph_dist (hcfg ss) hE (fun a s x => rproj_at 1 hE (fun y w => hf A B ss s y (mus (hcfg ss) a) w) s 0 x) V 0 = 0.
Proof.
  intros HV. unfold sph_dist. rewrite (sumn_ext (N_ang (hcfg ss)) _ (fun _ => 0)); [rewrite sumn_const; ring|]. intros a Ha.
  rewrite (sumn_ext (fN (rflux (hcfg ss))) _ (fun _ => 0)); [rewrite sumn_const; ring|]. intros s Hs.
  apply int_uniq. apply (int_ext (fun _ => 0)); [|eapply int_eq; [apply int_const|ring]]. intros x.
  assert (XX : psi_at (hcfg ss) hE V a s 0 x = rproj_at 1 hE (fun y w => hf A B ss s y (mus (hcfg ss) a) w) s 0 x).
  { unfold psi_at, rproj_at, field. cbn [fM rflux hcfg]. apply sumn_ext. intros j Hj. rewrite HV. reflexivity. }
  rewrite XX. ring.
Qed.
Lemma h_smooth A B ss s m t x : (forall k, (k <= 2)%nat -> ex_derive_n (fun y => hf A B ss s y m t) k x) /\ Rabs (Derive_n (fun y => hf A B ss s y m t) 2 x) <= 0.
Proof.
  assert (D1 : forall y, Derive (fun y => hf A B ss s y m t) y = A * (exp (- t) * m)) by (intro y; apply is_derive_unique; unfold hf; auto_derive; [exact I|ring]).
  assert (D2 : is_derive (Derive_n (fun y => hf A B ss s y m t) 1) x 0).
  { apply (is_derive_ext (fun _ => A * (exp (- t) * m))); [intros y; symmetry; apply D1|auto_derive; auto]. }
  split.
  - intros k Hk. assert (k = 0 \/ k = 1 \/ k = 2)%nat as [-> | [-> | ->]] by lia; [exact I|cbn; exists (A * (exp (- t) * m)); unfold hf; auto_derive; [exact I|ring]|cbn; exists 0; exact D2].
  - change (Derive_n (fun y => hf A B ss s y m t) 2 x) with (Derive (Derive_n (fun y => hf A B ss s y m t) 1) x). rewrite (is_derive_unique _ _ _ D2). rewrite Rabs_R0. lra.
Qed.
Example C161_example : forall A B ss st, A * ss = 0 -> 0 <= ss <= 1 -> exists V, sph_run (hcfg ss) hE st V 0 1 /\
  sph_transport (hcfg ss) hE (fun _ _ _ => 0) (hf A B ss) 0 1 /\
  sph_dist (hcfg ss) hE (fun a s x => hf A B ss s x (mus (hcfg ss) a) 1) V 1 <=
  exp (2 * ss) * (2 * (6 * (19 * Rabs A + Rabs B) ^ 2 + ss ^ 2 * 216 * (3 * Rabs A) ^ 2)).
Proof.
  intros A B ss st HA Hss. destruct (h_run A B ss st) as (V & HV & V0). exists V. refine (conj HV (conj (h_transport A B ss HA) _)).
  assert (X := C161_error (hcfg ss) hE (fun _ _ _ => 0) (hf A B ss) 0 1 V st 3 0 3 6 (7 * Rabs A + Rabs B) (6 * Rabs A) 0 eq_refl (le_n 2) (le_n 2) (h_even ss) ltac:(lra) (h_mesh ss) (h_transport A B ss HA) HV).
  assert (E0 : sph_eta 1 0 3 = 0) by (unfold sph_eta, Rdiv; ring).
  cbv zeta in X. cbn [fM rflux hcfg sigma_s fN N_ang] in X. change (hcfg ss) with (hcfg ss) in X. rewrite E0 in X.
  assert (S0 := h_start A B ss V V0). unfold hcfg in S0 at 1. fold (hcfg ss) in S0.
  eapply Rle_trans; [apply X; clear X|].
  - lra.
  - intros t s Ht Hs. unfold hE. rewrite S_INR. lra.
  - intros t Ht. unfold hE. simpl. lra.
  - intros t a s x Ht Ha Hs Hx. apply h_smooth.
  - intros t s x Ht Hs Hx. pose proof (h_range s x t Ht Hs Hx) as Rx. exists (fun _ => A * (exp (- t) * x)), (fun _ => 0). intros m Hm.
    destruct (h_bound A B ss s x m t Hss Ht Rx Hm) as [B0 B1]. refine (conj _ (conj _ (conj B0 (conj B1 _)))).
    + unfold hf. auto_derive; [exact I|ring].
    + auto_derive; auto.
    + rewrite Rabs_R0. lra.
  - intros t a s Ht Ha Hs. cbn [mus hcfg scfg r_Dedges]. assert (s = 0 \/ s = 1)%nat as [-> | ->] by (cbn in Hs; lia); destruct (a =? 0)%nat; simpl; apply Rabs_le; lra.
  - clear X. rewrite S0. right. simpl (INR 2). replace (2 * ss * (1 - 0)) with (2 * ss) by ring. field.
Qed.

(** the same run for C159 and C160: what the projections leave is bounded at all times *)
Example C160_example : forall A B ss st, A * ss = 0 -> 0 <= ss <= 1 -> exists V, sph_run (hcfg ss) hE st V 0 1 /\
  sph_exact (hcfg ss) hE (fun _ _ _ => 0) (fun a s x t => hf A B ss s x (mus (hcfg ss) a) t) (fun a s x t => Derive (fun m => (1 - m ^ 2) * hf A B ss s x m t) (mus (hcfg ss) a)) (fun s x t => 1 / 2 * RInt (fun m => hf A B ss s x m t) (-1) 1) 0 1 /\
  (forall a, (a < 2)%nat -> offset (hcfg ss) a = 0) /\ kappa (hcfg ss) = 1 /\
  (forall t a s x, 0 <= t <= 1 -> (a < 2)%nat -> (s < 2)%nat -> hE s t <= x <= hE (S s) t -> rproj_at 1 hE (fun y w => hf A B ss s y (mus (hcfg ss) a) w) s t x = hf A B ss s x (mus (hcfg ss) a) t).
Proof.
  intros A B ss st HA Hss. destruct (h_run A B ss st) as (V & HV & V0). exists V.
  refine (conj HV (conj (h_transport A B ss HA) (conj (fun a Ha => even_offset (hcfg ss) (le_n 2) (h_even ss) a Ha) (conj (even_kappa (hcfg ss) (le_n 2) (h_even ss)) _)))).
  intros t a s x Ht Ha Hs Hx. unfold rproj_at. set (m := mus (hcfg ss) a).
  assert (Q := C160_projection_order 1 (fun y => hf A B ss s y m t) (hE s t) (hE (S s) t) 0 3).
  assert (E0 : sph_eta 1 0 3 = 0) by (unfold sph_eta, Rdiv; ring). rewrite E0 in Q.
  assert (Z : Rabs (field Sphere 1 (rproj 1 (fun y => hf A B ss s y m t) (hE s t) (hE (S s) t)) (hE s t) (hE (S s) t) x - hf A B ss s x m t) <= 0).
  { apply Q; auto.
    - unfold hE. rewrite S_INR. lra.
    - unfold hE. pose proof (pos_INR s). apply Rmult_le_pos; lra.
    - unfold hE. rewrite S_INR. lra.
    - intros y. apply (cont_of_derive _ (fun _ => A * (exp (- t) * m))). intros w. unfold hf. auto_derive; [exact I|ring].
    - intros y k _ Hk. now apply h_smooth.
    - intros y _. apply h_smooth. }
  apply Rabs_le_between in Z. lra.
Qed.
