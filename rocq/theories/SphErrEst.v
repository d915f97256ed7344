(** The error of spherical runs: Gronwall, Pythagoras, size of the defects. *)
From Coq Require Import FunctionalExtensionality.
From Coquelicot Require Import Coquelicot.
From Verif Require Import Py PyLemmas Calc Legendre Cheb DGModel DGSpec DGProofs DGInt DGBalance DGFinal FuncLobatto MatModel RhsModel RhsProofs
  SphereProofs SphereBal SphereWeak SphereThms PosDef SphMass SphUnif SphEnergy SphSpec SphStab SphStabThms StabSpec StabProofs ErrSpec ErrLeib ErrProofs ErrEnergy ErrApprox AngleThms
  SphErrSpec SphErrProj SphErrEn SphErrCons SphErrInv SphErrRate.
Open Scope R_scope.

(** ** Gronwall for growth of any sign *)
Lemma gronwall (F : R -> R) (k g t0 t1 : R) : t0 <= t1 -> 0 <= g ->
  (forall t, t0 <= t <= t1 -> exists d : R, is_derive F t d /\ d <= k * F t + g) ->
  F t1 <= exp (k * (t1 - t0)) * F t0 + exp (Rmax k 0 * (t1 - t0)) * (g * (t1 - t0)).
Proof.
  intros Hle Hg H. destruct (Rle_lt_dec k 0) as [L|L].
  - rewrite Rmax_right by auto. rewrite Rmult_0_l, exp_0, Rmult_1_l.
    pose proof (forced F (- k) g t0 t1 Hle ltac:(lra) Hg) as X. rewrite Ropp_involutive in X. apply X. exact H.
  - rewrite Rmax_left by lra. rewrite <- Rmult_plus_distr_l.
    assert (X := decay (fun t => exp (- k * (t - t0)) * F t - g * (t - t0)) 0 t0 t1 Hle). cbv beta in X.
    replace (- 0 * (t1 - t0)) with 0 in X by ring. rewrite exp_0, Rmult_1_l in X.
    replace (- k * (t0 - t0)) with 0 in X by ring. rewrite exp_0 in X.
    assert (Y : exp (- k * (t1 - t0)) * F t1 - g * (t1 - t0) <= 1 * F t0 - g * (t0 - t0)).
    { apply X. intros t Ht. destruct (H t Ht) as (d & Hd & Hn). eexists. split.
      - apply dd_minus; [|apply dd_scal; apply dd_minus; [apply dd_id|apply dd_const]].
        apply (dd_mult (fun t => exp (- k * (t - t0))) F); [|exact Hd].
        apply (dd_comp exp (fun t => - k * (t - t0))); [apply is_derive_exp|]. apply dd_scal. apply dd_minus; [apply dd_id|apply dd_const].
      - cbv beta. assert (E0 : 0 < exp (- k * (t - t0))) by apply exp_pos.
        assert (E1 : exp (- k * (t - t0)) <= 1). { rewrite <- exp_0. destruct (Req_dec t t0) as [->|N]; [right; f_equal; ring|left; apply exp_increasing; nra]. }
        set (e := exp (- k * (t - t0))) in *. assert (0 <= e * (k * F t + g - d)) by (apply Rmult_le_pos; lra). nra. }
    set (e := exp (k * (t1 - t0))). assert (e * exp (- k * (t1 - t0)) = 1) by (unfold e; rewrite <- exp_plus; replace (k * (t1 - t0) + - k * (t1 - t0)) with 0 by ring; apply exp_0).
    assert (E0 : 0 < e) by apply exp_pos. assert (Z : e * (exp (- k * (t1 - t0)) * F t1) <= e * (F t0 + g * (t1 - t0))) by (apply Rmult_le_compat_l; lra). rewrite <- Rmult_assoc, H0 in Z. lra.
Qed.

(** ** Projections *)
Lemma dotv_plus n A u v i : dotv n A (fun j => u j + v j) i = dotv n A u i + dotv n A v i.
Proof. unfold dotv. rewrite <- sumn_plus. apply sumn_ext. intros; ring. Qed.
Lemma rproj_plus M f g a b : a < b -> (forall x, continuous f x) -> (forall x, continuous g x) ->
  forall i, (i <= M)%nat -> rproj M (fun x => f x + g x) a b i = rproj M f a b i + rproj M g a b i.
Proof.
  intros H Cf Cg i Hi. symmetry. apply (pdef_unique (M + 1) (rgram a b) (fun i => rproj M f a b i + rproj M g a b i) _ (gram_pdef M a b H)); [|lia]. intros k Hk.
  rewrite dotv_plus, !rproj_solves by auto. unfold rmom. symmetry. apply int_uniq.
  apply (int_ext (fun x => x ^ 2 * f x * basis Sphere k x a b + x ^ 2 * g x * basis Sphere k x a b)); [intros; ring|].
  apply int_plus; now apply rmom_is.
Qed.
(** distance to any polynomial: the projection is the nearest *)
Lemma rproj_pyth M f a b u : a < b -> (forall x, continuous f x) ->
  RInt (fun x => x ^ 2 * (field Sphere M u a b x - f x) ^ 2) a b =
  RInt (fun x => x ^ 2 * (field Sphere M u a b x - field Sphere M (rproj M f a b) a b x) ^ 2) a b + RInt (fun x => x ^ 2 * (field Sphere M (rproj M f a b) a b x - f x) ^ 2) a b.
Proof.
  intros H C. set (p := field Sphere M (rproj M f a b) a b). assert (Cp : forall x, continuous p x) by (intros; now apply sph_field_cont).
  assert (Cu : forall x, continuous (field Sphere M u a b) x) by (intros; now apply sph_field_cont).
  pose proof (rproj_orth M f a b u H C) as O1. pose proof (rproj_orth M f a b (rproj M f a b) H C) as O2. fold p in O1, O2.
  apply int_uniq. eapply int_eq.
  - apply (int_ext (fun x => (x ^ 2 * (field Sphere M u a b x - p x) ^ 2 + x ^ 2 * (p x - f x) ^ 2) + (2 * (x ^ 2 * field Sphere M u a b x * (p x - f x)) - 2 * (x ^ 2 * p x * (p x - f x))))); [intros; ring|].
    apply int_plus; [apply int_plus; apply int_val; intros; (apply cmult; [apply cpow, cid|apply cpow, cminus]); auto|apply int_minus; apply int_scal; eassumption].
  - ring.
Qed.
Section Sup.
Variables (M : nat) (a b : R) (f : R -> R).
Hypothesis Hab : a < b.
Hypothesis H0 : 0 <= a.
Hypothesis C : forall x, continuous f x.
Let p := field Sphere M (rproj M f a b) a b.
Lemma rproj_contract : RInt (fun x => x ^ 2 * p x ^ 2) a b <= RInt (fun x => x ^ 2 * f x ^ 2) a b.
Proof.
  pose proof (rproj_pyth M f a b (fun _ => 0) Hab C) as X. fold p in X.
  assert (Z : forall x, field Sphere M (fun _ => 0) a b x = 0) by (intros x; unfold field; rewrite (sumn_ext _ _ (fun _ => 0)) by (intros; ring); rewrite sumn_const; ring).
  assert (X1 : RInt (fun x => x ^ 2 * (field Sphere M (fun _ => 0) a b x - f x) ^ 2) a b = RInt (fun x => x ^ 2 * f x ^ 2) a b) by (apply RInt_ext; intros x _; match goal with |- @eq _ ?p ?q => change (@eq R p q) end; rewrite Z; ring).
  assert (X2 : RInt (fun x => x ^ 2 * (field Sphere M (fun _ => 0) a b x - p x) ^ 2) a b = RInt (fun x => x ^ 2 * p x ^ 2) a b) by (apply RInt_ext; intros x _; match goal with |- @eq _ ?p ?q => change (@eq R p q) end; rewrite Z; ring).
  assert (X3 : 0 <= RInt (fun x => x ^ 2 * (p x - f x) ^ 2) a b).
  { apply RInt_ge_0; [lra|apply ex_int; intros; apply cmult; [apply cpow, cid|apply cpow, cminus; [now apply sph_field_cont|auto]]|]. intros. apply Rmult_le_pos; apply pow2_ge_0. }
  rewrite X1, X2 in X. lra.
Qed.
Lemma rproj_sup B : 0 <= B -> (forall x, a <= x <= b -> Rabs (f x) <= B) -> forall x, a <= x <= b -> Rabs (p x) <= 3 * (INR M + 1) ^ 3 * B.
Proof.
  intros HB Hf x Hx. pose proof (pos_INR M) as PM.
  pose proof (poly_sup_w M a b p Hab (sphere_field_deg M _ a b Hab) H0 x Hx) as X. pose proof rproj_contract as Y.
  assert (Y2 : RInt (fun x => x ^ 2 * f x ^ 2) a b <= b ^ 2 * B ^ 2 * (b - a)).
  { replace (b ^ 2 * B ^ 2 * (b - a)) with (RInt (fun _ => b ^ 2 * B ^ 2) a b) by (apply int_uniq; eapply int_eq; [apply int_const|ring]).
    apply RInt_le; [lra|apply ex_int; intros; apply cmult; [apply cpow, cid|apply cpow; auto]|apply ex_int; intros; apply cconst|]. intros y Hy.
    apply Rmult_le_compat; try apply pow2_ge_0; [apply pow_incr; lra|]. rewrite <- (pow2_abs (f y)). apply pow_incr. split; [apply Rabs_pos|apply Hf; lra]. }
  set (d := (b - a) / (2 * (INR M + 1) ^ 2)) in *. assert (Hm : 0 < (INR M + 1) ^ 2) by (apply pow_lt; lra).
  assert (Hd : 0 < d) by (apply Rdiv_lt_0_compat; lra).
  assert (Hbd : b <= 2 * (INR M + 1) ^ 2 * (a + d)).
  { replace (2 * (INR M + 1) ^ 2 * (a + d)) with (2 * (INR M + 1) ^ 2 * a + (b - a)) by (unfold d; field; lra). assert (1 <= (INR M + 1) ^ 2) by nra. nra. }
  assert (Z : p x ^ 2 <= 8 * (INR M + 1) ^ 6 * B ^ 2).
  { eapply Rle_trans; [exact X|]. apply Rle_trans with (2 * (INR M + 1) ^ 2 / ((b - a) * (a + d) ^ 2) * (b ^ 2 * B ^ 2 * (b - a))).
    - apply Rmult_le_compat_l; [|lra]. apply Rlt_le, Rdiv_lt_0_compat; [lra|]. apply Rmult_lt_0_compat; [lra|apply pow_lt; lra].
    - apply Rle_trans with (2 * (INR M + 1) ^ 2 / ((b - a) * (a + d) ^ 2) * ((2 * (INR M + 1) ^ 2 * (a + d)) ^ 2 * B ^ 2 * (b - a))).
      + apply Rmult_le_compat_l; [apply Rlt_le, Rdiv_lt_0_compat; [lra|]; apply Rmult_lt_0_compat; [lra|apply pow_lt; lra]|].
        apply Rmult_le_compat_r; [lra|]. apply Rmult_le_compat_r; [apply pow2_ge_0|]. apply pow_incr. lra.
      + apply Req_le. field. split; lra. }
  apply Rsqr_incr_0_var; [|apply Rmult_le_pos; [apply Rmult_le_pos; [lra|apply pow_le; lra]|auto]].
  rewrite <- Rsqr_abs. unfold Rsqr. replace (p x * p x) with (p x ^ 2) by ring. eapply Rle_trans; [exact Z|].
  replace (3 * (INR M + 1) ^ 3 * B * (3 * (INR M + 1) ^ 3 * B)) with (9 * (INR M + 1) ^ 6 * B ^ 2) by ring.
  apply Rmult_le_compat_r; [apply pow2_ge_0|]. assert (0 <= (INR M + 1) ^ 6) by (apply pow_le; lra). lra.
Qed.
End Sup.
Lemma rproj_near M a b f q dl : a < b -> 0 <= a -> (forall x, continuous f x) -> deg_le M q -> (forall x, a <= x <= b -> Rabs (f x - q x) <= dl) ->
  forall x, a <= x <= b -> Rabs (field Sphere M (rproj M f a b) a b x - f x) <= (1 + 3 * (INR M + 1) ^ 3) * dl.
Proof.
  intros Hab H0 C Hq Hn x Hx. destruct (cspan_field_x M q a b Hab Hq) as (u & Hu).
  assert (Cq : forall x, continuous q x) by (intros y; apply (continuous_ext (field Sphere M u a b)); [intros; now rewrite Hu|now apply sph_field_cont]).
  assert (Cg : forall x, continuous (fun x => f x - q x) x) by (intros; apply cminus; auto).
  assert (E : field Sphere M (rproj M f a b) a b x = q x + field Sphere M (rproj M (fun x => f x - q x) a b) a b x).
  { rewrite Hu. unfold field. rewrite <- sumn_plus. apply sumn_ext. intros i Hi.
    assert (X : rproj M f a b i = u i + rproj M (fun x => f x - q x) a b i).
    { rewrite <- (rproj_field M u a b Hab i) by lia. rewrite <- rproj_plus; [|auto|intros; now apply sph_field_cont|auto|lia].
      f_equal. apply functional_extensionality. intros y. rewrite <- Hu. match goal with |- @eq _ ?p ?q => change (@eq R p q) end. cbv beta. lra. }
    rewrite X. ring. }
  rewrite E. replace (q x + field Sphere M (rproj M (fun x => f x - q x) a b) a b x - f x) with (field Sphere M (rproj M (fun x => f x - q x) a b) a b x - (f x - q x)) by ring.
  assert (D0 : 0 <= dl) by (apply (Rle_trans _ _ _ (Rabs_pos _) (Hn x Hx))).
  pose proof (rproj_sup M a b (fun x => f x - q x) Hab H0 Cg dl D0 Hn x Hx) as X. pose proof (Hn x Hx) as Y.
  unfold Rminus at 1. eapply Rle_trans; [apply Rabs_triang|]. rewrite Rabs_Ropp. lra.
Qed.

(** ** The estimate *)
Section Est.
Variables (c : rhs_cfg) (E : nat -> R -> R) (Q : nat -> R -> R -> R) (psi ang : nat -> nat -> R -> R -> R) (em : nat -> R -> R -> R) (t0 t1 : R).
Variables (V : nat -> nat -> nat -> R -> R) (st : R -> nat -> nat -> flux_state).
Let fc := rflux c.
Let M := fM fc.
Let N := fN fc.
Let K := N_ang c.
Hypothesis HM : mesh_c1 fc E (fun k t => r_Dedges c t k).
Hypothesis HX : sph_exact c E Q psi ang em t0 t1.
Hypothesis Hg : fgeom fc = Sphere.
Hypothesis HN : (2 <= N)%nat.
Hypothesis HK : (2 <= K)%nat.
Hypothesis Hdir : directions K (mus c).

Lemma dist_err t : sph_dist c E (fun a s x => rproj_at M E (psi a s) s t x) V t = sph_energy c E (serr c E psi V) t.
Proof.
  unfold sph_dist, sph_energy. apply sumn_ext. intros a _. f_equal. apply sumn_ext. intros s _. apply RInt_ext. intros x _.
  rewrite (V_split c E psi V t a s x). unfold M, fc. match goal with |- @eq _ ?p ?q => change (@eq R p q) end. ring.
Qed.
Lemma dist_pyth t : t0 <= t <= t1 -> increasing N (fun k => E k t) ->
  sph_dist c E (fun a s x => psi a s x t) V t = sph_dist c E (fun a s x => rproj_at M E (psi a s) s t x) V t +
  sumn K (fun a => awidth K (mus c) a * sumn N (fun s => RInt (fun x => x ^ 2 * (rproj_at M E (psi a s) s t x - psi a s x t) ^ 2) (E s t) (E (S s) t))).
Proof.
  intros Ht He. unfold sph_dist. fold K. rewrite <- sumn_plus. apply sumn_ext. intros a Ha. fold fc N. rewrite <- Rmult_plus_distr_l, <- sumn_plus. f_equal. apply sumn_ext. intros s Hs.
  unfold psi_at, rproj_at. fold fc M. apply (rproj_pyth M (fun y => psi a s y t) (E s t) (E (S s) t)).
  - exact (He s Hs).
  - intros x. exact (psi_c c E Q psi ang em t0 t1 HX t s Hs a x Ha).
Qed.

Lemma estimate lam gam g : t0 <= t1 -> sph_run c E st V t0 t1 -> 0 < lam -> 0 <= gam -> 0 <= sigma_s c ->
  (forall t a s, t0 <= t <= t1 -> (a < K)%nat -> (s < N)%nat -> 8 * (INR M + 1) ^ 2 * offset c a <= gam * (E (S s) t - E s t)) ->
  (forall t, t0 <= t <= t1 -> sph_defects c E psi ang em lam t <= g) ->
  let k := gam + 2 * (kappa c * sigma_s c - 1) + 2 * lam in
  sph_dist c E (fun a s x => rproj_at M E (psi a s) s t1 x) V t1 <=
  exp (k * (t1 - t0)) * sph_dist c E (fun a s x => rproj_at M E (psi a s) s t0 x) V t0 + exp (Rmax k 0 * (t1 - t0)) * (g * (t1 - t0)).
Proof.
  intros Hle Hrun Hl Hga Hsig Hoff Hdef k. rewrite !dist_err.
  assert (G0 : 0 <= g).
  { eapply Rle_trans; [|apply (Hdef t0); lra]. destruct (Hrun t0 ltac:(lra)) as ((HE & He & E0 & _) & _). unfold sph_defects.
    apply sumn_nonneg. intros a Ha. apply Rmult_le_pos; [apply Rlt_le, awidth_pos; auto|]. apply sumn_nonneg. intros s Hs. pose proof (He s Hs) as Hab. cbv beta in Hab.
    apply Rplus_le_le_0_compat; [apply Rplus_le_le_0_compat|].
    - apply Rmult_le_pos; [apply Rmult_le_pos; [apply pow2_ge_0|apply Rabs_pos]|apply pow2_ge_0].
    - apply Rmult_le_pos; [apply Rlt_le, Rinv_0_lt_compat; auto|]. apply RInt_ge_0; [lra|apply ex_int; intros; apply cpow|intros; apply pow2_ge_0].
      apply (adef_c c E Q psi ang em t0 t1 HX t0 ltac:(lra) He a s Ha Hs).
    - apply Rmult_le_pos; [unfold Rdiv; apply Rmult_le_pos; [apply pow2_ge_0|apply Rlt_le, Rinv_0_lt_compat; auto]|].
      apply RInt_ge_0; [lra|apply ex_int; intros; apply cmult; [apply cpow, cid|apply cpow]|intros; apply Rmult_le_pos; apply pow2_ge_0].
      apply (sdef_c c E Q psi ang em t0 t1 HX t0 ltac:(lra) a s Ha Hs). }
  apply gronwall; auto. intros t Ht. destruct (Hrun t Ht) as (H1 & H2 & H3).
  destruct (err_rate c E Q psi ang em t0 t1 V (st t) t HM HX Ht Hg HN HK Hdir H1 H2 H3 lam gam Hl Hga (fun a s Ha Hs => Hoff t a s Ht Ha Hs) Hsig) as (r & Hr & Hb).
  exists r. split; [exact Hr|]. fold k in Hb. pose proof (Hdef t Ht). lra.
Qed.
End Est.

(** ** Size of the defects *)
Lemma aflux_bound N x eta a (p : nat -> R) : (2 <= N)%nat -> directions N x -> (a <= N)%nat -> 0 <= eta -> (forall l, (l < N)%nat -> Rabs (p l) <= eta) -> Rabs (aflux N x p a) <= eta.
Proof.
  intros HN Hd Ha H0 Hp. unfold aflux. destruct (Nat.eqb_spec a 0); [rewrite Rabs_R0; auto|]. destruct (Nat.eqb_spec a N); [rewrite Rabs_R0; auto|].
  pose proof (edge_in N x HN Hd a Ha) as Ei. rewrite Rabs_mult.
  pose proof (Hp (a - 1)%nat ltac:(lia)) as P1. pose proof (Hp a ltac:(lia)) as P2. apply Rabs_le_between in P1, P2.
  replace eta with (1 * eta) by ring. apply Rmult_le_compat; try apply Rabs_pos; apply Rabs_le; [nra|lra].
Qed.
Lemma aterm_bound N x eta a (p : nat -> R) : (2 <= N)%nat -> directions N x -> (a < N)%nat -> (forall l, (l < N)%nat -> Rabs (p l) <= eta) -> Rabs (aterm N x p a) <= 2 * eta / awidth N x a.
Proof.
  intros HN Hd Ha Hp. assert (H0 : 0 <= eta) by (apply (Rle_trans _ _ _ (Rabs_pos _) (Hp a Ha))). rewrite aterm_flux by auto. pose proof (awidth_pos N x a HN Hd Ha) as W.
  unfold Rdiv. rewrite Rabs_mult, (Rabs_pos_eq (/ _)) by (apply Rlt_le, Rinv_0_lt_compat; auto). apply Rmult_le_compat_r; [apply Rlt_le, Rinv_0_lt_compat; auto|].
  pose proof (aflux_bound N x eta (S a) p HN Hd ltac:(lia) H0 Hp). pose proof (aflux_bound N x eta a p HN Hd ltac:(lia) H0 Hp).
  unfold Rminus. eapply Rle_trans; [apply Rabs_triang|]. rewrite Rabs_Ropp. lra.
Qed.
Lemma int_sq_le (f : R -> R) a b B : a <= b -> (forall x, continuous f x) -> (forall x, a <= x <= b -> Rabs (f x) <= B) -> RInt (fun x => f x ^ 2) a b <= B ^ 2 * (b - a).
Proof.
  intros H C Hf. replace (B ^ 2 * (b - a)) with (RInt (fun _ => B ^ 2) a b) by (apply int_uniq; eapply int_eq; [apply int_const|ring]).
  apply RInt_le; [auto|apply ex_int; intros; apply cpow; auto|apply ex_int; intros; apply cconst|]. intros x Hx. rewrite <- (pow2_abs (f x)). apply pow_incr. split; [apply Rabs_pos|apply Hf; lra].
Qed.
Lemma int_wsq_le (f : R -> R) a b B Rr : 0 <= a -> a <= b -> b <= Rr -> (forall x, continuous f x) -> (forall x, a <= x <= b -> Rabs (f x) <= B) -> RInt (fun x => x ^ 2 * f x ^ 2) a b <= Rr ^ 2 * B ^ 2 * (b - a).
Proof.
  intros H0 H HR C Hf. replace (Rr ^ 2 * B ^ 2 * (b - a)) with (RInt (fun _ => Rr ^ 2 * B ^ 2) a b) by (apply int_uniq; eapply int_eq; [apply int_const|ring]).
  apply RInt_le; [auto|apply ex_int; intros; apply cmult; [apply cpow, cid|apply cpow; auto]|apply ex_int; intros; apply cconst|]. intros x Hx.
  apply Rmult_le_compat; try apply pow2_ge_0; [apply pow_incr; lra|]. rewrite <- (pow2_abs (f x)). apply pow_incr. split; [apply Rabs_pos|apply Hf; lra].
Qed.
Section Size.
Variables (c : rhs_cfg) (E : nat -> R -> R) (Q : nat -> R -> R -> R) (psi ang : nat -> nat -> R -> R -> R) (em : nat -> R -> R -> R) (t0 t1 t : R).
Let fc := rflux c.
Let M := fM fc.
Let N := fN fc.
Let K := N_ang c.
Hypothesis HX : sph_exact c E Q psi ang em t0 t1.
Hypothesis Ht : t0 <= t <= t1.
Hypothesis HK : (2 <= K)%nat.
Hypothesis Hdir : directions K (mus c).
Hypothesis He : increasing N (fun k => E k t).
Hypothesis H0 : E 0%nat t = 0.
Variables (eta alpha beta sg Rr wmin : R).
Hypothesis Heta : forall a s x, (a < K)%nat -> (s < N)%nat -> E s t <= x <= E (S s) t -> Rabs (rproj_at M E (psi a s) s t x - psi a s x t) <= eta.
Hypothesis HR : E N t <= Rr.
Lemma edge_range k : (k <= N)%nat -> 0 <= E k t <= Rr.
Proof.
  intros Hk. split.
  - induction k as [|k IH]; [lra|]. pose proof (He k ltac:(lia)). cbv beta in *. specialize (IH ltac:(lia)). lra.
  - assert (X : forall j, (k + j <= N)%nat -> E k t <= E (k + j)%nat t).
    { induction j as [|j IH]; intros Hj; [rewrite Nat.add_0_r; lra|]. rewrite Nat.add_succ_r. pose proof (He (k + j)%nat ltac:(lia)). cbv beta in *. specialize (IH ltac:(lia)). lra. }
    specialize (X (N - k)%nat ltac:(lia)). replace (k + (N - k))%nat with N in X by lia. lra.
Qed.
Lemma widths_tot : sumn N (fun s => E (S s) t - E s t) <= Rr.
Proof. rewrite (sumn_telescope N (fun k => E k t)). cbv beta. lra. Qed.
(** what the projection leaves *)
Lemma rest_size : sumn K (fun a => awidth K (mus c) a * sumn N (fun s => RInt (fun x => x ^ 2 * (rproj_at M E (psi a s) s t x - psi a s x t) ^ 2) (E s t) (E (S s) t))) <= 2 * Rr ^ 3 * eta ^ 2.
Proof.
  apply Rle_trans with (sumn K (fun a => Rr ^ 3 * eta ^ 2 * awidth K (mus c) a)).
  2: { rewrite sumn_scal, widths_sum by auto. right. ring. }
  apply sumn_le. intros a Ha. rewrite (Rmult_comm (Rr ^ 3 * eta ^ 2)). apply Rmult_le_compat_l; [apply Rlt_le, awidth_pos; auto|].
  apply Rle_trans with (sumn N (fun s => Rr ^ 2 * eta ^ 2 * (E (S s) t - E s t))).
  - apply sumn_le. intros s Hs. pose proof (He s Hs) as Hab. cbv beta in Hab. pose proof (edge_range s ltac:(lia)). pose proof (edge_range (S s) ltac:(lia)).
    apply int_wsq_le; [lra|lra|lra| |intros; now apply Heta]. intros x. apply cminus; [|exact (psi_c c E Q psi ang em t0 t1 HX t s Hs a x Ha)].
    unfold rproj_at. now apply sph_field_cont.
  - rewrite sumn_scal. pose proof widths_tot as W. assert (0 <= Rr ^ 2 * eta ^ 2) by (apply Rmult_le_pos; apply pow2_ge_0). nra.
Qed.
Hypothesis Halpha : forall a s x, (a < K)%nat -> (s < N)%nat -> E s t <= x <= E (S s) t -> Rabs (ang a s x t - aterm K (mus c) (fun l => psi l s x t) a) <= alpha.
Hypothesis Hbeta : forall s x, (s < N)%nat -> E s t <= x <= E (S s) t -> Rabs (em s x t - sumn K (fun l => wsa c l * psi l s x t)) <= beta.
Hypothesis Hsg : forall a s, (a < K)%nat -> (s < N)%nat -> Rabs (mus c a - r_Dedges c t (S s)) <= sg.
Hypothesis Hw : 0 < wmin.
Hypothesis Hwm : forall a, (a < K)%nat -> wmin <= awidth K (mus c) a.
Lemma defects_size lam : 0 < lam -> sph_defects c E psi ang em lam t <=
  2 * (INR N * Rr ^ 2 * sg * eta ^ 2 + / lam * Rr * (alpha + 2 * eta / wmin) ^ 2 + sigma_s c ^ 2 / lam * Rr ^ 3 * beta ^ 2).
Proof.
  intros Hl. unfold sph_defects. fold K fc N. set (B := INR N * Rr ^ 2 * sg * eta ^ 2 + / lam * Rr * (alpha + 2 * eta / wmin) ^ 2 + sigma_s c ^ 2 / lam * Rr ^ 3 * beta ^ 2).
  apply Rle_trans with (sumn K (fun a => B * awidth K (mus c) a)).
  2: { rewrite sumn_scal, widths_sum by auto. right. ring. }
  apply sumn_le. intros a Ha. rewrite (Rmult_comm B). pose proof (awidth_pos K (mus c) a HK Hdir Ha) as Wa. apply Rmult_le_compat_l; [lra|].
  pose proof (Rinv_0_lt_compat _ Hl) as Il. set (A := alpha + 2 * eta / wmin).
  apply Rle_trans with (sumn N (fun s => Rr ^ 2 * sg * eta ^ 2 + (/ lam * A ^ 2 + sigma_s c ^ 2 / lam * Rr ^ 2 * beta ^ 2) * (E (S s) t - E s t))).
  2: { rewrite sumn_plus, sumn_const, sumn_scal. pose proof widths_tot as W.
       assert (P : 0 <= / lam * A ^ 2 + sigma_s c ^ 2 / lam * Rr ^ 2 * beta ^ 2).
       { apply Rplus_le_le_0_compat; [apply Rmult_le_pos; [lra|apply pow2_ge_0]|]. apply Rmult_le_pos; [apply Rmult_le_pos; [unfold Rdiv; apply Rmult_le_pos; [apply pow2_ge_0|lra]|apply pow2_ge_0]|apply pow2_ge_0]. }
       pose proof (Rmult_le_compat_l _ _ _ P W) as X. unfold B. fold A. lra. }
  apply sumn_le. intros s Hs. pose proof (He s Hs) as Hab. cbv beta in Hab. pose proof (edge_range s ltac:(lia)) as Es. pose proof (edge_range (S s) ltac:(lia)) as ES.
  assert (eta0 : 0 <= eta) by (apply (Rle_trans _ _ _ (Rabs_pos _) (Heta a s (E s t) Ha Hs ltac:(lra)))).
  assert (F : fdefect c E psi a s t ^ 2 <= eta ^ 2).
  { rewrite <- (pow2_abs (fdefect c E psi a s t)). apply pow_incr. split; [apply Rabs_pos|]. unfold fdefect. fold fc M N. destruct (Rle_lt_dec 0 _); [apply Heta; auto; lra|].
    destruct (Nat.eqb_spec (S s) N); [rewrite Rabs_R0; auto|]. apply Heta; [auto|lia|]. pose proof (He (S s) ltac:(lia)). cbv beta in *. lra. }
  assert (T1 : E (S s) t ^ 2 * Rabs (mus c a - r_Dedges c t (S s)) * fdefect c E psi a s t ^ 2 <= Rr ^ 2 * sg * eta ^ 2).
  { apply Rmult_le_compat; [apply Rmult_le_pos; [apply pow2_ge_0|apply Rabs_pos]|apply pow2_ge_0| |exact F]. apply Rmult_le_compat; [apply pow2_ge_0|apply Rabs_pos|apply pow_incr; lra|now apply Hsg]. }
  assert (T2 : RInt (fun x => adefect c E psi ang a s t x ^ 2) (E s t) (E (S s) t) <= A ^ 2 * (E (S s) t - E s t)).
  { apply int_sq_le; [lra|intros; apply (adef_c c E Q psi ang em t0 t1 HX t Ht He a s Ha Hs)|]. intros x Hx. unfold adefect. fold K fc M.
    set (d := fun l => psi l s x t - rproj_at M E (psi l s) s t x).
    replace (ang a s x t - aterm K (mus c) (fun l => rproj_at M E (psi l s) s t x) a) with ((ang a s x t - aterm K (mus c) (fun l => psi l s x t) a) + aterm K (mus c) d a).
    2: { assert (X : aterm K (mus c) (fun l => psi l s x t) a = aterm K (mus c) d a + aterm K (mus c) (fun l => rproj_at M E (psi l s) s t x) a).
         { rewrite <- aterm_add. f_equal. apply functional_extensionality. intros l. unfold d. ring. }
         rewrite X. ring. }
    eapply Rle_trans; [apply Rabs_triang|]. unfold A. apply Rplus_le_compat; [now apply Halpha|].
    apply Rle_trans with (2 * eta / awidth K (mus c) a).
    - apply aterm_bound; auto. intros l Hl0. unfold d. rewrite Rabs_minus_sym. now apply Heta.
    - unfold Rdiv. apply Rmult_le_compat_l; [lra|]. apply Rinv_le_contravar; auto. }
  assert (T3 : RInt (fun x => x ^ 2 * sdefect c psi em s t x ^ 2) (E s t) (E (S s) t) <= Rr ^ 2 * beta ^ 2 * (E (S s) t - E s t)).
  { apply int_wsq_le; [lra|lra|lra|intros; apply (sdef_c c E Q psi ang em t0 t1 HX t Ht a s Ha Hs)|]. intros x Hx. unfold sdefect. fold K. now apply Hbeta. }
  assert (S0 : 0 <= sigma_s c ^ 2 / lam) by (unfold Rdiv; apply Rmult_le_pos; [apply pow2_ge_0|lra]).
  pose proof (Rmult_le_compat_l _ _ _ (Rlt_le _ _ Il) T2) as U2. pose proof (Rmult_le_compat_l _ _ _ S0 T3) as U3. lra.
Qed.
End Size.
