(** The spherical mass matrix is a Gram matrix, hence positive definite. *)
From Coq Require Import ZArith QArith Qreals Classical_Prop.
From Coquelicot Require Import Coquelicot.
From Verif Require Import Py PyLemmas Calc Cheb Legendre DGModel DGSpec DGProofs DGInt FuncModel FuncProofs MatModel RhsModel SpherePoly SphereProofs SphereBal SphereWeak PosDef.
Open Scope R_scope.

Lemma sph_basis_cont i a b x : a < b -> continuous (fun x => basis Sphere i x a b) x.
Proof. intros H. apply (ex_derive_continuous (fun x => basis Sphere i x a b)). eexists. now apply cbasis_dx. Qed.
Lemma sph_field_cont M u a b x : a < b -> continuous (field Sphere M u a b) x.
Proof.
  intros H. unfold field. induction (M + 1)%nat as [|n IH]; cbn [sumn]; [apply cconst|].
  apply cplus; [apply IH|]. apply cmult; [apply cconst|now apply sph_basis_cont].
Qed.

(** the quadratic form is the weighted square integral of the expansion *)
Lemma mass_quad T M a b x : mass_exact T (M + 1) a b -> is_RInt (fun r => r ^ 2 * field Sphere M x a b r ^ 2) a b (quad (M + 1) (make_mass_sphere T a b) x).
Proof.
  intros HM. unfold quad.
  apply (int_ext (fun r => sumn (M + 1) (fun i => x i * (r ^ 2 * basis Sphere i r a b * field Sphere M x a b r)))).
  { intros r. transitivity (r ^ 2 * field Sphere M x a b r * sumn (M + 1) (fun i => x i * basis Sphere i r a b)).
    - rewrite <- sumn_scal. apply sumn_ext. intros; ring.
    - unfold field. ring. }
  apply int_sumn. intros i Hi. apply int_scal. apply (int_dot (fun r => r ^ 2 * basis Sphere i r a b)). intros j Hj. now apply HM.
Qed.

(** an expansion with a nonzero coefficient does not vanish at all Chebyshev nodes *)
Lemma field_nonzero M x a b j : a < b -> (j <= M)%nat -> x j <> 0 -> exists r, a < r < b /\ field Sphere M x a b r <> 0.
Proof.
  intros H Hj Hx. apply NNPP. intro N.
  assert (Z : forall z, -1 < z < 1 -> sumn (M + 1) (fun i => x i * (rn i * cheb i z)) = 0).
  { intros z Hz. pose (r := (b - a) / 2 * z + (a + b) / 2). apply NNPP. intro Q. apply N. exists r. split; [unfold r; nra|].
    intro F. apply Q. unfold field in F.
    assert (P : 0 < sqrt (PI * (b - a))) by (apply sqrt_lt_R0; pose proof PI_RGT_0; nra).
    apply Rmult_eq_reg_l with (/ sqrt (PI * (b - a))); [|apply Rgt_not_eq, Rinv_0_lt_compat; auto]. rewrite Rmult_0_r.
    rewrite <- F, <- sumn_scal. apply sumn_ext. intros i Hi. rewrite basis_sph by auto. unfold r. rewrite refz_arg by auto.
    rewrite sqrt_div_alt by (now apply ph_pos). rewrite rn_sqrt. field. lra. }
  apply Hx.
  assert (Q : qsum (quadrature_chebyshev (M + 1)) (fun z => cheb j z * sumn (M + 1) (fun i => x i * (rn i * cheb i z))) = 0).
  { rewrite qsum_cheb. apply sumn_zero. intros k Hk. rewrite Z; [ring|]. apply node_in. lia. }
  rewrite (qsum_ext _ _ (fun z => sumn (M + 1) (fun i => x i * rn i * (cheb j z * cheb i z)))) in Q.
  2: { intros z. rewrite <- sumn_scal. apply sumn_ext. intros; ring. }
  rewrite qsum_sumn, (sumn_single (M + 1) _ j) in Q; [|lia|].
  - rewrite qsum_scal, qsum_TT, Nat.eqb_refl in Q by lia. pose proof PI_RGT_0.
    assert (R0 : 0 < rn j) by (unfold rn; destruct (j =? 0)%nat; [lra|apply sqrt_lt_R0; lra]).
    assert (P0 : 0 < (if (j =? 0)%nat then PI else PI / 2)) by (destruct (j =? 0)%nat; lra).
    apply Rmult_integral in Q. destruct Q as [Q|Q]; [|lra]. apply Rmult_integral in Q. destruct Q; lra.
  - intros i Hi N'. rewrite qsum_scal, qsum_TT by lia. destruct (Nat.eqb_spec j i); [congruence|ring].
Qed.

Lemma pos3 (x y z w : R) : 0 <= x -> 0 <= z -> w <= y -> 0 < w -> 0 < x + y + z.
Proof. lra. Qed.
Lemma int_pos (f : R -> R) a b r v : a < r < b -> (forall x, continuous f x) -> (forall x, 0 <= f x) -> 0 < f r -> is_RInt f a b v -> 0 < v.
Proof.
  intros Hr C P Hf HI.
  destruct (C r (ball (f r) (mkposreal (f r / 2) ltac:(lra)))) as [d Hd]. { exists (mkposreal (f r / 2) ltac:(lra)). auto. }
  pose (h := Rmin (d / 2) (b - r)).
  assert (Hh : 0 < h /\ h < d /\ r + h <= b) by (pose proof (cond_pos d); unfold h, Rmin; destruct (Rle_dec _ _); lra).
  assert (B : forall x, r <= x <= r + h -> f r / 2 <= f x).
  { intros x Hx. assert (Bx : ball r d x). { unfold ball. cbn. unfold AbsRing_ball, abs, minus, plus, opp. cbn. rewrite Rabs_pos_eq; lra. }
    specialize (Hd x Bx). unfold ball in Hd. cbn in Hd. unfold AbsRing_ball, abs, minus, plus, opp in Hd. cbn in Hd.
    unfold Rabs in Hd. destruct (Rcase_abs _); lra. }
  pose proof (int_val f a r C) as I1. pose proof (int_val f r (r + h) C) as I2. pose proof (int_val f (r + h) b C) as I3.
  pose proof (is_RInt_Chasles (V := R_NormedModule) _ _ _ _ _ _ (is_RInt_Chasles (V := R_NormedModule) _ _ _ _ _ _ I1 I2) I3) as I4.
  rewrite (int_uniq2 _ _ _ _ _ HI I4). unfold plus. cbn.
  assert (0 <= RInt f a r) by (apply RInt_ge_0; [lra|apply ex_int; auto|auto]).
  assert (0 <= RInt f (r + h) b) by (apply RInt_ge_0; [lra|apply ex_int; auto|auto]).
  assert (h * (f r / 2) <= RInt f r (r + h)).
  { assert (K : RInt (fun _ => f r / 2) r (r + h) = h * (f r / 2)) by (apply int_uniq; eapply int_eq; [apply int_const|ring]).
    rewrite <- K. apply RInt_le; [lra|apply ex_int; intros; apply cconst|apply ex_int; auto|]. intros x Hx. apply B. lra. }
  assert (0 < h * (f r / 2)) by (apply Rmult_lt_0_compat; lra). eapply pos3; eauto.
Qed.

Lemma mass_pdef T M a b : 0 <= a -> a < b -> mass_exact T (M + 1) a b -> pdef (M + 1) (make_mass_sphere T a b).
Proof.
  intros Ha H HM x (j & Hj & Hx). destruct (field_nonzero M x a b j H ltac:(lia) Hx) as (r & Hr & F).
  apply (int_pos (fun r => r ^ 2 * field Sphere M x a b r ^ 2) a b r); auto.
  - intros y. apply cmult; apply cpow; [apply cid|now apply sph_field_cont].
  - intros y. apply Rmult_le_pos; apply pow2_ge_0.
  - apply Rmult_lt_0_compat; apply pow2_gt_0; auto. lra.
  - now apply mass_quad.
Qed.
