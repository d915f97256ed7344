(** The hard-coded spherical tables against the integrals they stand for. *)
From Coq Require Import ZArith QArith Qreals.
From Verif Require Import Py PyLemmas Legendre Cheb DGModel DGSpec DGProofs DGInt DGBalance GmatModel SpherePoly.
Open Scope R_scope.

Definition cn (i : nat) : R := if (i =? 0)%nat then 1 else 2.
Lemma cn_pos i : 0 < cn i. Proof. unfold cn. destruct (i =? 0)%nat; lra. Qed.
Definition rn (i : nat) : R := if (i =? 0)%nat then 1 else sqrt 2.
Lemma rn_sqrt i : sqrt (cn i) = rn i. Proof. unfold cn, rn. destruct (i =? 0)%nat; auto. apply sqrt_1. Qed.
Lemma ph_pos a b : a < b -> 0 < PI * (b - a).
Proof. intros. apply Rmult_lt_0_compat; [apply PI_RGT_0|lra]. Qed.
Lemma scc i j h : 0 < h -> sqrt (cn i / h) * sqrt (cn j / h) = rn i * rn j / h.
Proof.
  intros. pose proof (cn_pos i). pose proof (cn_pos j). rewrite !sqrt_div_alt by auto. rewrite !rn_sqrt.
  assert (0 < sqrt h) by (apply sqrt_lt_R0; auto). rewrite <- (sqrt_sqrt h) at 3 by lra. field. lra.
Qed.
Lemma basis_sph i x a b : basis Sphere i x a b = sqrt (cn i / (PI * (b - a))) * cheb i (refz x a b).
Proof. reflexivity. Qed.
Lemma x_ref x a b : a < b -> x = (a + b) / 2 + (b - a) / 2 * refz x a b.
Proof. intros. unfold refz. field. lra. Qed.

(** pi times the mass matrix entry *)
Definition Mform (i j : nat) (a b : R) : R := 1 / 2 * (rn i * rn j) * Aq ((a + b) / 2) ((b - a) / 2) i j.
Lemma mass_is i j a b : a < b ->
  is_RInt (fun x => x ^ 2 * basis Sphere i x a b * basis Sphere j x a b) a b (Mform i j a b / PI).
Proof.
  intros H. pose proof (ph_pos a b H) as P.
  pose (F := fun z => rn i * rn j / (PI * (b - a)) * (((a + b) / 2 + (b - a) / 2 * z) ^ 2 * (cheb i z * cheb j z))).
  apply (int_ext (fun x => F (refz x a b))).
  { intro x. unfold F. rewrite <- x_ref by auto. rewrite !basis_sph, <- scc by auto. ring. }
  eapply int_eq; [apply (int_ref F); [auto|]; unfold F; apply int_scal, Aq_ok|]. unfold Mform. field. split; [apply PI_neq0|lra].
Qed.

Section Moving.
Variables (a b : R -> R) (t a' b' : R).
Hypothesis Ha : is_derive a t a'.
Hypothesis Hb : is_derive b t b'.
Hypothesis Hab : a t < b t.
Let h := b t - a t.
Lemma ccoef_dt i : is_derive (fun s => sqrt (cn i / (PI * (b s - a s)))) t (- (1 / 2) * ((b' - a') / h) * sqrt (cn i / (PI * h))).
Proof.
  pose proof (cn_pos i) as Hi. assert (Hh : 0 < h) by (unfold h; lra). pose proof PI_RGT_0 as HP.
  assert (P : 0 < PI * h) by (apply ph_pos; auto).
  assert (Hq : 0 < cn i / (PI * h)) by (apply Rdiv_lt_0_compat; auto).
  eapply dd_eq.
  - apply (dd_sqrt (fun s => cn i / (PI * (b s - a s)))); [|exact Hq].
    apply (dd_div (fun _ => cn i) (fun s => PI * (b s - a s))); [apply dd_const|apply dd_scal; apply dd_minus; eauto|fold h; lra].
  - cbv beta. fold h. 
    assert (S0 : 0 < sqrt (cn i / (PI * h))) by (apply sqrt_lt_R0; auto).
    pose proof (sqrt_sqrt (cn i / (PI * h)) (Rlt_le _ _ Hq)) as SS. revert S0 SS. generalize (sqrt (cn i / (PI * h))). intros r S0 SS.
    apply (Rmult_eq_reg_r r); [|lra].
    replace (- (1 / 2) * ((b' - a') / h) * r * r) with (- (1 / 2) * ((b' - a') / h) * (r * r)) by ring.
    rewrite SS. field. lra.
Qed.
Lemma cbasis_dt i x : is_derive (fun s => basis Sphere i x (a s) (b s)) t
  (sqrt (cn i / (PI * h)) * (- (1 / 2) * ((b' - a') / h) * cheb i (refz x (a t) (b t))
     + (- (a' + b') / h - refz x (a t) (b t) * ((b' - a') / h)) * dcheb i (refz x (a t) (b t)))).
Proof.
  eapply dd_eq.
  - apply (dd_mult (fun s => sqrt (cn i / (PI * (b s - a s)))) (fun s => cheb i (refz x (a s) (b s)))).
    + apply ccoef_dt.
    + apply (dd_comp (cheb i) (fun s => refz x (a s) (b s))); [apply cheb_derive|apply (refz_dt a b t a' b'); auto].
  - cbv beta. fold h. ring.
Qed.

(** pi times the mesh-motion entry *)
Definition Gform (i j : nat) (a b a' b' : R) : R :=
  let m := (a + b) / 2 in let k := (b - a) / 2 in let h := b - a in
  1 / 2 * (rn i * rn j) * (- (1 / 2) * ((b' - a') / h) * Aq m k i j - (a' + b') / h * Bq m k i j - (b' - a') / h * Cq m k i j).
Lemma cmotion_is i j :
  is_RInt (fun x => x ^ 2 * Derive (fun s => basis Sphere i x (a s) (b s)) t * basis Sphere j x (a t) (b t)) (a t) (b t)
    (Gform i j (a t) (b t) a' b' / PI).
Proof.
  assert (Hh : 0 < h) by (unfold h; lra). pose proof (ph_pos _ _ Hab) as P. fold h in P.
  pose (m := (a t + b t) / 2). pose (k := h / 2).
  pose (F := fun z => rn i * rn j / (PI * h) *
     (- (1 / 2) * ((b' - a') / h) * ((m + k * z) ^ 2 * (cheb i z * cheb j z))
      + (- ((a' + b') / h)) * ((m + k * z) ^ 2 * (dcheb i z * cheb j z))
      + (- ((b' - a') / h)) * ((m + k * z) ^ 2 * (z * dcheb i z * cheb j z)))).
  apply (int_ext (fun x => F (refz x (a t) (b t)))).
  { intro x. erewrite (is_derive_unique (fun s : R => basis Sphere i x (a s) (b s)) t) by (apply cbasis_dt).
    unfold F, m, k, h. rewrite <- x_ref by auto. fold h. rewrite basis_sph, <- scc by auto. fold h. unfold Rdiv. ring. }
  eapply int_eq.
  - apply (int_ref F); [auto|]. unfold F. apply int_scal. apply int_plus; [apply int_plus|]; apply int_scal; [apply Aq_ok|apply Bq_ok|apply Cq_ok].
  - unfold Gform. cbv zeta. fold h. fold m. fold k. generalize (Aq m k i j) (Bq m k i j) (Cq m k i j). intros. unfold k. field. split; [lra|apply PI_neq0].
Qed.
Definition M'form (i j : nat) (a b a' b' : R) : R :=
  let m := (a + b) / 2 in let k := (b - a) / 2 in let m' := (a' + b') / 2 in let k' := (b' - a') / 2 in
  1 / 2 * (rn i * rn j) * (2 * m * m' * Q2R (al 0 i j) + 2 * (m' * k + m * k') * Q2R (al 1 i j) + 2 * k * k' * Q2R (al 2 i j)).
Lemma Mform_dt i j : is_derive (fun s => Mform i j (a s) (b s)) t (M'form i j (a t) (b t) a' b').
Proof.
  unfold Mform, M'form, Aq. eapply dd_eq.
  - apply dd_scal.
    assert (D1 : is_derive (fun s => (a s + b s) / 2) t ((a' + b') / 2)) by (apply dd_divc, dd_plus; auto).
    assert (D2 : is_derive (fun s => (b s - a s) / 2) t ((b' - a') / 2)) by (apply dd_divc, dd_minus; auto).
    apply dd_plus; [apply dd_plus|].
    + apply dd_scal_r. apply (dd_ext (fun s => (a s + b s) / 2 * ((a s + b s) / 2))); [intro; ring|]. apply dd_mult; eassumption.
    + apply dd_scal_r. apply dd_mult; [apply dd_scal|]; eassumption.
    + apply dd_scal_r. apply (dd_ext (fun s => (b s - a s) / 2 * ((b s - a s) / 2))); [intro; ring|]. apply dd_mult; eassumption.
  - cbv beta zeta. field.
Qed.
Lemma mass_rate i j :
  is_derive (fun s => RInt (fun x => x ^ 2 * basis Sphere i x (a s) (b s) * basis Sphere j x (a s) (b s)) (a s) (b s)) t
    (M'form i j (a t) (b t) a' b' / PI).
Proof.
  apply (dd_loc (fun s => Mform i j (a s) (b s) / PI)).
  - generalize (locally_lt a b t a' b' Ha Hb Hab). apply filter_imp. intros w Hw. symmetry. apply int_uniq. now apply mass_is.
  - apply dd_divc, Mform_dt.
Qed.
End Moving.

Definition G_ok (i j : nat) : Prop := forall a b a' b', a <> b -> GMatrix i j a b a' b' = Some (Gform i j a b a' b').
Definition M_ok (i j : nat) : Prop := forall a b a' b', MPRIME i j a b a' b' = Some (M'form i j a b a' b').

Lemma sqrt2_sq : sqrt 2 * sqrt 2 = 2. Proof. apply sqrt_sqrt; lra. Qed.
Lemma sqrt2_nz : sqrt 2 <> 0. Proof. apply Rgt_not_eq, sqrt_lt_R0. lra. Qed.
Ltac entry :=
  unfold Gform, M'form, Aq, Bq, Cq, rn; cbn [GMatrix MPRIME Nat.eqb]; f_equal;
  repeat match goal with
    | |- context [al ?p ?i ?j] => let v := eval vm_compute in (al p i j) in
        replace (al p i j) with v by (vm_compute; reflexivity)
    | |- context [be ?p ?i ?j] => let v := eval vm_compute in (be p i j) in
        replace (be p i j) with v by (vm_compute; reflexivity)
    end;
  unfold Q2R, flt; cbn [Qnum Qden];
  generalize sqrt2_sq sqrt2_nz; generalize (sqrt 2); cbv zeta.
Lemma G_table i j : (i <= 10)%nat -> (j <= 10)%nat -> G_ok i j.
Proof.
  intros Hi Hj. do 11 (destruct i as [|i]; [clear Hi; do 11 (destruct j as [|j];
    [clear Hj; intros a b a' b' H; entry; intros s S2 S0; field [S2]; lra|]); lia|]). lia.
Qed.
Lemma M_table i j : (i <= 10)%nat -> (j <= 10)%nat -> M_ok i j.
Proof.
  intros Hi Hj. do 11 (destruct i as [|i]; [clear Hi; do 11 (destruct j as [|j];
    [clear Hj; intros a b a' b'; entry; intros s S2 S0; field [S2]; lra|]); lia|]). lia.
Qed.
Lemma G_out i j a b a' b' : (10 < i)%nat \/ (10 < j)%nat -> GMatrix i j a b a' b' = None.
Proof.
  intros H. do 11 (destruct i as [|i]; [do 11 (destruct j as [|j]; [lia|]); reflexivity|]). reflexivity.
Qed.
Lemma M_out i j a b a' b' : (10 < i)%nat \/ (10 < j)%nat -> MPRIME i j a b a' b' = None.
Proof.
  intros H. do 11 (destruct i as [|i]; [do 11 (destruct j as [|j]; [lia|]); reflexivity|]). reflexivity.
Qed.
