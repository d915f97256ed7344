(** Order of Runge-Kutta methods for linear equations whose right-hand side does not depend on time. *)
From Coquelicot Require Import Coquelicot.
From Verif Require Import Py PyLemmas Calc Picard ExistProofs StabProofs TimeModel TimeProofs.
Open Scope R_scope.

(** entries of the vectors A^m 1 of a method *)
Fixpoint rpow (T : tableau) (m i : nat) : R := match m with O => 1 | S m => sumn (rs T) (fun j => rA T i j * rpow T m j) end.
(** b A^m 1 = 1 / (m+1)! below p: the method reproduces the exponential series up to the power p *)
Definition order_linear (T : tableau) (p : nat) : Prop := forall m, (m < p)%nat -> sumn (rs T) (fun i => rb T i * rpow T m i) = / INR (fact (S m)).

Section O.
Variable I : Type.
Variables t0 t1 : R.
Hypothesis Hle : t0 <= t1.
Variable l : list I.
Variable F : (I -> R) -> I -> R.
Hypothesis HO : forall i, In i l \/ forall x, F x i = 0.
Hypothesis HA : forall p x z k, F (fun q => x q + k * z q) p = F x p + k * (F z p - F (fun _ => 0) p).
Variable K : R.
Hypothesis HK : 0 <= K.
Hypothesis HL : forall i u v r, 0 <= r -> (forall j, Rabs (u j - v j) <= r) -> Rabs (F u i - F v i) <= K * r.
(** the linear part and its powers *)
Definition Li (z : I -> R) (p : I) : R := F z p - F (fun _ => 0) p.
Fixpoint Lp (m : nat) (z : I -> R) : I -> R := match m with O => z | S m => Li (Lp m z) end.

Lemma fext (f g : I -> R) : (forall q, f q = g q) -> f = g.
Proof. apply FunctionalExtensionality.functional_extensionality. Qed.
Lemma F_shift y h z p : F (fun q => y q + h * z q) p = F y p + h * Li z p.
Proof. apply HA. Qed.
Lemma Li_lin x k z p : Li (fun q => x q + k * z q) p = Li x p + k * Li z p.
Proof. unfold Li. rewrite HA. ring. Qed.
Lemma Li_0 p : Li (fun _ => 0) p = 0. Proof. unfold Li. ring. Qed.
Lemma Li_scal k z p : Li (fun q => k * z q) p = k * Li z p.
Proof. rewrite (fext (fun q => k * z q) (fun q => 0 + k * z q)) by (intros; ring). rewrite (Li_lin (fun _ => 0)), Li_0. ring. Qed.
Lemma Li_sum n (a : nat -> R) (k : nat -> I -> R) p : Li (fun q => sumn n (fun j => a j * k j q)) p = sumn n (fun j => a j * Li (k j) p).
Proof. induction n as [|n IH]; cbn [sumn]; [apply Li_0|]. rewrite (Li_lin (fun q => sumn n (fun j => a j * k j q))), IH. reflexivity. Qed.
Lemma Lp_lin m x k z p : Lp m (fun q => x q + k * z q) p = Lp m x p + k * Lp m z p.
Proof.
  revert p. induction m as [|m IH]; intros p; cbn [Lp]; [reflexivity|].
  rewrite (fext (Lp m (fun q => x q + k * z q)) (fun q => Lp m x q + k * Lp m z q)) by apply IH. apply Li_lin.
Qed.
Lemma Li_bound z r p : 0 <= r -> (forall q, Rabs (z q) <= r) -> Rabs (Li z p) <= K * r.
Proof. intros Hr H. unfold Li. apply HL; auto. intros j. rewrite Rminus_0_r. apply H. Qed.
Lemma Lp_bound m z r p : 0 <= r -> (forall q, Rabs (z q) <= r) -> Rabs (Lp m z p) <= K ^ m * r.
Proof.
  intros Hr H. revert p. induction m as [|m IH]; intros p; cbn [Lp pow]; [rewrite Rmult_1_l; apply H|].
  rewrite Rmult_assoc. apply Li_bound; [apply Rmult_le_pos; auto; now apply pow_le|exact IH].
Qed.
Lemma Lp_F m y x p : Lp m (F y) p - Lp m (F x) p = Lp (S m) (fun q => y q + - 1 * x q) p.
Proof.
  replace (Lp m (F y) p - Lp m (F x) p) with (Lp m (F y) p + - 1 * Lp m (F x) p) by ring. rewrite <- Lp_lin.
  replace (fun q => F y q + - 1 * F x q) with (Li (fun q => y q + - 1 * x q)).
  2: { apply fext. intros q. rewrite Li_lin. unfold Li. ring. }
  revert p. induction m as [|m IH]; intros p; [reflexivity|]. cbn [Lp]. f_equal. apply fext. exact IH.
Qed.

(* -------------------------------------------------------------- one step of the method *)
Variable T : tableau.
Let A := sumn (rs T) (fun i => sumn (rs T) (fun j => Rabs (rA T i j))).
Let be := sumn (rs T) (fun i => Rabs (rb T i)).
Fixpoint rho (k : nat -> I -> R) (p : nat) (i : nat) (q : I) : R :=
  match p with O => k i q | S p => sumn (rs T) (fun j => rA T i j * Li (rho k p j) q) end.
Lemma slopes_expand h y k p : (forall i q, (i < rs T)%nat -> k i q = F (stage T h y k i) q) -> forall i q, (i < rs T)%nat ->
  k i q = sumn p (fun m => h ^ m * rpow T m i * Lp m (F y) q) + h ^ p * rho k p i q.
Proof.
  intros Hk. induction p as [|p IH]; intros i q Hi; [cbn [sumn pow rho]; ring|].
  rewrite (Hk i q Hi). unfold stage. rewrite F_shift, Li_sum.
  rewrite (sumn_ext (rs T) _ (fun j => sumn p (fun m => h ^ m * (rA T i j * rpow T m j) * Lp (S m) (F y) q) + h ^ p * (rA T i j * Li (rho k p j) q))).
  2: { intros j Hj. rewrite (fext (k j) (fun q => sumn p (fun m => (h ^ m * rpow T m j) * Lp m (F y) q) + h ^ p * rho k p j q)) by (intros; now apply IH).
       rewrite Li_lin, Li_sum, Rmult_plus_distr_l, <- sumn_scal. f_equal; [apply sumn_ext; intros m Hm; cbn [Lp]; change (fun q0 : I => Lp m (F y) q0) with (Lp m (F y)); ring|try change (fun q0 : I => rho k p j q0) with (rho k p j); ring]. }
  rewrite sumn_plus, sumn_scal, sumn_swap, sumn_S_l. cbn [pow rpow Lp rho].
  rewrite (sumn_ext p (fun m => sumn (rs T) (fun j => h ^ m * (rA T i j * rpow T m j) * Li (Lp m (F y)) q))
    (fun m => h ^ m * sumn (rs T) (fun j => rA T i j * rpow T m j) * Li (Lp m (F y)) q)).
  2: { intros m Hm. rewrite (sumn_ext (rs T) _ (fun j => h ^ m * Li (Lp m (F y)) q * (rA T i j * rpow T m j))) by (intros; ring). rewrite sumn_scal. ring. }
  rewrite (sumn_ext p (fun m => h * h ^ m * sumn (rs T) (fun j => rA T i j * rpow T m j) * Li (Lp m (F y)) q)
    (fun m => h * (h ^ m * sumn (rs T) (fun j => rA T i j * rpow T m j) * Li (Lp m (F y)) q))) by (intros; ring).
  rewrite (sumn_scal p h). ring.
Qed.
Lemma slopes_bound h y k b : 0 <= h -> 0 <= b -> h * (K * A) <= 1 / 2 -> (forall i q, (i < rs T)%nat -> k i q = F (stage T h y k i) q) ->
  (forall q, Rabs (F y q) <= b) -> forall i q, (i < rs T)%nat -> Rabs (k i q) <= 2 * b.
Proof.
  intros Hh Hb Hd Hk Hy.
  destruct (largest (list_prod (seq 0 (rs T)) l) (fun ip => k (fst ip) (snd ip))) as (m & Pm & Hm & Qm).
  assert (Hm' : forall i q, (i < rs T)%nat -> Rabs (k i q) <= m).
  { intros i q Hi. destruct (HO q) as [Q|Q].
    - apply (Hm (i, q)). apply in_prod; auto. apply in_seq. lia.
    - rewrite Hk, Q, Rabs_R0 by auto. auto. }
  assert (PA : 0 <= A) by (apply A_pos).
  assert (B : forall i q, (i < rs T)%nat -> Rabs (k i q) <= b + 1 / 2 * m).
  { intros i q Hi. rewrite Hk by auto. unfold stage. rewrite F_shift. eapply Rle_trans; [apply Rabs_triang|]. apply Rplus_le_compat; [apply Hy|].
    rewrite Rabs_mult, (Rabs_pos_eq h) by auto.
    assert (Q : Rabs (Li (fun q => sumn (rs T) (fun j => rA T i j * k j q)) q) <= K * (A * m)).
    { apply Li_bound; [now apply Rmult_le_pos|]. intros q'. eapply Rle_trans; [apply sum_bound; intros j Hj; now apply Hm'|]. apply Rmult_le_compat_r; auto. now apply (A_row T). }
    apply Rle_trans with (h * (K * (A * m))); [now apply Rmult_le_compat_l|]. replace (h * (K * (A * m))) with (h * (K * A) * m) by ring. now apply Rmult_le_compat_r. }
  assert (m <= 2 * b).
  { destruct Qm as [->|([i q] & Hin & Em)]; [lra|]. apply in_prod_iff in Hin. destruct Hin as [Hi _]. apply in_seq in Hi. specialize (B i q ltac:(lia)). cbn [fst snd] in Em. lra. }
  intros i q Hi. eapply Rle_trans; [now apply Hm'|auto].
Qed.
Lemma rho_bound k p b : 0 <= b -> (forall i q, (i < rs T)%nat -> Rabs (k i q) <= b) -> forall i q, (i < rs T)%nat -> Rabs (rho k p i q) <= (A * K) ^ p * b.
Proof.
  intros Hb Hk. assert (PA : 0 <= A) by (apply A_pos). induction p as [|p IH]; intros i q Hi; cbn [rho pow]; [rewrite Rmult_1_l; auto|].
  assert (P : 0 <= (A * K) ^ p * b) by (apply Rmult_le_pos; auto; apply pow_le; now apply Rmult_le_pos).
  eapply Rle_trans; [apply sum_bound; intros j Hj; apply Li_bound with (r := (A * K) ^ p * b); auto|].
  replace (A * K * (A * K) ^ p * b) with (A * (K * ((A * K) ^ p * b))) by ring.
  apply Rmult_le_compat_r; [now apply Rmult_le_pos|]. now apply (A_row T).
Qed.

(* -------------------------------------------------------------- the trajectory *)
Variable x : I -> R -> R.
Hypothesis HX : forall t i, t0 <= t <= t1 -> is_derive (x i) t (F (fun j => x j t) i).
Variable B : R.
Hypothesis PB : 0 <= B.
Hypothesis HB : forall t i, t0 <= t <= t1 -> Rabs (F (fun j => x j t) i) <= B.
Definition rem (t : R) (p : nat) (h : R) (i : I) : R :=
  x i (t + h) - x i t - sumn p (fun m => h ^ S m * / INR (fact (S m)) * Lp m (F (fun j => x j t)) i).
Lemma dd_sumn n (f : nat -> R -> R) (d : nat -> R) z : (forall j, (j < n)%nat -> is_derive (f j) z (d j)) -> is_derive (fun z => sumn n (fun j => f j z)) z (sumn n d).
Proof. induction n as [|n IH]; intros H; cbn [sumn]; [apply dd_const|]. apply dd_plus; [apply IH; intros; apply H; lia|apply H; lia]. Qed.
Lemma dd_term m z k : is_derive (fun z => z ^ S m * / INR (fact (S m)) * k) z (z ^ m * / INR (fact m) * k).
Proof.
  apply dd_scal_r. eapply dd_eq; [apply dd_scal_r, (is_derive_pow (fun z => z) (S m) z 1), dd_id|].
  cbv beta. change (Nat.pred (S m)) with m. rewrite fact_simpl, mult_INR. match goal with |- ?a = ?b => change (@eq R a b) end. field.
  split; [apply INR_fact_neq_0|apply not_0_INR; lia].
Qed.
Lemma rem_der t p h i : t0 <= t + h <= t1 -> is_derive (fun h => rem t (S p) h i) h (Li (rem t p h) i).
Proof.
  intros Ht. unfold rem at 1. eapply dd_eq.
  - apply (dd_minus (fun h => x i (t + h) - x i t)).
    + apply dd_minus; [|apply dd_const]. apply (dd_comp (x i) (fun h => t + h)); [apply HX; auto|apply (dd_plus (fun _ => t)); [apply dd_const|apply dd_id]].
    + apply (dd_sumn (S p) (fun m h => h ^ S m * / INR (fact (S m)) * Lp m (F (fun j => x j t)) i)). intros m Hm. apply dd_term.
  - match goal with |- ?a = ?b => change (@eq R a b) end.
    assert (E1 : rem t p h = (fun q => (x q (t + h) + - 1 * x q t) + - 1 * sumn p (fun m => (h ^ S m * / INR (fact (S m))) * Lp m (F (fun j => x j t)) q))) by (apply fext; intros q; unfold rem; ring).
    rewrite E1.
    rewrite Li_lin, Li_sum, Li_lin. rewrite sumn_S_l. cbn [Lp]. unfold Li at 2 3.
    replace (h ^ 0 * / INR (fact 0)) with 1 by (cbn; field).
    match goal with |- _ = ?r + -1 * sumn p ?g => assert (Eg : sumn p (fun i0 => h ^ S i0 * / INR (fact (S i0)) * Li (Lp i0 (F (fun j => x j t))) i) = sumn p g) by reflexivity end.
    rewrite Eg. ring.
Qed.
Lemma rem_bound p : forall t h i, t0 <= t -> 0 <= h -> t + h <= t1 -> Rabs (rem t p h i) <= K ^ p * B * h ^ S p.
Proof.
  induction p as [|p IH]; intros t h i Ht Hh Hth.
  - unfold rem. cbn [sumn pow]. rewrite Rminus_0_r, Rmult_1_l, Rmult_1_r.
    destruct (MVT_gen (x i) t (t + h) (fun s => F (fun j => x j s) i)) as (c & Hc & E).
    + intros u Hu. rewrite Rmin_left, Rmax_right in Hu by lra. apply HX. lra.
    + intros u Hu. rewrite Rmin_left, Rmax_right in Hu by lra. apply continuity_pt_filterlim, (ex_derive_continuous (x i)). eexists. apply HX. lra.
    + rewrite Rmin_left, Rmax_right in Hc by lra. rewrite E, Rabs_mult. replace (t + h - t) with h by ring. rewrite (Rabs_pos_eq h) by auto. apply Rmult_le_compat_r; auto. apply HB. lra.
  - destruct (MVT_gen (fun s => rem t (S p) s i) 0 h (fun s => Li (rem t p s) i)) as (c & Hc & E).
    + intros u Hu. rewrite Rmin_left, Rmax_right in Hu by lra. apply rem_der. lra.
    + intros u Hu. rewrite Rmin_left, Rmax_right in Hu by lra. apply continuity_pt_filterlim, (ex_derive_continuous (fun s => rem t (S p) s i)). eexists. apply rem_der. lra.
    + rewrite Rmin_left, Rmax_right in Hc by lra.
      assert (Z : rem t (S p) 0 i = 0).
      { unfold rem. rewrite Rplus_0_r. rewrite (sumn_zero (S p)); [ring|]. intros m _. cbn [pow]. ring. }
      rewrite Z, !Rminus_0_r in E. rewrite E, Rabs_mult, (Rabs_pos_eq h) by auto.
      assert (Pp : 0 <= K ^ p * B) by (apply Rmult_le_pos; auto; now apply pow_le).
      assert (Q : Rabs (Li (rem t p c) i) <= K * (K ^ p * B * h ^ S p)).
      { apply Li_bound; [apply Rmult_le_pos; auto; now apply pow_le|]. intros q. eapply Rle_trans; [apply IH; lra|]. apply Rmult_le_compat_l; auto. apply pow_incr. lra. }
      replace (K ^ S p * B * h ^ S (S p)) with (K * (K ^ p * B * h ^ S p) * h) by (cbn [pow]; ring). now apply Rmult_le_compat_r.
Qed.

(* -------------------------------------------------------------- one step compared, and all steps *)
Variable p : nat.
Hypothesis HP : order_linear T p.
Let Ks := sumn p (fun m => K ^ S m).
Lemma Ks_pos : 0 <= Ks. Proof. apply sumn_nonneg. intros. now apply pow_le. Qed.
Let R1 := be * (A * K) ^ p * 2.
Lemma R1_pos : 0 <= R1.
Proof. unfold R1. assert (0 <= be) by (apply be_pos). assert (0 <= A) by (apply A_pos). assert (0 <= (A * K) ^ p) by (apply pow_le; now apply Rmult_le_pos). assert (0 <= be * (A * K) ^ p) by now apply Rmult_le_pos. lra. Qed.
Lemma one_step t h y k y' e : 0 <= h <= 1 -> h * (K * A) <= 1 / 2 -> t0 <= t -> t + h <= t1 ->
  (forall i q, (i < rs T)%nat -> k i q = F (stage T h y k i) q) -> rk_result T h y k y' -> (forall i, Rabs (y i - x i t) <= e) ->
  forall i, Rabs (y' i - x i (t + h)) <= (1 + h * (Ks + R1 * K)) * e + h * (h ^ p * (R1 * B + K ^ p * B)).
Proof.
  intros Hh Hd Ht Hth Hk Hy He i.
  assert (e0 : 0 <= e) by (eapply Rle_trans; [apply Rabs_pos|apply (He i)]).
  assert (PR := R1_pos). assert (PA : 0 <= A) by (apply A_pos). assert (Pb : 0 <= be) by (apply be_pos).
  set (xt := fun j => x j t). assert (Fy : forall q, Rabs (F y q) <= B + K * e).
  { intros q. replace (F y q) with (F xt q + (F y q - F xt q)) by ring. eapply Rle_trans; [apply Rabs_triang|]. apply Rplus_le_compat; [apply HB; lra|]. apply HL; auto. }
  assert (b0 : 0 <= B + K * e) by (assert (0 <= K * e) by (now apply Rmult_le_pos); lra).
  assert (Sb := slopes_bound h y k (B + K * e) (proj1 Hh) b0 Hd Hk Fy).
  assert (Rb := rho_bound k p (2 * (B + K * e)) ltac:(lra) Sb).
  set (S1 := sumn (rs T) (fun i0 => rb T i0 * rho k p i0 i)).
  assert (HS1 : Rabs S1 <= R1 * (B + K * e)).
  { unfold S1. eapply Rle_trans; [apply sum_bound; intros j Hj; apply Rb; auto|]. fold be. unfold R1. right. ring. }
  assert (HR := rem_bound p t h i Ht (proj1 Hh) Hth).
  assert (Ey : y' i = y i + sumn p (fun m => h ^ S m * / INR (fact (S m)) * Lp m (F y) i) + h ^ S p * S1).
  { rewrite (Hy i). unfold S1.
    rewrite (sumn_ext (rs T) (fun i0 => rb T i0 * k i0 i) (fun i0 => sumn p (fun m => h ^ m * Lp m (F y) i * (rb T i0 * rpow T m i0)) + h ^ p * (rb T i0 * rho k p i0 i))).
    2: { intros j Hj. rewrite (slopes_expand h y k p Hk j i Hj) at 1. rewrite Rmult_plus_distr_l, <- sumn_scal. f_equal; [apply sumn_ext; intros; ring|ring]. }
    rewrite sumn_plus, sumn_scal, sumn_swap, Rmult_plus_distr_l, <- sumn_scal.
    rewrite (sumn_ext p _ (fun m => h ^ S m * / INR (fact (S m)) * Lp m (F y) i)); [cbn [pow]; ring|].
    intros m Hm. rewrite sumn_scal, (HP m Hm). cbn [pow]. ring. }
  assert (Ex : x i (t + h) = x i t + sumn p (fun m => h ^ S m * / INR (fact (S m)) * Lp m (F xt) i) + rem t p h i) by (unfold rem, xt; ring).
  set (dz := fun q => y q + - 1 * x q t).
  assert (Dz : forall q, Rabs (dz q) <= e) by (intros q; unfold dz; replace (y q + - 1 * x q t) with (y q - x q t) by ring; apply He).
  assert (Ed : y' i - x i (t + h) = (y i - x i t) + sumn p (fun m => h ^ S m * / INR (fact (S m)) * Lp (S m) dz i) + h ^ S p * S1 + - rem t p h i).
  { rewrite Ey, Ex. rewrite (sumn_ext p (fun m => h ^ S m * / INR (fact (S m)) * Lp (S m) dz i) (fun m => h ^ S m * / INR (fact (S m)) * Lp m (F y) i - h ^ S m * / INR (fact (S m)) * Lp m (F xt) i)).
    2: { intros m Hm. unfold dz. rewrite <- (Lp_F m y xt). ring. }
    rewrite sumn_minus. ring. }
  rewrite Ed. eapply Rle_trans; [apply Rabs_triang|]. rewrite Rabs_Ropp.
  eapply Rle_trans; [apply Rplus_le_compat_r, Rabs_triang|]. eapply Rle_trans; [apply Rplus_le_compat_r, Rplus_le_compat_r, Rabs_triang|].
  assert (Hp : 0 <= h ^ p) by (apply pow_le; lra).
  assert (Hp1 : h ^ p <= 1) by (rewrite <- (pow1 p); apply pow_incr; lra).
  assert (Q1 : Rabs (sumn p (fun m => h ^ S m * / INR (fact (S m)) * Lp (S m) dz i)) <= h * (Ks * e)).
  { eapply Rle_trans; [apply sumn_abs|]. unfold Ks. rewrite <- sumn_scal_r, <- sumn_scal. apply sumn_le. intros m Hm.
    assert (f1 : 1 <= INR (fact (S m))) by (change 1 with (INR 1); apply le_INR, lt_O_fact).
    assert (f2 : 0 < / INR (fact (S m)) <= 1) by (split; [apply Rinv_0_lt_compat; lra|rewrite <- Rinv_1; apply Rinv_le_contravar; lra]).
    assert (f3 : 0 <= h ^ m <= 1) by (split; [apply pow_le; lra|rewrite <- (pow1 m); apply pow_incr; lra]).
    rewrite !Rabs_mult, (Rabs_pos_eq (/ _)) by lra. rewrite (Rabs_pos_eq (h ^ S m)) by (apply pow_le; lra).
    assert (Z := Lp_bound (S m) dz e i e0 Dz). cbn [pow]. cbn [pow] in Z.
    assert (0 <= K * K ^ m * e) by (apply Rmult_le_pos; auto; apply Rmult_le_pos; auto; now apply pow_le).
    apply Rle_trans with (h * h ^ m * / INR (fact (S m)) * (K * K ^ m * e)).
    - apply Rmult_le_compat_l; auto. apply Rmult_le_pos; [apply Rmult_le_pos; lra|lra].
    - apply Rmult_le_compat_r; auto. apply Rle_trans with (h * 1); [|lra]. rewrite Rmult_assoc. apply Rmult_le_compat_l; [lra|]. apply Rle_trans with (1 * 1); [apply Rmult_le_compat; lra|lra]. }
  assert (Q2 : Rabs (h ^ S p * S1) <= h * (h ^ p * (R1 * B) + R1 * K * e)).
  { rewrite Rabs_mult, (Rabs_pos_eq (h ^ S p)) by (apply pow_le; lra). cbn [pow]. rewrite Rmult_assoc. apply Rmult_le_compat_l; [lra|].
    apply Rle_trans with (h ^ p * (R1 * (B + K * e))); [now apply Rmult_le_compat_l|].
    assert (0 <= R1 * K * e) by (apply Rmult_le_pos; auto; now apply Rmult_le_pos).
    assert (h ^ p * (R1 * K * e) <= 1 * (R1 * K * e)) by now apply Rmult_le_compat_r. nra. }
  cbn [pow] in HR. specialize (He i). nra.
Qed.
End O.
Section G.
Variable I : Type.
Variables t0 t1 : R.
Hypothesis Hle : t0 <= t1.
Variable l : list I.
Variable F : R -> (I -> R) -> I -> R.
Variable Fa : (I -> R) -> I -> R.
Hypothesis HF : forall t y i, t0 <= t <= t1 -> F t y i = Fa y i.
Hypothesis HLF : forall i, In i l -> LF I t0 t1 (fun t x => F t x i).
Hypothesis HO : forall i, In i l \/ forall x, Fa x i = 0.
Hypothesis HO' : forall i, In i l \/ forall t x, F t x i = 0.
Hypothesis HA : forall p x z k, Fa (fun q => x q + k * z q) p = Fa x p + k * (Fa z p - Fa (fun _ => 0) p).
Variable x : I -> R -> R.
Hypothesis HX : forall t i, t0 <= t <= t1 -> is_derive (x i) t (F t (fun j => x j t) i).
Variable T : tableau.
Hypothesis HT : consistent T.
Variable p : nat.
Hypothesis HP : order_linear T p.
Theorem rk_order : exists C d0, 0 < C /\ 0 < d0 /\ forall d hs y y' e, 0 <= d <= d0 -> 0 <= e -> (forall h, In h hs -> 0 <= h <= d) -> t0 + total hs <= t1 ->
  rk_run T F t0 y hs y' -> (forall i, Rabs (y i - x i t0) <= e) -> forall i, Rabs (y' i - x i (t0 + total hs)) <= C * (e + d ^ p).
Proof.
  destruct (lip I t0 t1 l F HLF HO') as (K & HK & HL).
  destruct (G_bound I t0 t1 Hle l F HLF HO' x HX) as (B & PB & HB).
  assert (HLa : forall i u v r, 0 <= r -> (forall j, Rabs (u j - v j) <= r) -> Rabs (Fa u i - Fa v i) <= K * r).
  { intros i u v r Hr H. rewrite <- !(HF t0) by lra. apply HL; auto. lra. }
  assert (HXa : forall t i, t0 <= t <= t1 -> is_derive (x i) t (Fa (fun j => x j t) i)) by (intros t i Ht; rewrite <- (HF t) by auto; now apply HX).
  assert (HBa : forall t i, t0 <= t <= t1 -> Rabs (Fa (fun j => x j t) i) <= B) by (intros t i Ht; rewrite <- (HF t) by auto; now apply HB).
  set (A := sumn (rs T) (fun i => sumn (rs T) (fun j => Rabs (rA T i j)))). set (be := sumn (rs T) (fun i => Rabs (rb T i))).
  assert (PA : 0 <= A) by (apply A_pos). assert (PKA : 0 <= K * A) by now apply Rmult_le_pos.
  set (R1 := be * (A * K) ^ p * 2). set (Ks := sumn p (fun m => K ^ S m)).
  assert (P1 : 0 <= R1) by (apply (R1_pos K HK T p)). assert (P2 : 0 <= Ks) by (apply (Ks_pos K HK p)).
  set (L := Ks + R1 * K). assert (PL : 0 <= L) by (unfold L; assert (0 <= R1 * K) by (now apply Rmult_le_pos); lra).
  set (W := R1 * B + K ^ p * B). assert (PW : 0 <= W) by (unfold W; assert (0 <= R1 * B) by (now apply Rmult_le_pos); assert (0 <= K ^ p * B) by (apply Rmult_le_pos; auto; now apply pow_le); lra).
  set (E0 := exp (L * (t1 - t0))). assert (PE : 0 < E0) by apply exp_pos.
  exists (E0 * (1 + W * (t1 - t0))), (Rmin 1 (/ (2 * (K * A + 1)))).
  assert (PWT : 0 <= W * (t1 - t0)) by (apply Rmult_le_pos; lra).
  split; [apply Rmult_lt_0_compat; lra|]. split; [apply Rmin_pos; [lra|apply Rinv_0_lt_compat; lra]|].
  intros d hs y y' e Hd Pe Hh Hs Hr Hy i.
  assert (d1 : d <= 1) by (destruct Hd as [_ Hd]; pose proof (Rmin_l 1 (/ (2 * (K * A + 1)))); lra).
  assert (d2 : d * (K * A) <= 1 / 2).
  { apply Rle_trans with (/ (2 * (K * A + 1)) * (K * A)).
    - apply Rmult_le_compat_r; auto. destruct Hd as [_ Hd]. eapply Rle_trans; [exact Hd|apply Rmin_r].
    - apply Rmult_le_reg_l with (2 * (K * A + 1)); [lra|]. rewrite <- Rmult_assoc, Rinv_r by lra. lra. }
  set (eta := d ^ p * W). assert (Pdp : 0 <= d ^ p) by (apply pow_le; lra). assert (Peta : 0 <= eta) by (unfold eta; now apply Rmult_le_pos).
  assert (Tp : forall r, (forall h, In h r -> 0 <= h <= d) -> 0 <= total r).
  { induction r as [|b r IHr]; intros Hb; cbn [total]; [lra|]. specialize (IHr ltac:(intros; apply Hb; now right)). specialize (Hb b (or_introl eq_refl)). lra. }
  assert (Main : forall hs t y y' e, 0 <= e -> t0 <= t -> (forall h, In h hs -> 0 <= h <= d) -> t + total hs <= t1 -> rk_run T F t y hs y' ->
    (forall i, Rabs (y i - x i t) <= e) -> forall i, Rabs (y' i - x i (t + total hs)) <= exp (L * total hs) * (e + eta * total hs)).
  { clear y y' e hs Hh Hs Hr Hy Pe i. induction hs as [|h hs IH]; intros t y y' e Pe Ht Hh Hs Hr Hy i.
    - cbn [total] in *. rewrite Hr, Rmult_0_r, exp_0, Rplus_0_r, Rmult_0_r. specialize (Hy i). lra.
    - cbn [total] in *. destruct Hr as (y1 & (k & Sk & Sy) & Hr). assert (Ph := Hh h (or_introl eq_refl)).
      assert (Pt : 0 <= total hs) by (apply Tp; intros; apply Hh; now right).
      assert (Hhd : h * (K * A) <= 1 / 2) by (eapply Rle_trans; [apply Rmult_le_compat_r; [auto|exact (proj2 Ph)]|auto]).
      assert (Sk' : forall i q, (i < rs T)%nat -> k i q = Fa (stage T h y k i) q).
      { intros j q Hj. rewrite (Sk j q Hj). apply HF. destruct HT as [_ HC]. specialize (HC j Hj).
        split; [pose proof (Rmult_le_pos (rc T j) h); lra|]. assert (rc T j * h <= 1 * h) by (apply Rmult_le_compat_r; lra). lra. }
      set (e' := (1 + h * L) * e + h * eta).
      assert (Hy1 : forall i, Rabs (y1 i - x i (t + h)) <= e').
      { intros j. eapply Rle_trans; [apply (one_step I t0 t1 l Fa HO HA K HK HLa T x HXa B PB HBa p HP t h y k y1 e); auto; lra|].
        fold A be R1 Ks. unfold e', eta. fold L W. apply Rplus_le_compat_l, Rmult_le_compat_l; [lra|]. apply Rmult_le_compat_r; auto. apply pow_incr. lra. }
      assert (Pe' : 0 <= e') by (unfold e'; apply Rplus_le_le_0_compat; [apply Rmult_le_pos; auto; pose proof (Rmult_le_pos h L); lra|apply Rmult_le_pos; lra]).
      replace (t + (h + total hs)) with (t + h + total hs) by ring.
      eapply Rle_trans; [apply (IH (t + h) y1 y' e'); auto; try lra; intros; apply Hh; now right|].
      replace (L * (h + total hs)) with (L * h + L * total hs) by ring. rewrite exp_plus, (Rmult_comm (exp (L * h))), Rmult_assoc.
      apply Rmult_le_compat_l; [left; apply exp_pos|].
      assert (X : 1 + h * L <= exp (L * h)). { pose proof (exp_ineq1_le (L * h)). lra. }
      assert (X1 : 1 <= exp (L * h)) by (assert (0 <= h * L) by (apply Rmult_le_pos; lra); lra).
      unfold e'. apply Rle_trans with (exp (L * h) * e + h * eta + eta * total hs).
      + apply Rplus_le_compat_r, Rplus_le_compat_r. apply Rmult_le_compat_r; auto.
      + assert (Y : 0 <= eta * h + eta * total hs) by (apply Rplus_le_le_0_compat; apply Rmult_le_pos; lra).
        assert (1 * (eta * h + eta * total hs) <= exp (L * h) * (eta * h + eta * total hs)) by (apply Rmult_le_compat_r; auto). lra. }
  eapply Rle_trans; [apply (Main hs t0 y y' e); auto; lra|].
  assert (Pt := Tp hs Hh). assert (TW : total hs <= t1 - t0) by lra.
  assert (X1 : exp (L * total hs) <= E0).
  { assert (Q1 : L * total hs <= L * (t1 - t0)) by (apply Rmult_le_compat_l; auto).
    destruct (Rle_lt_or_eq_dec _ _ Q1) as [Q2|Q2]; [left; now apply exp_increasing|right; unfold E0; now rewrite Q2]. }
  rewrite Rmult_assoc. apply Rmult_le_compat; [left; apply exp_pos| |auto|].
  - assert (0 <= eta * total hs) by now apply Rmult_le_pos. lra.
  - assert (eta * total hs <= eta * (t1 - t0)) by (apply Rmult_le_compat_l; auto).
    unfold eta in *. assert (0 <= W * (t1 - t0) * e) by now apply Rmult_le_pos. nra.
Qed.
End G.
