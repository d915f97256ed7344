(** C139: which time integration keeps the L2 stability of the slab equations. *)
From Coquelicot Require Import Coquelicot.
From Coq Require Import FunctionalExtensionality Classical_Prop.
From Verif Require Import Py PyLemmas Calc Legendre DGModel DGSpec DGProofs DGInt DGBalance StabSpec StabThms StabProofs ExistProofs RhsModel SphSpec SphExist ExistThms TimeModel TimeProofs TimeStab TimeThms.

Section Sum.
Variables (c : flux_cfg) (N_ang : nat) (ws : nat -> R).
Definition wsum (f : idx -> R) : R := sumn N_ang (fun a => ws a * sumn (fN c) (fun s => sumn (fM c + 1) (fun i => f (a, s, i)))).
Lemma wsum_plus f g : wsum (fun p => f p + g p) = wsum f + wsum g.
Proof.
  unfold wsum. rewrite <- sumn_plus. apply sumn_ext. intros a Ha. rewrite <- Rmult_plus_distr_l. f_equal. rewrite <- sumn_plus. apply sumn_ext. intros s Hs. apply sumn_plus.
Qed.
Lemma wsum_scal k f : wsum (fun p => k * f p) = k * wsum f.
Proof.
  unfold wsum. rewrite <- sumn_scal. apply sumn_ext. intros a Ha. rewrite <- !Rmult_assoc, (Rmult_comm k), Rmult_assoc. f_equal. rewrite <- sumn_scal. apply sumn_ext. intros s Hs. apply sumn_scal.
Qed.
Lemma wsum_ext f g : (forall p, f p = g p) -> wsum f = wsum g.
Proof. intros H. unfold wsum. apply sumn_ext. intros a _. f_equal. apply sumn_ext. intros s _. apply sumn_ext. intros; apply H. Qed.
Lemma wsum_nonneg f : (forall a, (a < N_ang)%nat -> 0 <= ws a) -> (forall p, 0 <= f p) -> 0 <= wsum f.
Proof. intros Hw H. apply sumn_nonneg. intros a Ha. apply Rmult_le_pos; [auto|]. apply sumn_nonneg. intros s _. apply sumn_nonneg. auto. Qed.
Lemma energy_wsum e (y z : idx -> R) : increasing (fN c) e -> energy c N_ang ws e (fun a s j => y (a, s, j) - z (a, s, j)) = wsum (fun p => (y p - z p) * (y p - z p)).
Proof.
  intros He. unfold energy, wsum. apply sumn_ext. intros a Ha. rewrite normsq_coef by auto. f_equal. apply sumn_ext. intros s _. apply sumn_ext. intros i _. ring.
Qed.
End Sum.
Lemma slabR_ext c E D A ws mus cc S0 st t y z : (forall p, y p = z p) -> forall p, slabR c E D A ws mus cc S0 st t y p = slabR c E D A ws mus cc S0 st t z p.
Proof. intros H. replace z with y by (now apply functional_extensionality). reflexivity. Qed.
(** the right-hand side is dissipative: at any moment of any mesh motion *)
Lemma slab_diss c E D A ws mus cc S0 st st' t y z : fgeom c = Slab -> (2 <= fN c)%nat -> increasing (fN c) (fun k => E k t) ->
  (forall k, (k <= fN c)%nat -> is_derive (E k) t (D k t)) -> (forall a, (a < A)%nat -> 0 <= ws a) -> sumn A ws = 1 -> 0 <= cc ->
  wsum c A ws (fun p => (y p - z p) * (slabR c E D A ws mus cc S0 st t y p - slabR c E D A ws mus cc S0 st' t z p)) <=
  - (1 - cc) * wsum c A ws (fun p => (y p - z p) * (y p - z p)).
Proof.
  intros Hg HN He HD Hw H1 Hc.
  pose (d := fun a s i => y (a, s, i) - z (a, s, i)).
  pose (r := fun a s i => slab_rhs (closed c) (st t a s) A ws mus cc t (fun k => E k t) (fun k => D k t) (fun _ => 0) d a s i).
  pose (V := fun a s i w => d a s i + (w - t) * r a s i).
  assert (Vt : (fun l k j => V l k j t) = d) by (unfold V; do 3 (apply functional_extensionality; intro); ring).
  assert (HV : forall a s i, (a < A)%nat -> (s < fN (closed c))%nat -> (i <= fM (closed c))%nat ->
    is_derive (V a s i) t (slab_rhs (closed c) (st t a s) A ws mus cc t (fun k => E k t) (fun k => D k t) (fun _ => 0) (fun l k j => V l k j t) a s i)).
  { intros a s i _ _ _. rewrite Vt. unfold V. eapply dd_eq; [apply dd_plus; [apply dd_const|apply (dd_mult (fun w => w - t) (fun _ => r a s i)); [apply dd_minus; [apply dd_id|apply dd_const]|apply dd_const]]|]. unfold r. ring. }
  destruct (energy_rate (closed c) t E (fun k => D k t) Hg HN He HD (closed_l c t) (closed_r c t) A ws mus cc (st t) V HV Hw H1 Hc) as (dd & Hd & Hn).
  assert (Hd2 : is_derive (fun w => sumn A (fun a => ws a * normsq (closed c) (fun k => E k w) (fun s j => V a s j w))) t
     (2 * wsum c A ws (fun p => (y p - z p) * (slabR c E D A ws mus cc S0 st t y p - slabR c E D A ws mus cc S0 st' t z p)))).
  { eapply dd_eq.
    - apply (dd_sumn A (fun a w => ws a * normsq (closed c) (fun k => E k w) (fun s j => V a s j w))). intros a Ha. apply dd_scal.
      apply (norm_derive (closed c) t E (fun k => D k t) HN He HD (fun s j => V a s j)). intros s i Hs Hi. exact (HV a s i Ha Hs Hi).
    - cbv beta. rewrite Vt. unfold wsum. rewrite <- sumn_scal. apply sumn_ext. intros a Ha. rewrite <- Rmult_assoc, (Rmult_comm 2), Rmult_assoc. f_equal.
      rewrite <- sumn_scal. apply sumn_ext. intros s Hs. rewrite <- sumn_scal. apply sumn_ext. intros i Hi. cbn [fM closed] in Hi. cbn [fN closed] in Hs.
      assert (Hi' : (i <= fM c)%nat) by lia. unfold slabR. rewrite (proj2 (active_iff _ _ _ a s i) (conj Ha (conj Hs Hi'))).
      rewrite (rhs_minus c t (fun k => E k t) (fun k => D k t) Hg HN He (st t a s) (st' t a s) A ws mus cc (fun j => S0 s j t) (fun l k j => y (l, k, j)) (fun l k j => z (l, k, j)) a s i Hs).
      unfold V. fold d. unfold d at 1. ring. }
  assert (EQ := is_derive_unique _ _ _ Hd). rewrite (is_derive_unique _ _ _ Hd2) in EQ. rewrite <- EQ in Hn.
  enough (X : sumn A (fun a => ws a * normsq (closed c) (fun k => E k t) (fun s j => V a s j t)) = wsum c A ws (fun p => (y p - z p) * (y p - z p))) by (rewrite X in Hn; lra).
  unfold wsum. apply sumn_ext. intros a Ha. f_equal. rewrite normsq_coef by exact He. apply sumn_ext. intros s _. apply sumn_ext. intros i _.
  unfold V, d. ring.
Qed.
(** Two runs of an algebraically stable method with the same steps, whatever their lengths, never move apart; the mesh
    may move in any way, sources and boundary data are the same. *)
Theorem C139_contractive : forall T c E D N_ang ws mus cc S0 st st' t0 t1 hs y y' z z', algebraically_stable T -> consistent T ->
  fgeom c = Slab -> (2 <= fN c)%nat -> mesh_ok c E D t0 t1 ->
  (forall a, (a < N_ang)%nat -> 0 <= ws a) -> sumn N_ang ws = 1 -> 0 <= cc <= 1 ->
  (forall h, In h hs -> 0 <= h) -> t0 + total hs <= t1 ->
  rk_run T (slabR c E D N_ang ws mus cc S0 st) t0 y hs y' -> rk_run T (slabR c E D N_ang ws mus cc S0 st') t0 z hs z' ->
  energy c N_ang ws (fun k => E k (t0 + total hs)) (fun a s j => y' (a, s, j) - z' (a, s, j)) <= energy c N_ang ws (fun k => E k t0) (fun a s j => y (a, s, j) - z (a, s, j)).
Proof.
  intros T c E D N_ang ws mus cc S0 st st' t0 t1 hs y y' z z' HA [_ Hc] Hg HN HM Hw H1 Hcc Hh Hs Ry Rz.
  assert (P : 0 <= total hs). { clear -Hh. induction hs as [|a hs IH]; cbn [total]; [lra|]. assert (0 <= a) by (apply Hh; now left). assert (0 <= total hs) by (apply IH; intros x Hx; apply Hh; now right). lra. }
  rewrite !energy_wsum by (apply HM; lra).
  apply (run_dist idx (wsum c N_ang ws) (wsum_plus c N_ang ws) (wsum_scal c N_ang ws) (fun f => wsum_nonneg c N_ang ws f Hw) (wsum_ext c N_ang ws)
    (slabR c E D N_ang ws mus cc S0 st) (slabR c E D N_ang ws mus cc S0 st') t0 t1 (1 - cc)) with (T := T) (hs := hs) (t := t0); auto; try lra.
  intros t u v Ht. destruct (HM t Ht). apply slab_diss; auto. lra.
Qed.
Print Assumptions C139_contractive.
(** Without sources and with nothing entering, the squared norm itself never grows. *)
Lemma zero_run T c E D N_ang ws mus cc st t0 t1 : fgeom c = Slab -> (2 <= fN c)%nat -> mesh_ok c E D t0 t1 -> consistent T ->
  (forall t, t0 <= t <= t1 -> ~ left_on c t /\ ~ right_on c t) ->
  forall hs t, t0 <= t -> (forall h, In h hs -> 0 <= h) -> t + total hs <= t1 ->
  rk_run T (slabR c E D N_ang ws mus cc (fun _ _ _ => 0) st) t (fun _ => 0) hs (fun _ => 0).
Proof.
  intros Hg HN HM [_ HT] HB. induction hs as [|h hs IH]; intros t Ht Hh Hs; [intros p; reflexivity|].
  cbn [total] in Hs. assert (Hh0 := Hh h (or_introl eq_refl)).
  assert (P : 0 <= total hs). { clear -Hh. induction hs as [|a hs IH]; cbn [total]; [lra|]. assert (0 <= a) by (apply (Hh a); right; now left). assert (0 <= total hs); [|lra]. apply IH. intros x [->|Hx]; apply Hh; [now left|right; now right]. }
  exists (fun _ => 0). split; [|apply IH; try lra; intros x Hx; apply Hh; now right].
  exists (fun _ _ => 0). split; [|intros p; rewrite sumn_zero; [ring|intros; ring]].
  intros i [[a s] j] Hi. specialize (HT i Hi).
  assert (Ti : t0 <= t + rc T i * h <= t1) by (assert (0 <= rc T i * h <= 1 * h) by (split; [apply Rmult_le_pos; lra|apply Rmult_le_compat_r; lra]); lra).
  set (tt := t + rc T i * h) in *. unfold slabR.
  replace (fun l k j : nat => stage T h (fun _ : idx => 0) (fun _ _ => 0) i (l, k, j)) with (fun l k j : nat => 0).
  2: { do 3 (apply functional_extensionality; intro). unfold stage. rewrite sumn_zero; [ring|]. intros; ring. }
  destruct (active N_ang (fN c) (fM c) (a, s, j)) eqn:Q; [|reflexivity]. apply active_iff in Q. destruct Q as (Ha & Hs' & Hj).
  destruct (HM tt Ti) as [He HD]. destruct (HB tt Ti) as [L R0].
  unfold slab_rhs. cbv zeta.
  destruct (LU_formula c tt (fun k => E k tt) (fun k => D k tt) (fun _ _ => 0) (mus a) (fun _ => 0) HN He (st tt a s) s j Hs') as (vl & vr & F1 & F2 & ->).
  assert (Z : forall f v, (f <= fN c)%nat -> face c tt (fun k => E k tt) (fun k => D k tt) (fun _ _ => 0) (mus a) (fun _ => 0) f v -> v = 0).
  { intros f v Hf F. apply (face_fun c tt (fun k => E k tt) (fun k => D k tt) (fun _ _ => 0) (mus a) (fun _ => 0) HN He f v 0 F).
    assert (Z0 : forall x y z, field (fgeom c) (fM c) (fun _ => 0) x y z = 0) by (intros; unfold field; apply sumn_zero; intros; ring).
    destruct (Rle_lt_dec 0 (mus a - D f tt)) as [P1|P1].
    - destruct f as [|k]; [apply face_in_l; auto; now apply il_vac|]. assert (X := face_from_left c tt (fun k => E k tt) (fun k => D k tt) (fun _ _ => 0) (mus a) (fun _ => 0) k P1 ltac:(lia)). cbv beta in X. rewrite Z0 in X. exact X.
    - destruct (Nat.eq_dec f (fN c)) as [->|N]; [apply face_in_r; auto; now apply ir_vac|].
      assert (X := face_from_right c tt (fun k => E k tt) (fun k => D k tt) (fun _ _ => 0) (mus a) (fun _ => 0) f P1 ltac:(lia)). cbv beta in X. rewrite Z0 in X. exact X. }
  rewrite (Z s vl) by (auto; lia). rewrite (Z (S s) vr) by (auto; lia). unfold dotv, make_P. rewrite !sumn_zero by (intros; ring). field.
Qed.
Theorem C139_energy : forall T c E D N_ang ws mus cc st t0 t1 hs y y', algebraically_stable T -> consistent T ->
  fgeom c = Slab -> (2 <= fN c)%nat -> mesh_ok c E D t0 t1 -> (forall t, t0 <= t <= t1 -> ~ left_on c t /\ ~ right_on c t) ->
  (forall a, (a < N_ang)%nat -> 0 <= ws a) -> sumn N_ang ws = 1 -> 0 <= cc <= 1 ->
  (forall h, In h hs -> 0 <= h) -> t0 + total hs <= t1 ->
  rk_run T (slabR c E D N_ang ws mus cc (fun _ _ _ => 0) st) t0 y hs y' ->
  energy c N_ang ws (fun k => E k (t0 + total hs)) (fun a s j => y' (a, s, j)) <= energy c N_ang ws (fun k => E k t0) (fun a s j => y (a, s, j)).
Proof.
  intros T c E D N_ang ws mus cc st t0 t1 hs y y' HA HT Hg HN HM HB Hw H1 Hc Hh Hs Ry.
  pose proof (C139_contractive T c E D N_ang ws mus cc (fun _ _ _ => 0) st st t0 t1 hs y y' (fun _ => 0) (fun _ => 0) HA HT Hg HN HM Hw H1 Hc Hh Hs Ry
    (zero_run T c E D N_ang ws mus cc st t0 t1 Hg HN HM HT HB hs t0 ltac:(lra) Hh Hs)) as K.
  cbv beta in K.
  replace (fun a s j : nat => y' (a, s, j) - 0) with (fun a s j => y' (a, s, j)) in K by (do 3 (apply functional_extensionality; intro); ring).
  replace (fun a s j : nat => y (a, s, j) - 0) with (fun a s j => y (a, s, j)) in K by (do 3 (apply functional_extensionality; intro); ring). exact K.
Qed.
Print Assumptions C139_energy.
(** The implicit Euler method damps the distance at least by 1 + 2 h (1 - c) in a step of length h. *)
Theorem C139_implicit_euler : forall c E D N_ang ws mus cc S0 st st' t0 t1 hs y y' z z',
  fgeom c = Slab -> (2 <= fN c)%nat -> mesh_ok c E D t0 t1 ->
  (forall a, (a < N_ang)%nat -> 0 <= ws a) -> sumn N_ang ws = 1 -> 0 <= cc <= 1 ->
  (forall h, In h hs -> 0 <= h) -> t0 + total hs <= t1 ->
  rk_run implicit_euler (slabR c E D N_ang ws mus cc S0 st) t0 y hs y' -> rk_run implicit_euler (slabR c E D N_ang ws mus cc S0 st') t0 z hs z' ->
  energy c N_ang ws (fun k => E k (t0 + total hs)) (fun a s j => y' (a, s, j) - z' (a, s, j)) * fold_right Rmult 1 (map (fun h => 1 + 2 * h * (1 - cc)) hs) <=
  energy c N_ang ws (fun k => E k t0) (fun a s j => y (a, s, j) - z (a, s, j)).
Proof.
  intros c E D N_ang ws mus cc S0 st st' t0 t1 hs. revert t0.
  induction hs as [|h hs IH]; intros t0 y y' z z' Hg HN HM Hw H1 Hc Hh Hs Ry Rz.
  - cbn [total map fold_right] in *. rewrite Rplus_0_r in *. cbn [rk_run] in Ry, Rz.
    rewrite Rmult_1_r, !energy_wsum by (apply HM; lra). right. apply wsum_ext. intros p. now rewrite Ry, Rz.
  - destruct Ry as (y1 & S1 & R1). destruct Rz as (z1 & S2 & R2). cbn [total] in Hs. assert (Hh0 := Hh h (or_introl eq_refl)).
    assert (P : 0 <= total hs). { clear -Hh. induction hs as [|a hs IH]; cbn [total]; [lra|]. assert (0 <= a) by (apply (Hh a); right; now left). assert (0 <= total hs); [|lra]. apply IH. intros x [->|Hx]; apply Hh; [now left|right; now right]. }
    assert (K := IH (t0 + h) y1 y' z1 z' Hg HN ltac:(intros t Ht; apply HM; lra) Hw H1 Hc ltac:(intros x Hx; apply Hh; now right) ltac:(lra) R1 R2).
    assert (K2 : energy c N_ang ws (fun k => E k (t0 + h)) (fun a s j => y1 (a, s, j) - z1 (a, s, j)) * (1 + 2 * h * (1 - cc)) <= energy c N_ang ws (fun k => E k t0) (fun a s j => y (a, s, j) - z (a, s, j))).
    { rewrite !energy_wsum by (apply HM; lra).
      apply (implicit_euler_step idx (wsum c N_ang ws) (wsum_plus c N_ang ws) (wsum_scal c N_ang ws) (fun f => wsum_nonneg c N_ang ws f Hw) (wsum_ext c N_ang ws)
        (slabR c E D N_ang ws mus cc S0 st) (slabR c E D N_ang ws mus cc S0 st') t0 t1 (1 - cc)) with (t := t0); auto; try lra.
      - intros t u v Ht. destruct (HM t Ht). apply slab_diss; auto. lra.
      - intros; now apply slabR_ext.
      - intros; now apply slabR_ext. }
    cbn [map fold_right total]. replace (t0 + (h + total hs)) with (t0 + h + total hs) by ring.
    assert (0 <= 1 + 2 * h * (1 - cc)) by nra. nra.
Qed.
Print Assumptions C139_implicit_euler.
Lemma implicit_euler_stable : algebraically_stable implicit_euler /\ consistent implicit_euler.
Proof.
  split; split; cbn; try (intros; lra). intros v. pose proof (pow2_ge_0 (v 0%nat)). lra.
Qed.
(** the method of scipy's 'Radau' *)
Definition radau : tableau := Tab 3
  (fun i j => nth j (nth i [[(88 - 7 * sqrt 6) / 360; (296 - 169 * sqrt 6) / 1800; (-2 + 3 * sqrt 6) / 225];
                           [(296 + 169 * sqrt 6) / 1800; (88 + 7 * sqrt 6) / 360; (-2 - 3 * sqrt 6) / 225];
                           [(16 - sqrt 6) / 36; (16 + sqrt 6) / 36; 1 / 9]] []) 0)
  (fun i => nth i [(16 - sqrt 6) / 36; (16 + sqrt 6) / 36; 1 / 9] 0) (fun i => nth i [(4 - sqrt 6) / 10; (4 + sqrt 6) / 10; 1] 0).
Lemma sqrt6 : sqrt 6 * sqrt 6 = 6 /\ 2 < sqrt 6 < 3.
Proof.
  assert (H : sqrt 6 * sqrt 6 = 6) by (apply sqrt_sqrt; lra). pose proof (sqrt_pos 6). split; auto. split; nra.
Qed.
Theorem C139_radau : algebraically_stable radau /\ consistent radau.
Proof.
  destruct sqrt6 as [S2 B]. set (s := sqrt 6) in *. unfold radau. fold s. split; split.
  - intros i Hi. cbn in Hi. do 3 (destruct i as [|i]; [cbn; lra|]). lia.
  - intros v. cbn [rs rA rb sumn nth].
    match goal with |- 0 <= ?x => replace x with (/ 81 * ((s - 1) / 2 * v 0%nat - (s + 1) / 2 * v 1%nat + v 2%nat) ^ 2) end.
    + apply Rmult_le_pos; [lra|apply pow2_ge_0].
    + assert (S3 : s ^ 2 = 6) by (cbn; rewrite Rmult_1_r; auto). field_simplify. rewrite ?S3. field.
  - cbn. field.
  - intros i Hi. cbn in Hi. do 3 (destruct i as [|i]; [cbn; lra|]). lia.
Qed.
Print Assumptions C139_radau.
(** ** explicit methods *)
(** polynomials bounded on the negative half line are constant *)
Lemma poly_top n (a : nat -> R) B : (forall z, z <= 0 -> Rabs (sumn (S n) (fun k => a k * z ^ k)) <= B) -> (1 <= n)%nat -> a n = 0.
Proof.
  intros H Hn. set (C := B + sumn n (fun k => Rabs (a k))).
  assert (K : forall Z, 1 <= Z -> Rabs (a n) * Z <= C).
  { intros Z HZ. assert (P : forall k, 1 <= Z ^ k) by (intros k; apply pow_R1_Rle; auto).
    assert (B0 : 0 <= B) by (eapply Rle_trans; [apply Rabs_pos|apply (H 0); lra]).
    assert (X : Rabs (a n * (- Z) ^ n) <= B + sumn n (fun k => Rabs (a k)) * Z ^ (n - 1)).
    { specialize (H (- Z) ltac:(lra)). cbn [sumn] in H.
      assert (Y : Rabs (sumn n (fun k => a k * (- Z) ^ k)) <= sumn n (fun k => Rabs (a k)) * Z ^ (n - 1)).
      { eapply Rle_trans; [apply sumn_abs|]. rewrite <- sumn_scal_r. apply sumn_le. intros k Hk. rewrite Rabs_mult, <- RPow_abs, Rabs_Ropp, (Rabs_pos_eq Z) by lra.
        apply Rmult_le_compat_l; [apply Rabs_pos|]. replace (n - 1)%nat with (k + (n - 1 - k))%nat by lia. rewrite pow_add. specialize (P (n - 1 - k)%nat).
        assert (0 <= Z ^ k) by (apply pow_le; lra). rewrite <- (Rmult_1_r (Z ^ k)) at 1. apply Rmult_le_compat_l; auto. }
      set (u := sumn n _) in *. set (v := a n * (- Z) ^ n) in *. unfold Rabs in *. repeat destruct (Rcase_abs _); lra. }
    rewrite Rabs_mult, <- RPow_abs, Rabs_Ropp, (Rabs_pos_eq Z) in X by lra.
    replace n with (S (n - 1)) in X at 2 by lia. cbn [pow] in X. specialize (P (n - 1)%nat).
    apply (Rmult_le_reg_r (Z ^ (n - 1))); [lra|]. unfold C. assert (B <= B * Z ^ (n - 1)) by nra. rewrite Rmult_plus_distr_r. lra. }
  destruct (Req_dec (a n) 0) as [|N]; auto. exfalso. assert (P := Rabs_pos_lt _ N).
  assert (C0 : 0 <= C) by (eapply Rle_trans; [|apply (K 1); lra]; rewrite Rmult_1_r; lra).
  specialize (K (C / Rabs (a n) + 1)). assert (0 <= C / Rabs (a n)) by (apply Rmult_le_pos; [auto|left; now apply Rinv_0_lt_compat]). specialize (K ltac:(lra)).
  replace (Rabs (a n) * (C / Rabs (a n) + 1)) with (C + Rabs (a n)) in K by (field; lra). lra.
Qed.
Lemma poly_bounded n : forall (a : nat -> R) B, (forall z, z <= 0 -> Rabs (sumn n (fun k => a k * z ^ k)) <= B) -> forall k, (1 <= k < n)%nat -> a k = 0.
Proof.
  induction n as [|n IH]; intros a B H k Hk; [lia|]. destruct (Nat.eq_dec k n) as [->|N]; [apply (poly_top n a B); auto; lia|].
  assert (Z := poly_top n a B H ltac:(lia)). apply (IH a B); [|lia]. intros z Hz. specialize (H z Hz). cbn [sumn] in H. now rewrite Z, Rmult_0_l, Rplus_0_r in H.
Qed.
Definition ispoly (f : R -> R) : Prop := exists n a, forall z, f z = sumn n (fun k => a k * z ^ k).
Lemma pad n m (a : nat -> R) z : (n <= m)%nat -> sumn n (fun k => a k * z ^ k) = sumn m (fun k => (if (k <? n)%nat then a k else 0) * z ^ k).
Proof.
  intros H. induction H as [|m H IH].
  - apply sumn_ext. intros k Hk. now rewrite (proj2 (Nat.ltb_lt k n) Hk).
  - cbn [sumn]. rewrite (proj2 (Nat.ltb_ge m n) H). rewrite <- IH. ring.
Qed.
Lemma poly_const x : ispoly (fun _ => x).
Proof. exists 1%nat, (fun _ => x). intros z. cbn. ring. Qed.
Lemma poly_plus f g : ispoly f -> ispoly g -> ispoly (fun z => f z + g z).
Proof.
  intros (n & a & Ha) (m & b & Hb). exists (n + m)%nat, (fun k => (if (k <? n)%nat then a k else 0) + (if (k <? m)%nat then b k else 0)). intros z.
  rewrite Ha, Hb, (pad n (n + m) a z), (pad m (n + m) b z) by lia. rewrite <- sumn_plus. apply sumn_ext. intros; ring.
Qed.
Lemma poly_scal x f : ispoly f -> ispoly (fun z => x * f z).
Proof. intros (n & a & Ha). exists n, (fun k => x * a k). intros z. rewrite Ha, <- sumn_scal. apply sumn_ext. intros; ring. Qed.
Lemma poly_shift f : ispoly f -> ispoly (fun z => z * f z).
Proof.
  intros (n & a & Ha). exists (S n), (fun k => match k with 0%nat => 0 | S k => a k end). intros z. rewrite Ha, sumn_S_l, <- sumn_scal, Rmult_0_l, Rplus_0_l. apply sumn_ext. intros k Hk. cbn [pow]. ring.
Qed.
Lemma poly_sumn n (f : nat -> R -> R) : (forall i, (i < n)%nat -> ispoly (f i)) -> ispoly (fun z => sumn n (fun i => f i z)).
Proof. induction n as [|n IH]; intros H; cbn [sumn]; [apply poly_const|]. apply (poly_plus (fun z => sumn n (fun i => f i z)) (f n)); auto. Qed.
(** the slopes for y' = y and the step z: K i z *)
Fixpoint slopes (T : tableau) (m : nat) (i : nat) (z : R) : R :=
  match m with 0%nat => 0 | S m => 1 + z * sumn (rs T) (fun j => rA T i j * slopes T m j z) end.
Lemma slopes_poly T m i : ispoly (slopes T m i).
Proof.
  revert i. induction m as [|m IH]; intros i; cbn [slopes]; [apply poly_const|].
  apply (poly_plus (fun _ => 1) (fun z => z * sumn (rs T) (fun j => rA T i j * slopes T m j z))); [apply poly_const|]. apply (poly_shift (fun z => sumn (rs T) (fun j => rA T i j * slopes T m j z))).
  apply (poly_sumn (rs T) (fun j z => rA T i j * slopes T m j z)). intros j Hj. apply (poly_scal (rA T i j) (slopes T m j)). apply IH.
Qed.
Lemma slopes_stable T z : explicit T -> forall m i, (i < m)%nat -> (i < rs T)%nat -> slopes T (S m) i z = slopes T m i z.
Proof.
  intros HE. induction m as [|m IH]; intros i Hi Hr; [lia|].
  change (1 + z * sumn (rs T) (fun j => rA T i j * slopes T (S m) j z) = 1 + z * sumn (rs T) (fun j => rA T i j * slopes T m j z)).
  f_equal. f_equal. apply sumn_ext. intros j Hj. destruct (Nat.lt_ge_cases j i) as [L|L]; [f_equal; apply IH; lia|]. rewrite HE by lia. ring.
Qed.
Definition growth (T : tableau) (z : R) : R := 1 + z * sumn (rs T) (fun i => rb T i * slopes T (rs T) i z).
Lemma growth_unbounded T : explicit T -> consistent T -> exists z, z < 0 /\ 1 < Rabs (growth T z).
Proof.
  intros HE [Hb _]. destruct (classic (exists z, z < 0 /\ 1 < Rabs (growth T z))) as [|N]; auto. exfalso.
  assert (HG : forall z, z <= 0 -> Rabs (growth T z) <= 1).
  { intros z Hz. destruct (Rle_lt_dec (Rabs (growth T z)) 1) as [|L]; auto. exfalso. destruct (Req_dec z 0) as [->|Z].
    - unfold growth in L. rewrite Rmult_0_l, Rplus_0_r, Rabs_R1 in L. lra.
    - apply N. exists z. split; [lra|auto]. }
  assert (Pg : ispoly (fun z => sumn (rs T) (fun i => rb T i * slopes T (rs T) i z))).
  { apply (poly_sumn (rs T) (fun i z => rb T i * slopes T (rs T) i z)). intros i Hi. apply (poly_scal (rb T i) (slopes T (rs T) i)). apply slopes_poly. }
  destruct Pg as (n & a & Ha).
  assert (S0 : forall i, (i < rs T)%nat -> slopes T (rs T) i 0 = 1) by (intros i Hi; destruct (rs T); [lia|cbn [slopes]; ring]).
  assert (G0 : sumn n (fun k => a k * 0 ^ k) = 1).
  { rewrite <- Ha, <- Hb. apply sumn_ext. intros i Hi. rewrite S0 by auto. ring. }
  destruct n as [|n]; [cbn in G0; lra|].
  assert (A0 : a 0%nat = 1). { rewrite sumn_S_l in G0. rewrite sumn_zero in G0; [cbn in G0; lra|]. intros k Hk. cbn [pow]. ring. }
  assert (X := poly_bounded (S (S n)) (fun k => match k with 0%nat => 1 | S k => a k end) 1).
  enough (a 0%nat = 0) by lra. apply (X ltac:(intros z Hz; specialize (HG z Hz); unfold growth in HG; rewrite Ha in HG; rewrite sumn_S_l; cbn [pow]; rewrite Rmult_1_r;
    rewrite (sumn_ext _ _ (fun k => z * (a k * z ^ k))) by (intros; cbn [pow]; ring); rewrite sumn_scal; exact HG) 1%nat). lia.
Qed.
(** two unit cells at rest, direction 1, scattering ratio 1/2: a state which fills only the right cell decays there *)
Definition right_cell (x : R) (p : idx) : R := let '(a, s, i) := p in if ((a =? 0) && (s =? 1) && (i =? 0))%nat then x else 0.
Lemma right_rhs t x p : slabR sC sE (fun _ _ => 0) 1 (fun _ => 1) (fun _ => 1) (1 / 2) (fun _ _ _ => 0) (fun _ _ _ => s0) t (right_cell x) p = right_cell (- (3 / 2) * x) p.
Proof.
  destruct p as [[a s] i]. unfold slabR. destruct (active 1 (fN sC) (fM sC) (a, s, i)) eqn:Q.
  2: { unfold right_cell. destruct (Nat.eqb_spec a 0); cbn [andb]; auto. destruct (Nat.eqb_spec s 1); cbn [andb]; auto. destruct (Nat.eqb_spec i 0); auto. subst. discriminate. }
  apply active_iff in Q. cbn [fN fM sC] in Q. assert (a = 0 /\ i = 0 /\ (s < 2))%nat as (-> & -> & Hs) by lia.
  unfold slab_rhs. cbv zeta.
  set (u := fun k j : nat => right_cell x (0%nat, k, j)).
  destruct (LU_formula sC t (fun k => sE k t) (fun _ => 0) u 1 (fun _ => 0) ltac:(cbn; lia) (sE_incr t) s0 s 0%nat Hs) as (vl & vr & F1 & F2 & ->).
  assert (P : 0 <= 1 - 0) by lra.
  pose proof (face_fun sC t (fun k => sE k t) (fun _ => 0) u 1 (fun _ => 0) ltac:(cbn; lia) (sE_incr t)) as FF.
  assert (vr = u s 0%nat) as ->.
  { rewrite (FF _ _ _ F2 (face_from_left sC t (fun k => sE k t) (fun _ => 0) u 1 (fun _ => 0) s P Hs)).
    unfold field. cbn [fgeom fM sC]. cbn [sumn Nat.add]. rewrite StabThms.basis0 by auto. ring. }
  assert (vl = 0) as ->.
  { destruct s as [|[|s]]; [| |lia].
    - apply (FF _ _ _ F1). apply face_in_l; [exact P|]. apply il_vac; [|reflexivity]. intros [X|[X _]]; discriminate.
    - rewrite (FF _ _ _ F1 (face_from_left sC t (fun k => sE k t) (fun _ => 0) u 1 (fun _ => 0) 0 P ltac:(cbn; lia))).
      unfold field, u. cbn [fgeom fM sC right_cell]. cbn [sumn Nat.add Nat.eqb andb]. ring. }
  rewrite !StabThms.basis0 by exact Hs. unfold dotv, make_P, G_slab, L_slab, L_const. cbn [fM sC Nat.add sumn wt fgeom Nat.eqb Nat.ltb Nat.leb].
  destruct s as [|[|s]]; [| |lia]; unfold u; cbn [right_cell Nat.eqb andb]; unfold sE; cbn [INR Nat.add]; field.
Qed.
(** Every explicit method lets the norm of some run of the decaying problem grow, if the step is long enough. *)
Theorem C139_explicit_grows : forall T, explicit T -> consistent T -> exists h y', 0 < h /\
  rk_step T (slabR sC sE (fun _ _ => 0) 1 (fun _ => 1) (fun _ => 1) (1 / 2) (fun _ _ _ => 0) (fun _ _ _ => s0)) 0 h (right_cell 1) y' /\
  energy sC 1 (fun _ => 1) (fun k => sE k 0) (fun a s j => right_cell 1 (a, s, j)) < energy sC 1 (fun _ => 1) (fun k => sE k h) (fun a s j => y' (a, s, j)).
Proof.
  intros T HE HT. destruct (growth_unbounded T HE HT) as (z & Hz & Hg).
  exists (- (2 / 3) * z), (right_cell (growth T z)). split; [lra|]. split.
  - exists (fun i => right_cell (- (3 / 2) * slopes T (rs T) i z)). split.
    + intros i p Hi.
      replace (stage T (- (2 / 3) * z) (right_cell 1) (fun i => right_cell (- (3 / 2) * slopes T (rs T) i z)) i) with (right_cell (slopes T (rs T) i z)).
      * now rewrite right_rhs.
      * apply functional_extensionality. intros [[a s] j]. unfold stage, right_cell. destruct ((a =? 0) && (s =? 1) && (j =? 0))%nat.
        -- rewrite <- (slopes_stable T z HE (rs T) i Hi Hi). cbn [slopes]. f_equal.
           rewrite <- !sumn_scal. apply sumn_ext. intros k Hk. field.
        -- rewrite sumn_zero; [ring|]. intros; ring.
    + intros [[a s] j]. unfold right_cell. destruct ((a =? 0) && (s =? 1) && (j =? 0))%nat.
      * unfold growth. f_equal. rewrite <- !sumn_scal. apply sumn_ext. intros k Hk. field.
      * rewrite sumn_zero; [ring|]. intros; ring.
  - unfold energy. cbn [sumn]. rewrite !normsq_coef by apply sE_incr. cbn [fN fM sC Nat.add sumn right_cell Nat.eqb andb].
    assert (1 < growth T z * growth T z) by (unfold Rabs in Hg; destruct (Rcase_abs _); nra). lra.
Qed.
Print Assumptions C139_explicit_grows.
Theorem C139_rk45_refuted : exists h y', 0 < h /\
  rk_step rk45 (slabR sC sE (fun _ _ => 0) 1 (fun _ => 1) (fun _ => 1) (1 / 2) (fun _ _ _ => 0) (fun _ _ _ => s0)) 0 h (right_cell 1) y' /\
  energy sC 1 (fun _ => 1) (fun k => sE k 0) (fun a s j => right_cell 1 (a, s, j)) < energy sC 1 (fun _ => 1) (fun k => sE k h) (fun a s j => y' (a, s, j)).
Proof. apply C139_explicit_grows; apply rk45_ok. Qed.
Print Assumptions C139_rk45_refuted.
(** a step of the implicit Euler method on the same problem: for every length it exists and damps *)
Example C139_example : forall h, 0 <= h -> rk_step implicit_euler (slabR sC sE (fun _ _ => 0) 1 (fun _ => 1) (fun _ => 1) (1 / 2) (fun _ _ _ => 0) (fun _ _ _ => s0)) 0 h (right_cell 1) (right_cell (/ (1 + 3 / 2 * h))).
Proof.
  intros h Hh. exists (fun _ => right_cell (- (3 / 2) * / (1 + 3 / 2 * h))). split.
  - intros i p Hi. replace (stage implicit_euler h (right_cell 1) (fun _ => right_cell (- (3 / 2) * / (1 + 3 / 2 * h))) i) with (right_cell (/ (1 + 3 / 2 * h))); [now rewrite right_rhs|].
    apply functional_extensionality. intros [[a s] j]. unfold stage, right_cell. destruct ((a =? 0) && (s =? 1) && (j =? 0))%nat; cbn; field; lra.
  - intros [[a s] j]. unfold right_cell. destruct ((a =? 0) && (s =? 1) && (j =? 0))%nat; cbn; field; lra.
Qed.
