(** The L2 norm of the slab solution on a moving mesh: exact rate of change, decay, dependence on the data. *)
From Verif Require Import Py PyLemmas Calc Legendre Cheb DGModel DGSpec DGProofs DGInt DGBalance StabSpec.

(** ** Quadratic forms *)
Lemma sumn_prod n m (f g : nat -> R) : sumn n (fun i => sumn m (fun j => f i * g j)) = sumn n f * sumn m g.
Proof. rewrite <- sumn_scal_r. apply sumn_ext. intros i _. apply sumn_scal. Qed.
Lemma quad_form n (A : nat -> nat -> R) (p q U : nat -> R) al be :
  (forall i j, (i < n)%nat -> (j < n)%nat -> A i j + A j i = al * (p i * p j) + be * (q i * q j)) ->
  sumn n (fun i => U i * dotv n A U i) = 1 / 2 * (al * sumn n (fun j => U j * p j) ^ 2 + be * sumn n (fun j => U j * q j) ^ 2).
Proof.
  intros H. unfold dotv.
  assert (E1 : sumn n (fun i => U i * sumn n (fun j => A i j * U j)) = sumn n (fun i => sumn n (fun j => U i * U j * A i j))).
  { apply sumn_ext. intros i _. rewrite <- sumn_scal. apply sumn_ext. intros; ring. }
  assert (E2 : sumn n (fun i => sumn n (fun j => U i * U j * A i j)) = sumn n (fun i => sumn n (fun j => U i * U j * A j i))).
  { rewrite sumn_swap. apply sumn_ext. intros i _. apply sumn_ext. intros; ring. }
  assert (E3 : sumn n (fun i => sumn n (fun j => U i * U j * A i j)) + sumn n (fun i => sumn n (fun j => U i * U j * A j i)) =
               al * sumn n (fun j => U j * p j) ^ 2 + be * sumn n (fun j => U j * q j) ^ 2).
  { rewrite <- sumn_plus. cbn [pow]. rewrite !Rmult_1_r, <- !sumn_prod, <- !sumn_scal, <- sumn_plus. apply sumn_ext. intros i Hi.
    rewrite <- sumn_plus, <- !sumn_scal, <- sumn_plus. apply sumn_ext. intros j Hj.
    transitivity (U i * U j * (A i j + A j i)); [ring|]. rewrite H by auto. ring. }
  rewrite E1. rewrite <- E2 in E3. lra.
Qed.

Lemma sq_h h : 0 < h -> sqrt h * sqrt h = h. Proof. intros. apply sqrt_sqrt. lra. Qed.
Lemma basis_prod h x y : 0 < h -> x / sqrt h * (y / sqrt h) = x * y / h.
Proof. intros H. assert (0 < sqrt h) by (apply sqrt_lt_R0; auto). rewrite <- (sq_h h H) at 3. field. lra. Qed.

Lemma L_sym a b i j : a < b -> L_slab a b i j + L_slab a b j i =
  1 * (basis Slab i b a b * basis Slab j b a b) + (-1) * (basis Slab i a a b * basis Slab j a a b).
Proof.
  intros H. rewrite !basis_slab_r, !basis_slab_l by auto.
  set (x := sqrt (2 * INR i + 1)). set (y := sqrt (2 * INR j + 1)). assert (Hh : 0 < b - a) by lra.
  replace ((-1) ^ i * (x / sqrt (b - a)) * ((-1) ^ j * (y / sqrt (b - a)))) with ((-1) ^ (i + j) * (x / sqrt (b - a) * (y / sqrt (b - a)))) by (rewrite pow_add; ring).
  rewrite (basis_prod _ x y Hh), pow_m1. unfold L_slab, L_const. fold x y. rewrite (Nat.add_comm j i), !mod2_even.
  destruct (Nat.ltb_spec j i), (Nat.ltb_spec i j); try lia; cbn [andb].
  - destruct (Nat.even (i + j)); cbn [negb]; field; lra.
  - destruct (Nat.even (i + j)); cbn [negb]; field; lra.
  - assert (i = j) as -> by lia. replace (j + j)%nat with (2 * j)%nat by lia.
    rewrite Nat.even_mul. cbn [Nat.even orb]. field. lra.
Qed.
Lemma G_sym a b a' b' i j : a < b -> G_slab a b a' b' i j + G_slab a b a' b' j i =
  (- b') * (basis Slab i b a b * basis Slab j b a b) + a' * (basis Slab i a a b * basis Slab j a a b).
Proof.
  intros H. rewrite !basis_slab_r, !basis_slab_l by auto.
  set (x := sqrt (2 * INR i + 1)). set (y := sqrt (2 * INR j + 1)). assert (Hh : 0 < b - a) by lra.
  replace ((-1) ^ i * (x / sqrt (b - a)) * ((-1) ^ j * (y / sqrt (b - a)))) with ((-1) ^ (i + j) * (x / sqrt (b - a) * (y / sqrt (b - a)))) by (rewrite pow_add; ring).
  rewrite (basis_prod _ x y Hh), pow_m1. unfold G_slab. cbv zeta. fold x y. rewrite (Nat.add_comm j i), !mod2_even.
  destruct (Nat.eqb_spec i j) as [->|N].
  - rewrite Nat.eqb_refl. replace (j + j)%nat with (2 * j)%nat by lia. rewrite Nat.even_mul. cbn [Nat.even orb].
    assert (XX : x * x = 2 * INR j + 1) by (apply sqrt_sqrt; pose proof (INR2_pos j); lra).
    assert (x * y = 2 * INR j + 1) as -> by exact XX. field. lra.
  - destruct (Nat.eqb_spec j i); [lia|].
    destruct (Nat.ltb_spec j i), (Nat.ltb_spec i j); try lia; destruct (Nat.even (i + j)); field; lra.
Qed.

(** ** One direction *)
Section One.
Variables (c : flux_cfg) (t : R) (e D : nat -> R) (u : nat -> nat -> R) (mul : R) (st : nat -> flux_state).
Hypothesis Hg : fgeom c = Slab.
Hypothesis HN : (2 <= fN c)%nat.
Hypothesis He : increasing (fN c) e.
Hypothesis Vl : ~ left_on c t.
Hypothesis Vr : ~ right_on c t.

Definition up (f : nat) : R := if Rle_dec 0 (mul - D f) then side_l c e u f else side_r c e u f.
Lemma up_face f : (f <= fN c)%nat -> face c t e D u mul (fun _ => 0) f (up f).
Proof.
  intros Hf. unfold up. destruct (Rle_dec 0 (mul - D f)) as [P|P].
  - destruct f as [|k]; cbn [side_l].
    + apply face_in_l; auto. apply il_vac; auto.
    + rewrite <- Hg. apply face_from_left; auto.
  - unfold side_r. destruct (Nat.ltb_spec f (fN c)).
    + rewrite <- Hg. apply face_from_right; auto. lra.
    + assert (f = fN c) as -> by lia. apply face_in_r; [lra|]. apply ir_vac; auto.
Qed.
Lemma cell_energy s : (s < fN c)%nat ->
  sumn (fM c + 1) (fun i => u s i * core c (st s) t e D u mul s i) =
  (1 / 2 * ((mul - D (S s)) * side_l c e u (S s) ^ 2) - (mul - D (S s)) * side_l c e u (S s) * up (S s))
  - (1 / 2 * ((mul - D s) * side_r c e u s ^ 2) - (mul - D s) * side_r c e u s * up s).
Proof.
  intros Hs. assert (Hlt := He s Hs). unfold core.
  assert (LU : forall i, snd (make_LU c (st s) t e D u s mul (fun _ => 0)) i =
    basis Slab i (e (S s)) (e s) (e (S s)) * ((mul - D (S s)) * up (S s)) - basis Slab i (e s) (e s) (e (S s)) * ((mul - D s) * up s)).
  { intros i. destruct (LU_formula c t e D u mul (fun _ => 0) HN He (st s) s i Hs) as (vl & vr & F1 & F2 & ->).
    rewrite (face_fun c t e D u mul (fun _ => 0) HN He s vl (up s) F1) by (apply up_face; lia).
    rewrite (face_fun c t e D u mul (fun _ => 0) HN He (S s) vr (up (S s)) F2) by (apply up_face; lia).
    rewrite Hg. cbn [wt]. ring. }
  transitivity (sumn (fM c + 1) (fun i => u s i * dotv (fM c + 1) (G_slab (e s) (e (S s)) (D s) (D (S s))) (u s) i)
     + mul * sumn (fM c + 1) (fun i => u s i * dotv (fM c + 1) (L_slab (e s) (e (S s))) (u s) i)
     - (sumn (fM c + 1) (fun i => u s i * basis Slab i (e (S s)) (e s) (e (S s))) * ((mul - D (S s)) * up (S s))
        - sumn (fM c + 1) (fun i => u s i * basis Slab i (e s) (e s) (e (S s))) * ((mul - D s) * up s))).
  { rewrite <- !sumn_scal_r, <- sumn_scal, <- sumn_plus, <- !sumn_minus. apply sumn_ext. intros i _. rewrite LU. ring. }
  rewrite (quad_form _ _ (fun i => basis Slab i (e (S s)) (e s) (e (S s))) (fun i => basis Slab i (e s) (e s) (e (S s))) _ (- D (S s)) (D s))
    by (intros; now apply G_sym).
  rewrite (quad_form _ _ (fun i => basis Slab i (e (S s)) (e s) (e (S s))) (fun i => basis Slab i (e s) (e s) (e (S s))) _ 1 (-1))
    by (intros; now apply L_sym).
  unfold side_l, side_r. destruct (Nat.ltb_spec s (fN c)); [|lia]. unfold field. ring.
Qed.
Lemma direction_energy :
  sumn (fN c) (fun s => sumn (fM c + 1) (fun i => u s i * core c (st s) t e D u mul s i)) =
  - (1 / 2) * sumn (S (fN c)) (fun f => Rabs (mul - D f) * (side_r c e u f - side_l c e u f) ^ 2).
Proof.
  rewrite (sumn_ext _ _ _ cell_energy), sumn_minus.
  set (P := fun f => 1 / 2 * ((mul - D f) * side_l c e u f ^ 2) - (mul - D f) * side_l c e u f * up f).
  set (Q := fun f => 1 / 2 * ((mul - D f) * side_r c e u f ^ 2) - (mul - D f) * side_r c e u f * up f).
  change (sumn (fN c) (fun s => P (S s)) - sumn (fN c) Q = - (1 / 2) * sumn (S (fN c)) (fun f => Rabs (mul - D f) * (side_r c e u f - side_l c e u f) ^ 2)).
  assert (P0 : P 0%nat = 0) by (unfold P; cbn [side_l]; ring).
  assert (QN : Q (fN c) = 0) by (unfold Q, side_r; rewrite Nat.ltb_irrefl; ring).
  transitivity (sumn (S (fN c)) P - sumn (S (fN c)) Q); [rewrite (sumn_S_l _ P); cbn [sumn]; lra|].
  rewrite <- sumn_minus, <- sumn_scal. apply sumn_ext. intros f _. unfold P, Q, up.
  destruct (Rle_dec 0 (mul - D f)).
  - rewrite Rabs_pos_eq by auto. field.
  - rewrite Rabs_left by lra. field.
Qed.
End One.

(** ** Norms *)
Lemma field_square M u a b : a < b -> is_RInt (fun x => field Slab M u a b x ^ 2) a b (sumn (M + 1) (fun i => u i ^ 2)).
Proof.
  intros H. apply (int_ext (fun x => sumn (M + 1) (fun i => u i * (field Slab M u a b x * basis Slab i x a b)))).
  - intros x. cbn [pow]. rewrite Rmult_1_r. unfold field at 3. rewrite <- sumn_scal. apply sumn_ext. intros; ring.
  - eapply int_eq; [apply (int_sumn (M + 1) (fun i x => u i * (field Slab M u a b x * basis Slab i x a b)) (fun i => u i * u i)); intros; apply int_scal, project_field; auto; lia|].
    apply sumn_ext. intros; ring.
Qed.
Lemma normsq_coef c e u : increasing (fN c) e -> normsq c e u = sumn (fN c) (fun s => sumn (fM c + 1) (fun i => u s i ^ 2)).
Proof. intros He. apply sumn_ext. intros s Hs. apply int_uniq, field_square. now apply He. Qed.
Lemma normsq_nonneg c e u : increasing (fN c) e -> 0 <= normsq c e u.
Proof. intros He. rewrite normsq_coef by auto. apply sumn_nonneg; intros; apply sumn_nonneg; intros; apply pow2_ge_0. Qed.
Lemma sumn_le n f g : (forall i, (i < n)%nat -> f i <= g i) -> sumn n f <= sumn n g.
Proof. induction n as [|n IH]; intros H; cbn; [lra|]. apply Rplus_le_compat; [apply IH; auto|apply H; auto]. Qed.
Lemma sumn_zero_inv n f : (forall i, (i < n)%nat -> 0 <= f i) -> sumn n f <= 0 -> forall i, (i < n)%nat -> f i = 0.
Proof.
  induction n as [|n IH]; intros P Z i Hi; [lia|]. cbn [sumn] in Z.
  assert (0 <= sumn n f) by (apply sumn_nonneg; auto). assert (0 <= f n) by auto.
  destruct (Nat.eq_dec i n) as [->|N]; [lra|]. apply IH; auto; [lra|lia].
Qed.
(** Jensen: the square of a weighted mean is at most the weighted mean of squares *)
Lemma mean_square n (w x : nat -> R) : (forall i, (i < n)%nat -> 0 <= w i) -> sumn n w = 1 ->
  sumn n (fun i => w i * x i) ^ 2 <= sumn n (fun i => w i * x i ^ 2).
Proof.
  intros W S1. set (m := sumn n (fun i => w i * x i)).
  assert (K : 0 <= sumn n (fun i => w i * (x i - m) ^ 2)) by (apply sumn_nonneg; intros; apply Rmult_le_pos; [auto|apply pow2_ge_0]).
  replace (sumn n (fun i => w i * (x i - m) ^ 2)) with (sumn n (fun i => w i * x i ^ 2) - m ^ 2) in K; [lra|].
  transitivity (sumn n (fun i => w i * x i ^ 2) - 2 * m * sumn n (fun i => w i * x i) + m ^ 2 * sumn n w).
  - rewrite S1. fold m. ring.
  - rewrite <- !sumn_scal, <- sumn_minus, <- sumn_plus. apply sumn_ext. intros; ring.
Qed.
Lemma dd_sumn n (f : nat -> R -> R) (l : nat -> R) x : (forall i, (i < n)%nat -> is_derive (f i) x (l i)) -> is_derive (fun z => sumn n (fun i => f i z)) x (sumn n l).
Proof. induction n as [|n IH]; intros H; cbn [sumn]; [apply dd_const|]. apply dd_plus; [apply IH; auto|apply H; auto]. Qed.

Section All.
Variables (c : flux_cfg) (t : R) (E : nat -> R -> R) (D : nat -> R).
Hypothesis Hg : fgeom c = Slab.
Hypothesis HN : (2 <= fN c)%nat.
Let e := fun k => E k t.
Hypothesis He : increasing (fN c) e.
Hypothesis HD : forall k, (k <= fN c)%nat -> is_derive (E k) t (D k).
Hypothesis Vl : ~ left_on c t.
Hypothesis Vr : ~ right_on c t.
Variables (N_ang : nat) (ws mus : nat -> R) (cc : R) (st : nat -> nat -> flux_state) (V : nat -> nat -> nat -> R -> R).
Hypothesis HV : forall a s i, (a < N_ang)%nat -> (s < fN c)%nat -> (i <= fM c)%nat ->
  is_derive (V a s i) t (slab_rhs c (st a s) N_ang ws mus cc t e D (fun _ => 0) (fun l k j => V l k j t) a s i).

Lemma norm_derive (u : nat -> nat -> R -> R) (u' : nat -> nat -> R) :
  (forall s i, (s < fN c)%nat -> (i <= fM c)%nat -> is_derive (u s i) t (u' s i)) ->
  is_derive (fun w => normsq c (fun k => E k w) (fun s j => u s j w)) t (sumn (fN c) (fun s => sumn (fM c + 1) (fun i => 2 * (u s i t * u' s i)))).
Proof.
  intros Hu. unfold normsq. apply (dd_sumn (fN c) (fun s w => RInt (fun x => field Slab (fM c) (fun j => u s j w) (E s w) (E (S s) w) x ^ 2) (E s w) (E (S s) w))).
  intros s Hs. apply (dd_loc (fun w => sumn (fM c + 1) (fun i => u s i w ^ 2))).
  { generalize (locally_lt (E s) (E (S s)) t (D s) (D (S s)) (HD s ltac:(lia)) (HD (S s) ltac:(lia)) (He s Hs)). apply filter_imp. intros w Hlt. symmetry.
    apply int_uniq, (field_square (fM c) (fun j => u s j w)). exact Hlt. }
  apply (dd_sumn (fM c + 1) (fun i w => u s i w ^ 2)). intros i Hi. apply (dd_ext (fun w => u s i w * u s i w)); [intros; ring|].
  eapply dd_eq; [apply dd_mult; apply Hu; auto; lia|]. ring.
Qed.

Lemma energy_balance :
  is_derive (fun w => sumn N_ang (fun a => ws a * normsq c (fun k => E k w) (fun s j => V a s j w))) t
   (- sumn N_ang (fun a => ws a * sumn (S (fN c)) (fun f => Rabs (mus a - D f) *
         (side_r c e (fun s j => V a s j t) f - side_l c e (fun s j => V a s j t) f) ^ 2))
    - 2 * sumn N_ang (fun a => ws a * normsq c e (fun s j => V a s j t))
    + 2 * cc * normsq c e (fun s j => sumn N_ang (fun a => ws a * V a s j t))).
Proof.
  set (W := fun (a s j : nat) => V a s j t).
  eapply dd_eq.
  { apply (dd_sumn N_ang (fun a w => ws a * normsq c (fun k => E k w) (fun s j => V a s j w))). intros a Ha. apply dd_scal.
    apply (norm_derive (fun s j => V a s j)). intros s i Hs Hi. exact (HV a s i Ha Hs Hi). }
  change (fun a s j => V a s j t) with W.
  assert (K : forall a, (a < N_ang)%nat ->
     ws a * sumn (fN c) (fun s => sumn (fM c + 1) (fun i => 2 * (V a s i t * slab_rhs c (st a s) N_ang ws mus cc t e D (fun _ => 0) W a s i))) =
     - (ws a * sumn (S (fN c)) (fun f => Rabs (mus a - D f) * (side_r c e (W a) f - side_l c e (W a) f) ^ 2))
     - 2 * (ws a * normsq c e (W a))
     + 2 * cc * sumn (fN c) (fun s => sumn (fM c + 1) (fun i => ws a * W a s i * make_P N_ang ws (fun l j => W l s j) i))).
  { intros a Ha. rewrite normsq_coef by exact He.
    replace (- (ws a * sumn (S (fN c)) (fun f => Rabs (mus a - D f) * (side_r c e (W a) f - side_l c e (W a) f) ^ 2)))
      with (2 * ws a * (- (1 / 2) * sumn (S (fN c)) (fun f => Rabs (mus a - D f) * (side_r c e (W a) f - side_l c e (W a) f) ^ 2))) by field.
    rewrite <- (direction_energy c t e D (W a) (mus a) (st a) Hg HN He Vl Vr).
    rewrite <- !sumn_scal, <- sumn_minus, <- sumn_plus. apply sumn_ext. intros s Hs.
    rewrite <- !sumn_scal, <- sumn_minus, <- sumn_plus. apply sumn_ext. intros i Hi.
    unfold slab_rhs, core. cbv zeta. rewrite !Nat.add_1_r. change (V a s i t) with (W a s i). change (fun j => W a s j) with (W a s). field. }
  etransitivity; [exact (sumn_ext _ _ _ K)|]. rewrite sumn_plus, sumn_minus. clear K.
  replace (sumn N_ang (fun i => - (ws i * sumn (S (fN c)) (fun f => Rabs (mus i - D f) * (side_r c e (W i) f - side_l c e (W i) f) ^ 2))))
    with (- sumn N_ang (fun a => ws a * sumn (S (fN c)) (fun f => Rabs (mus a - D f) * (side_r c e (W a) f - side_l c e (W a) f) ^ 2))).
  2: { rewrite <- (Rmult_1_l (sumn _ _)), Ropp_mult_distr_l, <- sumn_scal. apply sumn_ext. intros; ring. }
  rewrite !sumn_scal. f_equal. f_equal. rewrite normsq_coef by exact He.
  rewrite sumn_swap. apply sumn_ext. intros s Hs. rewrite sumn_swap. apply sumn_ext. intros i Hi.
  rewrite sumn_scal_r. cbn [pow]. rewrite Rmult_1_r. f_equal. apply sumn_ext. intros l Hl. unfold W. ring.
Qed.

Hypothesis Hw : forall a, (a < N_ang)%nat -> 0 <= ws a.
Hypothesis H1 : sumn N_ang ws = 1.
Hypothesis Hc : 0 <= cc.
Lemma mean_norm : normsq c e (fun s j => sumn N_ang (fun a => ws a * V a s j t)) <= sumn N_ang (fun a => ws a * normsq c e (fun s j => V a s j t)).
Proof.
  rewrite normsq_coef by exact He.
  rewrite (sumn_ext N_ang (fun a => ws a * normsq c e (fun s j => V a s j t)) (fun a => sumn (fN c) (fun s => sumn (fM c + 1) (fun i => ws a * V a s i t ^ 2)))).
  2: { intros a Ha. rewrite normsq_coef by exact He. rewrite <- sumn_scal. apply sumn_ext. intros s Hs. symmetry. apply sumn_scal. }
  rewrite (sumn_swap N_ang (fN c)). apply sumn_le. intros s Hs. rewrite (sumn_swap N_ang (fM c + 1)). apply sumn_le. intros i Hi. apply (mean_square N_ang ws (fun a => V a s i t)); auto.
Qed.
Lemma energy_rate : exists d : R,
  is_derive (fun w => sumn N_ang (fun a => ws a * normsq c (fun k => E k w) (fun s j => V a s j w))) t d /\
  d <= - 2 * (1 - cc) * sumn N_ang (fun a => ws a * normsq c e (fun s j => V a s j t)).
Proof.
  eexists. split; [apply energy_balance|]. pose proof mean_norm as M.
  assert (K : 0 <= sumn N_ang (fun a => ws a * sumn (S (fN c)) (fun f => Rabs (mus a - D f) *
         (side_r c e (fun s j => V a s j t) f - side_l c e (fun s j => V a s j t) f) ^ 2))).
  { apply sumn_nonneg. intros a Ha. apply Rmult_le_pos; [auto|]. apply sumn_nonneg. intros. apply Rmult_le_pos; [apply Rabs_pos|apply pow2_ge_0]. }
  nra.
Qed.
End All.

(** ** Gronwall *)
Lemma decay (F : R -> R) (k t0 t1 : R) : t0 <= t1 ->
  (forall t, t0 <= t <= t1 -> exists d : R, is_derive F t d /\ d <= - k * F t) -> F t1 <= exp (- k * (t1 - t0)) * F t0.
Proof.
  intros Hle H. destruct (Req_dec t0 t1) as [<-|N].
  { replace (- k * (t0 - t0)) with 0 by ring. rewrite exp_0. lra. }
  pose (G := fun t => exp (k * t) * F t).
  assert (DG : forall t, t0 <= t <= t1 -> exists d : R, is_derive G t d /\ d <= 0).
  { intros t Ht. destruct (H t Ht) as (d & Hd & Hn). exists (k * exp (k * t) * F t + exp (k * t) * d). split.
    - apply (dd_mult (fun z => exp (k * z)) F); [|exact Hd]. eapply dd_eq; [apply (dd_exp (fun z => k * z)), (dd_scal (fun z => z)), dd_id|]. cbv beta. ring.
    - pose proof (exp_pos (k * t)). nra. }
  assert (G t1 <= G t0).
  { destruct (MVT_gen G t0 t1 (fun t => Derive G t)) as (x & Hx & E).
    - intros x Hx. rewrite Rmin_left, Rmax_right in Hx by lra. destruct (DG x ltac:(lra)) as (d & Hd & _). apply Derive_correct. exists d. exact Hd.
    - intros x Hx. rewrite Rmin_left, Rmax_right in Hx by lra. destruct (DG x ltac:(lra)) as (d & Hd & _).
      apply continuity_pt_filterlim. apply (ex_derive_continuous (V := R_NormedModule)). exists d. exact Hd.
    - rewrite Rmin_left, Rmax_right in Hx by lra. destruct (DG x ltac:(lra)) as (d & Hd & Hn).
      rewrite (is_derive_unique _ _ _ Hd) in E. nra. }
  unfold G in H0. replace (- k * (t1 - t0)) with (k * t0 + - (k * t1)) by ring. rewrite exp_plus, exp_Ropp.
  assert (P := exp_pos (k * t1)). apply (Rmult_le_reg_l (exp (k * t1))); [exact P|].
  apply (Rle_trans _ _ _ H0). right. field. lra.
Qed.

(** ** Differences of two solutions *)
(** the same problem with vacuum outside *)
Definition closed (c : flux_cfg) : flux_cfg :=
  {| fgeom := fgeom c; fM := fM c; fN := fN c; src4 := false; boundary_source := false; uncollided_on := uncollided_on c; ft0 := ft0 c;
     bon_left := bon_left c; bon_right := bon_right c; strength := strength c; fquad := fquad c |}.
Lemma closed_l c t : ~ left_on (closed c) t. Proof. intros [H|[H _]]; discriminate. Qed.
Lemma closed_r c t : ~ right_on (closed c) t. Proof. intros [H|[H _]]; discriminate. Qed.
Lemma field_minus M u w a b x : field Slab M (fun j => u j - w j) a b x = field Slab M u a b x - field Slab M w a b x.
Proof. unfold field. rewrite <- sumn_minus. apply sumn_ext. intros; ring. Qed.
Lemma dotv_minus n A u w i : dotv n A (fun j => u j - w j) i = dotv n A u i - dotv n A w i.
Proof. unfold dotv. rewrite <- sumn_minus. apply sumn_ext. intros; ring. Qed.

Section Diff.
Variables (c : flux_cfg) (t : R) (e D : nat -> R).
Hypothesis Hg : fgeom c = Slab.
Hypothesis HN : (2 <= fN c)%nat.
Hypothesis He : increasing (fN c) e.
Lemma face_minus u w mul f v v' : (f <= fN c)%nat -> face c t e D u mul (fun _ => 0) f v -> face c t e D w mul (fun _ => 0) f v' ->
  face (closed c) t e D (fun s j => u s j - w s j) mul (fun _ => 0) f (v - v').
Proof.
  intros Hf Hu Hw'. destruct (Rle_dec 0 (mul - D f)) as [P|P].
  - destruct f as [|k].
    + assert (v = v') as ->.
      { assert (X : exists x, inflow_l c t e (fun _ => 0) x) by (eexists; apply (v0_bd c t e u (fun _ => 0) HN He {| sh := 0; shp := 0; shm := 0 |})).
        destruct X as (x & X). transitivity x; [|symmetry].
        - exact (face_fun c t e D u mul (fun _ => 0) HN He 0 v x Hu (face_in_l c t e D u mul (fun _ => 0) x P X)).
        - exact (face_fun c t e D w mul (fun _ => 0) HN He 0 v' x Hw' (face_in_l c t e D w mul (fun _ => 0) x P X)). }
      replace (v' - v') with 0 by ring. apply face_in_l; auto. apply il_vac; [apply closed_l|exact Hg].
    + assert (Ev := face_fun c t e D u mul (fun _ => 0) HN He (S k) v _ Hu (face_from_left c t e D u mul (fun _ => 0) k P ltac:(lia))).
      assert (Ew := face_fun c t e D w mul (fun _ => 0) HN He (S k) v' _ Hw' (face_from_left c t e D w mul (fun _ => 0) k P ltac:(lia))).
      rewrite Ev, Ew, Hg, <- field_minus. rewrite <- Hg. apply (face_from_left (closed c) t e D (fun s j => u s j - w s j) mul (fun _ => 0) k P). cbn. lia.
  - assert (P' : mul - D f < 0) by lra. destruct (Nat.eq_dec f (fN c)) as [->|N].
    + assert (v = v') as ->.
      { assert (X : exists x, inflow_r c t e x) by (eexists; apply (v3_bd c t e u (fun _ => 0) HN He {| sh := 0; shp := 0; shm := 0 |})).
        destruct X as (x & X). transitivity x; [|symmetry].
        - exact (face_fun c t e D u mul (fun _ => 0) HN He (fN c) v x Hu (face_in_r c t e D u mul (fun _ => 0) x P' X)).
        - exact (face_fun c t e D w mul (fun _ => 0) HN He (fN c) v' x Hw' (face_in_r c t e D w mul (fun _ => 0) x P' X)). }
      replace (v' - v') with 0 by ring. apply (face_in_r (closed c)); auto. apply ir_vac, closed_r.
    + assert (Ev := face_fun c t e D u mul (fun _ => 0) HN He f v _ Hu (face_from_right c t e D u mul (fun _ => 0) f P' ltac:(lia))).
      assert (Ew := face_fun c t e D w mul (fun _ => 0) HN He f v' _ Hw' (face_from_right c t e D w mul (fun _ => 0) f P' ltac:(lia))).
      rewrite Ev, Ew, Hg, <- field_minus. rewrite <- Hg. apply (face_from_right (closed c) t e D (fun s j => u s j - w s j) mul (fun _ => 0) f P'). cbn. lia.
Qed.
Lemma rhs_minus st st' N_ang ws mus cc S0 V W a s i : (s < fN c)%nat ->
  slab_rhs c st N_ang ws mus cc t e D S0 V a s i - slab_rhs c st' N_ang ws mus cc t e D S0 W a s i =
  slab_rhs (closed c) st N_ang ws mus cc t e D (fun _ => 0) (fun l k j => V l k j - W l k j) a s i.
Proof.
  intros Hs. unfold slab_rhs. cbv zeta. cbn [fM closed].
  destruct (LU_formula c t e D (V a) (mus a) (fun _ => 0) HN He st s i Hs) as (vl & vr & F1 & F2 & ->).
  destruct (LU_formula c t e D (W a) (mus a) (fun _ => 0) HN He st' s i Hs) as (xl & xr & G1 & G2 & ->).
  destruct (LU_formula (closed c) t e D (fun k j => V a k j - W a k j) (mus a) (fun _ => 0) HN He st s i Hs) as (yl & yr & K1 & K2 & ->).
  rewrite (face_fun (closed c) t e D (fun k j => V a k j - W a k j) (mus a) (fun _ => 0) HN He s yl (vl - xl) K1) by (apply face_minus; auto; lia).
  rewrite (face_fun (closed c) t e D (fun k j => V a k j - W a k j) (mus a) (fun _ => 0) HN He (S s) yr (vr - xr) K2) by (apply face_minus; auto; lia).
  cbn [fgeom closed].
  rewrite !dotv_minus.
  replace (make_P N_ang ws (fun l j => V l s j - W l s j) i) with (make_P N_ang ws (fun l j => V l s j) i - make_P N_ang ws (fun l j => W l s j) i).
  2: { unfold make_P. rewrite <- sumn_minus. apply sumn_ext. intros; ring. }
  ring.
Qed.
End Diff.
