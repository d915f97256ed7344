(** Dependence of slab solutions on the source, particle numbers, and the coupled radiation-material energy. *)
From Coq Require Import FunctionalExtensionality.
From Coquelicot Require Import Coquelicot.
From Verif Require Import Py PyLemmas Calc Legendre Cheb DGModel DGSpec DGProofs DGInt DGBalance DGFinal StabSpec StabProofs.

(** ** A differential inequality for the square root *)
Lemma sqrt_growth (F : R -> R) (s t0 t1 : R) : t0 <= t1 -> 0 <= s -> (forall t, t0 <= t <= t1 -> 0 <= F t) ->
  (forall t, t0 <= t <= t1 -> exists d : R, is_derive F t d /\ forall G, 0 < G -> F t <= G ^ 2 -> d <= s * G) ->
  sqrt (F t1) <= sqrt (F t0) + (t1 - t0) * (s / 2).
Proof.
  intros Hle Hs HF H. apply Rnot_lt_le. intros C.
  set (gap := sqrt (F t1) - (sqrt (F t0) + (t1 - t0) * (s / 2))). assert (Gp : 0 < gap) by (unfold gap; lra).
  set (dl := gap / 2). assert (Dp : 0 < dl) by (unfold dl; lra).
  set (G := fun t => sqrt (F t + dl ^ 2) - (t - t0) * (s / 2)).
  assert (P : forall t, t0 <= t <= t1 -> 0 < F t + dl ^ 2) by (intros t Ht; specialize (HF t Ht); nra).
  assert (X : G t1 <= G t0).
  { assert (Y := decay G 0 t0 t1 Hle). replace (exp (-0 * (t1 - t0)) * G t0) with (G t0) in Y.
    2: { replace (-0 * (t1 - t0)) with 0 by ring. rewrite exp_0. ring. }
    apply Y. intros t Ht. destruct (H t Ht) as (d & Hd & Hn). pose proof (P t Ht) as Pt. pose proof (sqrt_lt_R0 _ Pt) as Qt.
    exists (d / (2 * sqrt (F t + dl ^ 2)) - (s / 2)). split.
    - eapply dd_eq; [apply dd_minus; [apply (dd_sqrt (fun z => F z + dl ^ 2)); [apply dd_plus; [exact Hd|apply dd_const]|exact Pt]|
        apply dd_scal_r, dd_minus; [apply dd_id|apply dd_const]]|]. field. lra.
    - specialize (Hn (sqrt (F t + dl ^ 2)) Qt ltac:(rewrite pow2_sqrt by lra; nra)).
      replace (- 0 * G t) with 0 by ring. assert (d / (2 * sqrt (F t + dl ^ 2)) <= s / 2); [|lra].
      apply (Rmult_le_reg_r (2 * sqrt (F t + dl ^ 2))); [lra|]. replace (d / (2 * sqrt (F t + dl ^ 2)) * (2 * sqrt (F t + dl ^ 2))) with d by (field; lra). lra. }
  unfold G in X. replace (t0 - t0) with 0 in X by ring.
  assert (A1 : sqrt (F t1) <= sqrt (F t1 + dl ^ 2)) by (apply sqrt_le_1_alt; nra).
  assert (A0 : sqrt (F t0 + dl ^ 2) <= sqrt (F t0) + dl).
  { assert (Z := HF t0 ltac:(lra)).
    pose proof (sqrt_pos (F t0)). replace ((sqrt (F t0) + dl)) with (sqrt ((sqrt (F t0) + dl) ^ 2)) by (apply sqrt_pow2; lra).
    apply sqrt_le_1_alt. replace ((sqrt (F t0) + dl) ^ 2) with (sqrt (F t0) ^ 2 + 2 * dl * sqrt (F t0) + dl ^ 2) by ring. rewrite pow2_sqrt by auto. nra. }
  unfold dl, gap in *. lra.
Qed.

(** ** The source tested with the solution *)
Section Src.
Variables (c : flux_cfg) (t : R) (E : nat -> R -> R) (D : nat -> R).
Hypothesis Hg : fgeom c = Slab.
Hypothesis HN : (2 <= fN c)%nat.
Let e := fun k => E k t.
Hypothesis He : increasing (fN c) e.
Hypothesis HD : forall k, (k <= fN c)%nat -> is_derive (E k) t (D k).
Hypothesis Vl : ~ left_on c t.
Hypothesis Vr : ~ right_on c t.
Variables (N_ang : nat) (ws mus : nat -> R) (cc : R) (st : nat -> nat -> flux_state) (W : nat -> nat -> nat -> R -> R) (S0 : nat -> nat -> R).
Hypothesis HW : forall a s i, (a < N_ang)%nat -> (s < fN c)%nat -> (i <= fM c)%nat ->
  is_derive (W a s i) t (slab_rhs c (st a s) N_ang ws mus cc t e D (S0 s) (fun l k j => W l k j t) a s i).
Hypothesis Hw : forall a, (a < N_ang)%nat -> 0 <= ws a.
Hypothesis H1 : sumn N_ang ws = 1.
Hypothesis Hc : 0 <= cc.

Lemma rhs_source a s i : slab_rhs c (st a s) N_ang ws mus cc t e D (S0 s) (fun l k j => W l k j t) a s i =
  slab_rhs c (st a s) N_ang ws mus cc t e D (fun _ => 0) (fun l k j => W l k j t) a s i + 1 / 2 * S0 s i.
Proof. unfold slab_rhs. cbv zeta. ring. Qed.
Lemma source_rate : exists r : R,
  is_derive (fun w => energy c N_ang ws (fun k => E k w) (fun a s j => W a s j w)) t r /\
  r <= - (2 * (1 - cc)) * energy c N_ang ws e (fun a s j => W a s j t)
       + sumn N_ang (fun a => ws a * sumn (fN c) (fun s => sumn (fM c + 1) (fun i => W a s i t * S0 s i))).
Proof.
  set (w0 := fun (a s j : nat) => W a s j t).
  set (rhs := fun a s i => slab_rhs c (st a s) N_ang ws mus cc t e D (fun _ => 0) w0 a s i).
  set (V := fun a s i w => w0 a s i + (w - t) * rhs a s i).
  assert (V0 : forall a s i, V a s i t = w0 a s i) by (intros; unfold V; ring).
  assert (DV : forall a s i, is_derive (V a s i) t (rhs a s i)).
  { intros. unfold V. eapply dd_eq; [apply dd_plus; [apply dd_const|]; apply dd_scal_r; apply dd_minus; [apply dd_id|apply dd_const]|]. ring. }
  assert (EV : (fun l k j => V l k j t) = w0).
  { apply functional_extensionality; intros a. apply functional_extensionality; intros s. apply functional_extensionality; intros i. apply V0. }
  assert (HV : forall a s i, (a < N_ang)%nat -> (s < fN c)%nat -> (i <= fM c)%nat ->
     is_derive (V a s i) t (slab_rhs c (st a s) N_ang ws mus cc t e D (fun _ => 0) (fun l k j => V l k j t) a s i)).
  { intros a s i _ _ _. rewrite EV. apply DV. }
  destruct (energy_rate c t E D Hg HN He HD Vl Vr N_ang ws mus cc st V HV Hw H1 Hc) as (d & B1 & Hd).
  assert (B2 : is_derive (fun w => sumn N_ang (fun a => ws a * normsq c (fun k => E k w) (fun s j => V a s j w))) t
     (sumn N_ang (fun a => ws a * sumn (fN c) (fun s => sumn (fM c + 1) (fun i => 2 * (w0 a s i * rhs a s i)))))).
  { apply (dd_sumn N_ang (fun a w => ws a * normsq c (fun k => E k w) (fun s j => V a s j w))). intros a Ha. apply dd_scal.
    eapply dd_eq; [apply (norm_derive c t E D HN He HD (fun s j => V a s j) (rhs a)); intros; apply DV|].
    apply sumn_ext. intros s _. apply sumn_ext. intros i _. now rewrite V0. }
  assert (EQ := eq_trans (eq_sym (is_derive_unique _ _ _ B2)) (is_derive_unique _ _ _ B1)). clear B1 B2.
  eexists. split.
  - unfold energy. apply (dd_sumn N_ang (fun a w => ws a * normsq c (fun k => E k w) (fun s j => W a s j w))). intros a Ha. apply dd_scal.
    apply (norm_derive c t E D HN He HD (fun s j => W a s j) (fun s i => rhs a s i + 1 / 2 * S0 s i)). intros s i Hs Hi. eapply dd_eq; [exact (HW a s i Ha Hs Hi)|]. apply rhs_source.
  - rewrite (sumn_ext N_ang (fun a => ws a * normsq c (fun k => E k t) (fun s j => V a s j t)) (fun a => ws a * normsq c e (w0 a))) in Hd.
    2: { intros a _. do 2 f_equal. exact (f_equal (fun g => g a) EV). }
    unfold energy. change (fun a s j => W a s j t) with w0.
    replace (sumn N_ang (fun a => ws a * sumn (fN c) (fun s => sumn (fM c + 1) (fun i => 2 * (W a s i t * (rhs a s i + 1 / 2 * S0 s i))))))
      with (d + sumn N_ang (fun a => ws a * sumn (fN c) (fun s => sumn (fM c + 1) (fun i => W a s i t * S0 s i)))); [lra|].
    rewrite <- EQ, <- sumn_plus. apply sumn_ext. intros a Ha. rewrite <- Rmult_plus_distr_l. f_equal. rewrite <- sumn_plus. apply sumn_ext. intros s Hs.
    rewrite <- sumn_plus. apply sumn_ext. intros i Hi. unfold w0. field.
Qed.
(** Young *)
Lemma source_bound (sg G : R) : 0 < sg -> 0 < G -> normsq c e S0 <= sg ^ 2 -> energy c N_ang ws e (fun a s j => W a s j t) <= G ^ 2 ->
  sumn N_ang (fun a => ws a * sumn (fN c) (fun s => sumn (fM c + 1) (fun i => W a s i t * S0 s i))) <= sg * G.
Proof.
  intros Ps PG HS HE. set (k := sg / G). assert (Pk : 0 < k) by (apply Rdiv_lt_0_compat; auto).
  apply (Rle_trans _ (sumn N_ang (fun a => ws a * (k / 2 * normsq c e (fun s j => W a s j t) + / (2 * k) * normsq c e S0)))).
  - apply sumn_le. intros a Ha. apply Rmult_le_compat_l; [auto|]. rewrite !normsq_coef by exact He. rewrite <- !sumn_scal, <- sumn_plus. apply sumn_le. intros s Hs.
    rewrite <- !sumn_scal, <- sumn_plus. apply sumn_le. intros i Hi.
    set (x := W a s i t). set (y := S0 s i). assert (0 <= / (2 * k) * (k * x - y) ^ 2) by (apply Rmult_le_pos; [left; apply Rinv_0_lt_compat; lra|apply pow2_ge_0]).
    replace (/ (2 * k) * (k * x - y) ^ 2) with (k / 2 * x ^ 2 + / (2 * k) * y ^ 2 - x * y) in H by (field; lra). lra.
  - replace (sumn N_ang (fun a => ws a * (k / 2 * normsq c e (fun s j => W a s j t) + / (2 * k) * normsq c e S0)))
      with (k / 2 * energy c N_ang ws e (fun a s j => W a s j t) + / (2 * k) * normsq c e S0).
    2: { unfold energy. transitivity (k / 2 * sumn N_ang (fun a => ws a * normsq c e (fun s j => W a s j t)) + / (2 * k) * normsq c e S0 * sumn N_ang ws); [rewrite H1; ring|].
         rewrite <- !sumn_scal, <- sumn_plus. apply sumn_ext. intros; ring. }
    assert (k / 2 * energy c N_ang ws e (fun a s j => W a s j t) <= k / 2 * G ^ 2) by (apply Rmult_le_compat_l; [lra|auto]).
    assert (/ (2 * k) * normsq c e S0 <= / (2 * k) * sg ^ 2) by (apply Rmult_le_compat_l; [left; apply Rinv_0_lt_compat; lra|auto]).
    replace (sg * G) with (k / 2 * G ^ 2 + / (2 * k) * sg ^ 2); [lra|]. unfold k. field. split; lra.
Qed.
End Src.

(** ** Thermal coupling *)
Section Coupled.
Variables (c : flux_cfg) (t : R) (E : nat -> R -> R) (D : nat -> R).
Hypothesis Hg : fgeom c = Slab.
Hypothesis HN : (2 <= fN c)%nat.
Let e := fun k => E k t.
Hypothesis He : increasing (fN c) e.
Hypothesis HD : forall k, (k <= fN c)%nat -> is_derive (E k) t (D k).
Hypothesis Vl : ~ left_on c t.
Hypothesis Vr : ~ right_on c t.
Variables (N_ang : nat) (ws mus : nat -> R) (cc c_a l : R) (st : nat -> nat -> flux_state) (ste : nat -> flux_state) (V : nat -> nat -> nat -> R -> R) (ee : nat -> nat -> R -> R).
Hypothesis HV : forall a s i, (a < N_ang)%nat -> (s < fN c)%nat -> (i <= fM c)%nat ->
  is_derive (V a s i) t (slab_rhs_thermal c (st a s) N_ang ws mus cc c_a l t e D (fun j => ee s j t) (fun _ => 0) (fun l k j => V l k j t) a s i).
Hypothesis HE : forall s i, (s < fN c)%nat -> (i <= fM c)%nat ->
  is_derive (ee s i) t (slab_energy c (ste s) N_ang ws c_a l t e D (fun j => ee s j t) (fun _ => 0) (fun l k j => V l k j t) (fun k j => ee k j t) s i).
Hypothesis Hl : 0 < l.
Let W := fun (a s j : nat) => V a s j t.
Let m := fun (s j : nat) => ee s j t.
Let J (u : nat -> nat -> R) (mul : R) := sumn (S (fN c)) (fun f => Rabs (mul - D f) * (side_r c e u f - side_l c e u f) ^ 2).
Let mean := fun (s j : nat) => sumn N_ang (fun a => ws a * W a s j).
Lemma mean_P s i : make_P N_ang ws (fun l j => W l s j) i = mean s i.
Proof. unfold make_P, mean. apply sumn_ext. intros; ring. Qed.
Lemma coupled_balance :
  is_derive (fun w => energy c N_ang ws (fun k => E k w) (fun a s j => V a s j w) + 1 / 4 * normsq c (fun k => E k w) (fun s j => ee s j w)) t
   (- sumn N_ang (fun a => ws a * J (W a) (mus a)) - 1 / 4 * J m 0
    - 2 / l * (energy c N_ang ws e W - normsq c e mean)
    - 2 * (1 - cc - c_a) / l * normsq c e mean
    - 2 * c_a / l * normsq c e (fun s j => mean s j - m s j / 2)).
Proof.
  eapply dd_eq.
  { apply dd_plus.
    - unfold energy. apply (dd_sumn N_ang (fun a w => ws a * normsq c (fun k => E k w) (fun s j => V a s j w))). intros a Ha. apply dd_scal.
      apply (norm_derive c t E D HN He HD (fun s j => V a s j)). intros s i Hs Hi. exact (HV a s i Ha Hs Hi).
    - apply dd_scal. apply (norm_derive c t E D HN He HD ee). intros s i Hs Hi. exact (HE s i Hs Hi). }
  assert (K : forall a, (a < N_ang)%nat ->
     ws a * sumn (fN c) (fun s => sumn (fM c + 1) (fun i => 2 * (V a s i t * slab_rhs_thermal c (st a s) N_ang ws mus cc c_a l t e D (fun j => ee s j t) (fun _ => 0) W a s i))) =
     - (ws a * J (W a) (mus a)) - 2 / l * (ws a * normsq c e (W a))
     + sumn (fN c) (fun s => sumn (fM c + 1) (fun i => ws a * W a s i * (2 * cc / l * mean s i + c_a / l * m s i)))).
  { intros a Ha. rewrite normsq_coef by exact He.
    replace (- (ws a * J (W a) (mus a))) with (2 * ws a * (- (1 / 2) * J (W a) (mus a))) by field. unfold J.
    rewrite <- (direction_energy c t e D (W a) (mus a) (st a) Hg HN He Vl Vr).
    rewrite <- !sumn_scal, <- sumn_minus, <- sumn_plus. apply sumn_ext. intros s Hs.
    rewrite <- !sumn_scal, <- sumn_minus, <- sumn_plus. apply sumn_ext. intros i Hi.
    unfold slab_rhs_thermal, core. cbv zeta. rewrite !Nat.add_1_r. change (V a s i t) with (W a s i). change (fun j => W a s j) with (W a s). rewrite !mean_P. change (ee s i t) with (m s i).
    destruct (N_ang =? 2)%nat, (uncollided_on c); field; lra. }
  assert (K2 : 1 / 4 * sumn (fN c) (fun s => sumn (fM c + 1) (fun i => 2 * (ee s i t * slab_energy c (ste s) N_ang ws c_a l t e D (fun j => ee s j t) (fun _ => 0) W m s i))) =
     - (1 / 4) * J m 0 + sumn (fN c) (fun s => sumn (fM c + 1) (fun i => 1 / 2 * c_a / l * (m s i * (2 * mean s i - m s i))))).
  { replace (- (1 / 4) * J m 0) with (1 / 2 * (- (1 / 2) * J m 0)) by field. unfold J.
    rewrite <- (direction_energy c t e D m 0 ste Hg HN He Vl Vr).
    rewrite <- !sumn_scal, <- sumn_plus. apply sumn_ext. intros s Hs.
    rewrite <- !sumn_scal, <- sumn_plus. apply sumn_ext. intros i Hi.
    unfold slab_energy, core. cbv zeta. rewrite !Nat.add_1_r. rewrite mean_P. change (ee s i t) with (m s i). change (fun j => ee s j t) with (m s).
    destruct (uncollided_on c); field; lra. }
  etransitivity; [exact (f_equal2 Rplus (sumn_ext _ _ _ K) K2)|]. clear K K2. rewrite sumn_plus, sumn_minus. rewrite (sumn_scal N_ang (2 / l)).
  replace (sumn N_ang (fun i => - (ws i * J (W i) (mus i)))) with (- sumn N_ang (fun a => ws a * J (W a) (mus a))).
  2: { rewrite <- (Rmult_1_l (sumn _ _)), Ropp_mult_distr_l, <- sumn_scal. apply sumn_ext. intros; ring. }
  rewrite sumn_swap.
  rewrite (sumn_ext (fN c) (fun s => sumn N_ang (fun a => sumn (fM c + 1) (fun i => ws a * W a s i * (2 * cc / l * mean s i + c_a / l * m s i))))
     (fun s => sumn (fM c + 1) (fun i => mean s i * (2 * cc / l * mean s i + c_a / l * m s i)))).
  2: { intros s Hs. rewrite sumn_swap. apply sumn_ext. intros i Hi. rewrite sumn_scal_r. reflexivity. }
  fold (energy c N_ang ws e W). rewrite !(normsq_coef c e) by exact He.
  match goal with |- ?x = _ => replace x with (- sumn N_ang (fun a => ws a * J (W a) (mus a)) - 1 / 4 * J m 0 - 2 / l * energy c N_ang ws e W +
    (sumn (fN c) (fun s => sumn (fM c + 1) (fun i => mean s i * (2 * cc / l * mean s i + c_a / l * m s i))) +
     sumn (fN c) (fun s => sumn (fM c + 1) (fun i => 1 / 2 * c_a / l * (m s i * (2 * mean s i - m s i)))))) by ring end.
  match goal with |- _ = ?x => replace x with (- sumn N_ang (fun a => ws a * J (W a) (mus a)) - 1 / 4 * J m 0 - 2 / l * energy c N_ang ws e W +
    ((2 / l - 2 * (1 - cc - c_a) / l) * sumn (fN c) (fun s => sumn (fM c + 1) (fun i => mean s i ^ 2)) - 2 * c_a / l * sumn (fN c) (fun s => sumn (fM c + 1) (fun i => (mean s i - m s i / 2) ^ 2)))) by (field; lra) end.
  f_equal. rewrite <- !sumn_scal, <- sumn_plus, <- sumn_minus. apply sumn_ext. intros s Hs. rewrite <- !sumn_scal, <- sumn_plus, <- sumn_minus. apply sumn_ext. intros i Hi. field. lra.
Qed.
End Coupled.

Section CDiff.
Variables (c : flux_cfg) (t : R) (e D : nat -> R).
Hypothesis Hg : fgeom c = Slab.
Hypothesis HN : (2 <= fN c)%nat.
Hypothesis He : increasing (fN c) e.
Lemma P_minus N_ang ws (V W : nat -> nat -> nat -> R) s i : make_P N_ang ws (fun l j => V l s j - W l s j) i = make_P N_ang ws (fun l j => V l s j) i - make_P N_ang ws (fun l j => W l s j) i.
Proof. unfold make_P. rewrite <- sumn_minus. apply sumn_ext. intros; ring. Qed.
Lemma LU_minus st st' u w mul s i : (s < fN c)%nat ->
  snd (make_LU (closed c) st t e D (fun k j => u k j - w k j) s mul (fun _ => 0)) i = snd (make_LU c st t e D u s mul (fun _ => 0)) i - snd (make_LU c st' t e D w s mul (fun _ => 0)) i.
Proof.
  intros Hs.
  destruct (LU_formula c t e D u mul (fun _ => 0) HN He st s i Hs) as (vl & vr & F1 & F2 & ->).
  destruct (LU_formula c t e D w mul (fun _ => 0) HN He st' s i Hs) as (xl & xr & G1 & G2 & ->).
  destruct (LU_formula (closed c) t e D (fun k j => u k j - w k j) mul (fun _ => 0) HN He st s i Hs) as (yl & yr & K1 & K2 & ->).
  rewrite (face_fun (closed c) t e D (fun k j => u k j - w k j) mul (fun _ => 0) HN He s yl (vl - xl) K1) by (apply face_minus; auto; lia).
  rewrite (face_fun (closed c) t e D (fun k j => u k j - w k j) mul (fun _ => 0) HN He (S s) yr (vr - xr) K2) by (apply face_minus; auto; lia).
  cbn [fgeom closed]. ring.
Qed.
Lemma thermal_minus st st' N_ang ws mus cc c_a l H H' S0 V W a s i : (s < fN c)%nat -> l <> 0 ->
  slab_rhs_thermal c st N_ang ws mus cc c_a l t e D H S0 V a s i - slab_rhs_thermal c st' N_ang ws mus cc c_a l t e D H' S0 W a s i =
  slab_rhs_thermal (closed c) st N_ang ws mus cc c_a l t e D (fun j => H j - H' j) (fun _ => 0) (fun l k j => V l k j - W l k j) a s i.
Proof.
  intros Hs Hl. unfold slab_rhs_thermal. cbv zeta. cbn [fM closed uncollided_on].
  rewrite (LU_minus st st' (V a) (W a)) by exact Hs. rewrite !dotv_minus, P_minus.
  destruct (N_ang =? 2)%nat, (uncollided_on c); field; auto.
Qed.
Lemma energy_minus st st' N_ang ws c_a l H H' S0 V W u w s i : (s < fN c)%nat -> l <> 0 ->
  slab_energy c st N_ang ws c_a l t e D H S0 V u s i - slab_energy c st' N_ang ws c_a l t e D H' S0 W w s i =
  slab_energy (closed c) st N_ang ws c_a l t e D (fun j => H j - H' j) (fun _ => 0) (fun l k j => V l k j - W l k j) (fun k j => u k j - w k j) s i.
Proof.
  intros Hs Hl. unfold slab_energy. cbv zeta. cbn [fM closed uncollided_on].
  rewrite (LU_minus st st' u w) by exact Hs. rewrite !dotv_minus, P_minus.
  destruct (uncollided_on c); field; auto.
Qed.
End CDiff.
