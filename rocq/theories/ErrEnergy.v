(** From the face defects to the distance between the computed and the projected exact solution. *)
From Coq Require Import FunctionalExtensionality.
From Coquelicot Require Import Coquelicot.
From Verif Require Import Py PyLemmas Calc Legendre Cheb DGModel DGSpec DGProofs DGInt DGBalance StabSpec StabProofs ErrSpec ErrLeib ErrProofs.

(** ** Gronwall with a forcing *)
Lemma forced (F : R -> R) (k g t0 t1 : R) : t0 <= t1 -> 0 <= k -> 0 <= g ->
  (forall t, t0 <= t <= t1 -> exists d : R, is_derive F t d /\ d <= - k * F t + g) ->
  F t1 <= exp (- k * (t1 - t0)) * F t0 + g * (t1 - t0).
Proof.
  intros Hle Hk Hgp H.
  assert (X := decay (fun t => F t - g * (t - t0)) k t0 t1 Hle).
  replace (F t1) with (F t1 - g * (t1 - t0) + g * (t1 - t0)) by ring. apply Rplus_le_compat_r.
  replace (exp (- k * (t1 - t0)) * F t0) with (exp (- k * (t1 - t0)) * (F t0 - g * (t0 - t0))) by ring. apply X.
  intros t Ht. destruct (H t Ht) as (d & Hd & Hn). exists (d - g * (1 - 0)). split.
  - apply dd_minus; [exact Hd|]. apply dd_scal. apply dd_minus; [apply dd_id|apply dd_const].
  - assert (0 <= k * (g * (t - t0))) by (apply Rmult_le_pos; [auto|apply Rmult_le_pos; lra]). nra.
Qed.

(** ** The residual tested with the error *)
Section Res.
Variables (c : flux_cfg) (e : nat -> R) (sg d : nat -> R) (u : nat -> nat -> R).
Lemma residual_sum : sumn (fN c) (fun s => sumn (fM c + 1) (fun i => u s i *
    - (basis Slab i (e (S s)) (e s) (e (S s)) * (sg (S s) * d (S s)) - basis Slab i (e s) (e s) (e (S s)) * (sg s * d s)))) =
  sumn (S (fN c)) (fun f => sg f * d f * (side_r c e u f - side_l c e u f)).
Proof.
  set (A := fun f => sg f * d f * side_l c e u f). set (B := fun f => sg f * d f * side_r c e u f).
  transitivity (sumn (fN c) (fun s => B s - A (S s))).
  { apply sumn_ext. intros s Hs. unfold A, B, side_l, side_r. destruct (Nat.ltb_spec s (fN c)); [|lia]. unfold field.
    rewrite <- !sumn_scal, <- sumn_minus. apply sumn_ext. intros; ring. }
  rewrite sumn_minus. transitivity (sumn (S (fN c)) B - sumn (S (fN c)) A).
  { assert (A0 : A 0%nat = 0) by (unfold A; cbn [side_l]; ring).
    assert (BN : B (fN c) = 0) by (unfold B, side_r; rewrite Nat.ltb_irrefl; ring).
    rewrite (sumn_S_l _ A). cbn [sumn]. lra. }
  rewrite <- sumn_minus. apply sumn_ext. intros f _. unfold A, B. ring.
Qed.
End Res.
Lemma young s d J : - (Rabs s * J ^ 2) + 2 * (s * d * J) <= Rabs s * d ^ 2.
Proof.
  destruct (Rle_dec 0 s).
  - rewrite Rabs_pos_eq by auto. assert (0 <= s * (J - d) ^ 2) by (apply Rmult_le_pos; [auto|apply pow2_ge_0]). nra.
  - rewrite Rabs_left by lra. assert (0 <= - s * (J + d) ^ 2) by (apply Rmult_le_pos; [lra|apply pow2_ge_0]). nra.
Qed.

Section Rate.
Variables (c : flux_cfg) (t : R) (E : nat -> R -> R) (D : nat -> R).
Hypothesis Hg : fgeom c = Slab.
Hypothesis HN : (2 <= fN c)%nat.
Let e := fun k => E k t.
Hypothesis He : increasing (fN c) e.
Hypothesis HD : forall k, (k <= fN c)%nat -> is_derive (E k) t (D k).
Hypothesis Vl : ~ left_on c t.
Hypothesis Vr : ~ right_on c t.
Variables (N_ang : nat) (ws mus : nat -> R) (cc : R) (st : nat -> nat -> flux_state) (W : nat -> nat -> nat -> R -> R) (d : nat -> nat -> R).
Hypothesis HW : forall a s i, (a < N_ang)%nat -> (s < fN c)%nat -> (i <= fM c)%nat ->
  is_derive (W a s i) t (slab_rhs c (st a s) N_ang ws mus cc t e D (fun _ => 0) (fun l k j => W l k j t) a s i
     - (basis Slab i (e (S s)) (e s) (e (S s)) * ((mus a - D (S s)) * d a (S s)) - basis Slab i (e s) (e s) (e (S s)) * ((mus a - D s) * d a s))).
Hypothesis Hw : forall a, (a < N_ang)%nat -> 0 <= ws a.
Hypothesis H1 : sumn N_ang ws = 1.
Hypothesis Hc : 0 <= cc.

Lemma forced_rate : exists r : R,
  is_derive (fun w => energy c N_ang ws (fun k => E k w) (fun a s j => W a s j w)) t r /\
  r <= - (2 * (1 - cc)) * energy c N_ang ws e (fun a s j => W a s j t)
       + sumn N_ang (fun a => ws a * sumn (S (fN c)) (fun f => Rabs (mus a - D f) * d a f ^ 2)).
Proof.
  set (w0 := fun (a s j : nat) => W a s j t).
  set (rhs := fun a s i => slab_rhs c (st a s) N_ang ws mus cc t e D (fun _ => 0) w0 a s i).
  set (res := fun a s i => - (basis Slab i (e (S s)) (e s) (e (S s)) * ((mus a - D (S s)) * d a (S s)) - basis Slab i (e s) (e s) (e (S s)) * ((mus a - D s) * d a s))).
  (* a straight line with the same value and the rate without the residual *)
  set (V := fun a s i w => w0 a s i + (w - t) * rhs a s i).
  assert (V0 : forall a s i, V a s i t = w0 a s i) by (intros; unfold V; ring).
  assert (DV : forall a s i, is_derive (V a s i) t (rhs a s i)).
  { intros. unfold V. eapply dd_eq; [apply dd_plus; [apply dd_const|]; apply dd_scal_r; apply dd_minus; [apply dd_id|apply dd_const]|]. ring. }
  assert (EV : (fun l k j => V l k j t) = w0).
  { apply functional_extensionality; intros a. apply functional_extensionality; intros s. apply functional_extensionality; intros i. apply V0. }
  assert (HV : forall a s i, (a < N_ang)%nat -> (s < fN c)%nat -> (i <= fM c)%nat ->
     is_derive (V a s i) t (slab_rhs c (st a s) N_ang ws mus cc t e D (fun _ => 0) (fun l k j => V l k j t) a s i)).
  { intros a s i _ _ _. rewrite EV. apply DV. }

  assert (B1 := energy_balance c t E D Hg HN He HD Vl Vr N_ang ws mus cc st V HV).
  assert (B2 : is_derive (fun w => sumn N_ang (fun a => ws a * normsq c (fun k => E k w) (fun s j => V a s j w))) t
     (sumn N_ang (fun a => ws a * sumn (fN c) (fun s => sumn (fM c + 1) (fun i => 2 * (w0 a s i * rhs a s i)))))).
  { apply (dd_sumn N_ang (fun a w => ws a * normsq c (fun k => E k w) (fun s j => V a s j w))). intros a Ha. apply dd_scal.
    eapply dd_eq; [apply (norm_derive c t E D HN He HD (fun s j => V a s j) (rhs a)); intros; apply DV|].
    apply sumn_ext. intros s _. apply sumn_ext. intros i _. now rewrite V0. }
  assert (EQ := eq_trans (eq_sym (is_derive_unique _ _ _ B2)) (is_derive_unique _ _ _ B1)). clear B1 B2.
  assert (B3 : is_derive (fun w => energy c N_ang ws (fun k => E k w) (fun a s j => W a s j w)) t
     (sumn N_ang (fun a => ws a * sumn (fN c) (fun s => sumn (fM c + 1) (fun i => 2 * (w0 a s i * (rhs a s i + res a s i))))))).
  { unfold energy. apply (dd_sumn N_ang (fun a w => ws a * normsq c (fun k => E k w) (fun s j => W a s j w))). intros a Ha. apply dd_scal.
    apply (norm_derive c t E D HN He HD (fun s j => W a s j) (fun s i => rhs a s i + res a s i)). intros s i Hs Hi. exact (HW a s i Ha Hs Hi). }
  eexists. split; [exact B3|].
  assert (SPL : sumn N_ang (fun a => ws a * sumn (fN c) (fun s => sumn (fM c + 1) (fun i => 2 * (w0 a s i * (rhs a s i + res a s i))))) =
     sumn N_ang (fun a => ws a * sumn (fN c) (fun s => sumn (fM c + 1) (fun i => 2 * (w0 a s i * rhs a s i)))) +
     sumn N_ang (fun a => ws a * (2 * sumn (S (fN c)) (fun f => (mus a - D f) * d a f * (side_r c e (w0 a) f - side_l c e (w0 a) f))))).
  { rewrite <- sumn_plus. apply sumn_ext. intros a Ha. rewrite <- Rmult_plus_distr_l. f_equal.
    rewrite <- (residual_sum c e (fun f => mus a - D f) (d a) (w0 a)), <- sumn_scal, <- sumn_plus. apply sumn_ext. intros s Hs.
    rewrite <- sumn_scal, <- sumn_plus. apply sumn_ext. intros i Hi. unfold res. ring. }
  assert (EV1 : forall a, (fun s j => V a s j t) = w0 a) by (intros a; exact (f_equal (fun g => g a) EV)).
  rewrite (sumn_ext N_ang (fun a => ws a * sumn (S (fN c)) (fun f => Rabs (mus a - D f) * (side_r c (fun k => E k t) (fun s j => V a s j t) f - side_l c (fun k => E k t) (fun s j => V a s j t) f) ^ 2))
     (fun a => ws a * sumn (S (fN c)) (fun f => Rabs (mus a - D f) * (side_r c e (w0 a) f - side_l c e (w0 a) f) ^ 2))) in EQ by (intros; now rewrite EV1).
  rewrite (sumn_ext N_ang (fun a => ws a * normsq c (fun k => E k t) (fun s j => V a s j t)) (fun a => ws a * normsq c e (w0 a))) in EQ by (intros; now rewrite EV1).
  assert (MN := mean_norm c t E He N_ang ws V Hw H1). fold e in MN.
  rewrite (sumn_ext N_ang (fun a => ws a * normsq c e (fun s j => V a s j t)) (fun a => ws a * normsq c e (w0 a))) in MN by (intros; now rewrite EV1).
  rewrite SPL, EQ. clear SPL EQ. unfold energy. change (fun a s j => W a s j t) with w0.
  set (A1 := sumn N_ang (fun a => ws a * sumn (S (fN c)) (fun f => Rabs (mus a - D f) * (side_r c e (w0 a) f - side_l c e (w0 a) f) ^ 2))).
  set (A2 := sumn N_ang (fun a => ws a * (2 * sumn (S (fN c)) (fun f => (mus a - D f) * d a f * (side_r c e (w0 a) f - side_l c e (w0 a) f))))).
  set (A3 := sumn N_ang (fun a => ws a * sumn (S (fN c)) (fun f => Rabs (mus a - D f) * d a f ^ 2))).
  assert (Y : - A1 + A2 <= A3).
  { unfold A1, A2, A3.
    replace (- sumn N_ang (fun a => ws a * sumn (S (fN c)) (fun f => Rabs (mus a - D f) * (side_r c e (w0 a) f - side_l c e (w0 a) f) ^ 2)))
      with (sumn N_ang (fun a => - ws a * sumn (S (fN c)) (fun f => Rabs (mus a - D f) * (side_r c e (w0 a) f - side_l c e (w0 a) f) ^ 2))).
    2: { rewrite <- (Rmult_1_l (sumn _ (fun a => ws a * _))), Ropp_mult_distr_l, <- sumn_scal. apply sumn_ext. intros; ring. }
    rewrite <- sumn_plus. apply sumn_le. intros a Ha.
    match goal with |- - ws a * ?p + ws a * (2 * ?q) <= _ => replace (- ws a * p + ws a * (2 * q)) with (ws a * (- 1 * p + 2 * q)) by ring end.
    apply Rmult_le_compat_l; [auto|]. rewrite <- !sumn_scal, <- sumn_plus. apply sumn_le. intros f Hf.
    pose proof (young (mus a - D f) (d a f) (side_r c e (w0 a) f - side_l c e (w0 a) f)). lra. }
  change (fun k => E k t) with e.
  set (N1 := sumn N_ang (fun a => ws a * normsq c e (w0 a))) in *.
  set (N2 := normsq c e (fun s j => sumn N_ang (fun a => ws a * V a s j t))) in *.
  assert (cc * N2 <= cc * N1) by (apply Rmult_le_compat_l; auto). lra.
Qed.
End Rate.

Section Est.
Variables (c : flux_cfg) (E D : nat -> R -> R) (N_ang : nat) (ws mus : nat -> R) (cc : R)
  (Q : nat -> R -> R -> R) (psi : nat -> nat -> R -> R -> R) (t0 t1 : R).
Hypothesis Hg : fgeom c = Slab.
Hypothesis HN : (2 <= fN c)%nat.
Hypothesis HM : mesh_c1 c E D.
Hypothesis Hinc : forall t, t0 <= t <= t1 -> increasing (fN c) (fun k => E k t).
Hypothesis HX : exact c E D N_ang ws mus cc Q psi t0 t1.
Hypothesis Hw : forall a, (a < N_ang)%nat -> 0 <= ws a.
Hypothesis H1 : sumn N_ang ws = 1.
Hypothesis Hc : 0 <= cc <= 1.
Variables (st : R -> nat -> nat -> flux_state) (V : nat -> nat -> nat -> R -> R) (g : R).
Hypothesis HV : solves c E D N_ang ws mus cc (fun s j t => pcoef E (Q s) s j t) st V t0 t1.
Hypothesis Hgp : forall t d, t0 <= t <= t1 -> defects c E D N_ang mus psi t d -> defect_sum c D N_ang ws mus t d <= g.
Hypothesis Hle : t0 <= t1.
Definition err (a s j : nat) (t : R) : R := V a s j t - pcoef E (psi a s) s j t.

Lemma estimate : energy c N_ang ws (fun k => E k t1) (fun a s j => err a s j t1) <=
  exp (- (2 * (1 - cc)) * (t1 - t0)) * energy c N_ang ws (fun k => E k t0) (fun a s j => err a s j t0) + g * (t1 - t0).
Proof.
  assert (G0 : 0 <= g).
  { destruct (defects_exist c E D N_ang mus psi HN t0 (Hinc t0 ltac:(lra))) as (d & Hd).
    apply (Rle_trans _ (defect_sum c D N_ang ws mus t0 d)); [|apply Hgp; auto; lra].
    apply sumn_nonneg. intros a Ha. apply Rmult_le_pos; [auto|]. apply sumn_nonneg. intros. apply Rmult_le_pos; [apply Rabs_pos|apply pow2_ge_0]. }
  apply (forced (fun w => energy c N_ang ws (fun k => E k w) (fun a s j => err a s j w)) (2 * (1 - cc)) g t0 t1 Hle ltac:(lra) G0).
  intros t Ht. destruct (defects_exist c E D N_ang mus psi HN t (Hinc t Ht)) as (d & Hd).
  destruct (forced_rate (closed c) t E (fun k => D k t) Hg HN (Hinc t Ht) (fun k Hk => proj1 (HM k Hk t)) (closed_l c t) (closed_r c t)
     N_ang ws mus cc (st t) err d) as (r & Hr & Hn); [|exact Hw|exact H1|apply Hc|].
  - intros a s i Ha Hs Hi. cbn [closed fN fM] in Hs, Hi. eapply dd_eq.
    + apply dd_minus; [exact (HV t Ht a s i Ha Hs Hi)|].
      exact (consistency c E D N_ang ws mus cc Q psi t0 t1 Hg HN HM HX t Ht (Hinc t Ht) (st t a s) d a s i Ha Hs Hi Hd).
    + cbv beta. unfold err. rewrite <- (rhs_minus c t (fun k => E k t) (fun k => D k t) Hg HN (Hinc t Ht) (st t a s) (st t a s) N_ang ws mus cc (fun j => pcoef E (Q s) s j t) (fun l k j => V l k j t) (fun l k j => pcoef E (psi l k) k j t) a s i Hs). ring.
  - exists r. split; [exact Hr|]. apply (Rle_trans _ _ _ Hn). apply Rplus_le_compat_l. apply (Hgp t d Ht Hd).
Qed.
End Est.
