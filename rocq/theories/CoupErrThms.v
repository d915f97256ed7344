(** C155: the error of the coupled radiation and material equations.  C156: the same for the numbers the time integration
    produces. *)
From Coquelicot Require Import Coquelicot.
From Verif Require Import Py PyLemmas Calc Legendre Cheb DGModel DGSpec DGProofs DGInt DGBalance DGFinal FuncLobatto StabSpec StabProofs SymSpec DepProofs DepThms ErrSpec ErrLeib ErrProofs ErrEnergy ErrApprox ErrThms ExistSpec ExistProofs ExistThms TimeModel TimeProofs TimeThms TimeOrder TimeOrderThms FullThms CoupErrSpec CoupErrProofs.

(* ---------------------------------------------------------------- C155 *)
(** The projections of an exact solution satisfy the two equations of the code up to the defects at the faces of the
    cell. *)
Theorem C155_consistent : forall c E D N_ang ws mus cc c_a l Q psi mat t0 t1 st ste d t s i,
  fgeom c = Slab -> (2 <= fN c)%nat -> mesh_c1 c E D -> increasing (fN c) (fun k => E k t) -> t0 <= t <= t1 -> 0 < l ->
  exact_coupled c E D N_ang ws mus cc c_a l Q psi mat t0 t1 ->
  defects c E D (S N_ang) (with_mat N_ang mus 0) (with_mat N_ang psi mat) t d -> (s < fN c)%nat -> (i <= fM c)%nat ->
  let H j := pcoef E (mat s) s j t in let S0 j := pcoef E (Q s) s j t in let P a k j := pcoef E (psi a k) k j t in
  let right := basis Slab i (E (S s) t) (E s t) (E (S s) t) in let left := basis Slab i (E s t) (E s t) (E (S s) t) in
  (forall a, (a < N_ang)%nat -> is_derive (pcoef E (psi a s) s i) t
    (slab_rhs_thermal c st N_ang ws mus cc c_a l t (fun k => E k t) (fun k => D k t) H S0 P a s i
     + right * ((mus a - D (S s) t) * d a (S s)) - left * ((mus a - D s t) * d a s))) /\
  is_derive (pcoef E (mat s) s i) t
    (slab_energy c ste N_ang ws c_a l t (fun k => E k t) (fun k => D k t) H S0 P (fun k j => pcoef E (mat k) k j t) s i
     + right * ((0 - D (S s) t) * d N_ang (S s)) - left * ((0 - D s t) * d N_ang s)).
Proof.
  intros c E D N_ang ws mus cc c_a l Q psi mat t0 t1 st ste d t s i Hg HN HM He Ht Hl HX Hd Hs Hi. cbv zeta. split.
  - intros a Ha. exact (rad_consistent c E D N_ang ws mus cc c_a l Q psi mat t0 t1 Hg HN HM HX Hl t Ht He d Hd st a s i Ha Hs Hi).
  - exact (mat_consistent c E D N_ang ws mus cc c_a l Q psi mat t0 t1 Hg HN HM HX Hl t Ht He d Hd ste s i Hs Hi).
Qed.
Print Assumptions C155_consistent.

Lemma energy_joint c A ws q e (U : nat -> nat -> nat -> R) : energy c (S A) (with_mat A ws q) e U = energy c A ws e U + q * normsq c e (U A).
Proof. unfold energy. cbn [sumn]. rewrite with_mat_A. f_equal. apply sumn_ext. intros a Ha. now rewrite with_mat_lt. Qed.
Lemma joint_weights A ws : sumn A ws = 1 -> sumn (S A) (with_mat A ws (1 / 4)) = 5 / 4.
Proof. intros H. cbn [sumn]. rewrite with_mat_A, (sumn_ext A _ ws) by (intros; now apply with_mat_lt). rewrite H. field. Qed.
Lemma joint_pos A ws : (forall a, (a < A)%nat -> 0 <= ws a) -> forall a, (a < S A)%nat -> 0 <= with_mat A ws (1 / 4) a.
Proof. intros H a Ha. unfold with_mat. destruct (Nat.eqb_spec a A); [lra|apply H; lia]. Qed.
(** The distance of a computed trajectory from the projections, radiation plus a quarter of the material, is governed by
    its initial value and the defects alone. *)
Theorem C155_error : forall c E D N_ang ws mus cc c_a l Q psi mat t0 t1 st ste V ee g,
  fgeom c = Slab -> (2 <= fN c)%nat -> t0 <= t1 -> mesh_c1 c E D -> (forall t, t0 <= t <= t1 -> increasing (fN c) (fun k => E k t)) ->
  exact_coupled c E D N_ang ws mus cc c_a l Q psi mat t0 t1 ->
  (forall a, (a < N_ang)%nat -> 0 <= ws a) -> sumn N_ang ws = 1 -> 0 <= c_a -> cc + c_a <= 1 -> 0 < l ->
  solves_thermal c E D N_ang ws mus cc c_a l ee (fun s j t => pcoef E (Q s) s j t) st ste V ee t0 t1 ->
  (forall t d, t0 <= t <= t1 -> defects c E D (S N_ang) (with_mat N_ang mus 0) (with_mat N_ang psi mat) t d ->
     defect_sum c D (S N_ang) (with_mat N_ang ws (1 / 4)) (with_mat N_ang mus 0) t d <= g) ->
  energy c N_ang ws (fun k => E k t1) (fun a s j => V a s j t1 - pcoef E (psi a s) s j t1) + 1 / 4 * normsq c (fun k => E k t1) (fun s j => ee s j t1 - pcoef E (mat s) s j t1) <=
  energy c N_ang ws (fun k => E k t0) (fun a s j => V a s j t0 - pcoef E (psi a s) s j t0) + 1 / 4 * normsq c (fun k => E k t0) (fun s j => ee s j t0 - pcoef E (mat s) s j t0)
  + g * (t1 - t0).
Proof.
  intros c E D N_ang ws mus cc c_a l Q psi mat t0 t1 st ste V ee g Hg HN Hle HM Hinc HX Hw H1 Hca Hcc Hl HV Hgp.
  assert (G0 : 0 <= g).
  { destruct (defects_exist c E D (S N_ang) (with_mat N_ang mus 0) (with_mat N_ang psi mat) HN t0 (Hinc t0 ltac:(lra))) as (d & Hd).
    apply (Rle_trans _ (defect_sum c D (S N_ang) (with_mat N_ang ws (1 / 4)) (with_mat N_ang mus 0) t0 d)); [|apply Hgp; auto; lra].
    apply sumn_nonneg. intros a Ha. apply Rmult_le_pos; [now apply joint_pos|]. apply sumn_nonneg. intros. apply Rmult_le_pos; [apply Rabs_pos|apply pow2_ge_0]. }
  pose (U := fun a s j t => V a s j t - pcoef E (psi a s) s j t). pose (u := fun s j t => ee s j t - pcoef E (mat s) s j t).
  assert (X := forced (fun w => energy c N_ang ws (fun k => E k w) (fun a s j => U a s j w) + 1 / 4 * normsq c (fun k => E k w) (fun s j => u s j w)) 0 g t0 t1 Hle (Rle_refl 0) G0).
  cbv beta in X. replace (- 0 * (t1 - t0)) with 0 in X by ring. rewrite exp_0, Rmult_1_l in X. apply X. clear X.
  intros t Ht. destruct (defects_exist c E D (S N_ang) (with_mat N_ang mus 0) (with_mat N_ang psi mat) HN t (Hinc t Ht)) as (d & Hd).
  destruct (coupled_forced (closed c) t E (fun k => D k t) Hg HN (Hinc t Ht) (fun k Hk => proj1 (HM k Hk t)) (closed_l c t) (closed_r c t)
     N_ang ws mus cc c_a l (st t) (ste t) U u d) as (r & Hr & Hn); auto.
  - intros a s i Ha Hs Hi. cbn [closed fN fM] in Hs, Hi. destruct (HV t Ht s i Hs Hi) as [X1 _].
    destruct (C155_consistent c E D N_ang ws mus cc c_a l Q psi mat t0 t1 (st t a s) (ste t s) d t s i Hg HN HM (Hinc t Ht) Ht Hl HX Hd Hs Hi) as [Y1 _].
    eapply dd_eq; [apply (dd_minus (V a s i) (pcoef E (psi a s) s i)); [exact (X1 a Ha)|exact (Y1 a Ha)]|].
    cbv beta. unfold U, u.
    rewrite <- (thermal_minus c t (fun k => E k t) (fun k => D k t) Hg HN (Hinc t Ht) (st t a s) (st t a s) N_ang ws mus cc c_a l (fun j => ee s j t) (fun j => pcoef E (mat s) s j t)
      (fun j => pcoef E (Q s) s j t) (fun l k j => V l k j t) (fun l k j => pcoef E (psi l k) k j t) a s i Hs) by lra. unfold resid. ring.
  - intros s i Hs Hi. cbn [closed fN fM] in Hs, Hi. destruct (HV t Ht s i Hs Hi) as [_ X2].
    destruct (C155_consistent c E D N_ang ws mus cc c_a l Q psi mat t0 t1 (ste t s) (ste t s) d t s i Hg HN HM (Hinc t Ht) Ht Hl HX Hd Hs Hi) as [_ Y2].
    eapply dd_eq; [apply (dd_minus (ee s i) (pcoef E (mat s) s i)); [exact X2|exact Y2]|].
    cbv beta. unfold U, u.
    rewrite <- (energy_minus c t (fun k => E k t) (fun k => D k t) Hg HN (Hinc t Ht) (ste t s) (ste t s) N_ang ws c_a l (fun j => ee s j t) (fun j => pcoef E (mat s) s j t)
      (fun j => pcoef E (Q s) s j t) (fun l k j => V l k j t) (fun l k j => pcoef E (psi l k) k j t) (fun k j => ee k j t) (fun k j => pcoef E (mat k) k j t) s i Hs) by lra. unfold resid. ring.
  - exists r. split; [exact Hr|]. apply (Rle_trans _ _ _ Hn). pose proof (Hgp t d Ht Hd) as B. unfold defect_sum in B. cbn [sumn] in B. rewrite !with_mat_A in B.
    rewrite (sumn_ext N_ang _ (fun a => ws a * dsq (closed c) (fun k => D k t) (mus a) (d a))) in B.
    2: { intros a Ha. now rewrite !with_mat_lt. }
    rewrite Ropp_0, Rmult_0_l, Rplus_0_l. unfold dsq in *. cbn [closed fN] in *. exact B.
Qed.
Print Assumptions C155_error.

(** ** Faces and distances *)
Section Rate.
Variables (c : flux_cfg) (E D : nat -> R -> R) (A : nat) (ws mus : nat -> R) (cc c_a l : R)
  (Q : nat -> R -> R -> R) (psi : nat -> nat -> R -> R -> R) (mat : nat -> R -> R -> R) (t0 t1 : R).
Hypothesis Hg : fgeom c = Slab.
Hypothesis HN : (2 <= fN c)%nat.
Hypothesis HX : exact_coupled c E D A ws mus cc c_a l Q psi mat t0 t1.
Hypothesis HI : inflow_exact c E D (S A) (with_mat A mus 0) (with_mat A psi mat) t0 t1.
Hypothesis Hw : forall a, (a < A)%nat -> 0 <= ws a.
Hypothesis H1 : sumn A ws = 1.
Let jg := with_mat A (radg c A ws cc c_a l Q psi mat) (matg c A ws c_a l Q psi mat).
Lemma one_joint a : (a < S A)%nat -> exact c E D 1 (fun _ => 1) (fun _ => with_mat A mus 0 a) 0 (oneQ (with_mat A psi mat a) (jg a)) (fun _ => with_mat A psi mat a) t0 t1.
Proof.
  intros Ha. apply one_exact; [|].
  - exact (joint_eq c E D A ws mus cc c_a l Q psi mat t0 t1 HN HX a Ha).
  - exact (joint_match c E D A ws mus cc c_a l Q psi mat t0 t1 HX a Ha).
Qed.
Lemma one_inflow a : (a < S A)%nat -> inflow_exact c E D 1 (fun _ => with_mat A mus 0 a) (fun _ => with_mat A psi mat a) t0 t1.
Proof. intros Ha b t v _ Ht. exact (HI a t v Ha Ht). Qed.
Variables (t dl : R).
Hypothesis Ht : t0 <= t <= t1.
Hypothesis He : increasing (fN c) (fun k => E k t).
Hypothesis Happ : forall a s, (a < S A)%nat -> (s < fN c)%nat -> exists q, deg_le (fM c) q /\ forall x, E s t <= x <= E (S s) t -> Rabs (with_mat A psi mat a s x t - q x) <= dl.
Lemma coupled_defect_sum d sg : defects c E D (S A) (with_mat A mus 0) (with_mat A psi mat) t d -> (forall a f, (a < S A)%nat -> (f <= fN c)%nat -> Rabs (with_mat A mus 0 a - D f t) <= sg) ->
  defect_sum c D (S A) (with_mat A ws (1 / 4)) (with_mat A mus 0) t d <= 5 / 4 * ((INR (fN c) + 1) * sg * (Cend (fM c) * dl) ^ 2).
Proof.
  intros Hd Hs. rewrite <- (joint_weights A ws H1), <- sumn_scal_r. unfold defect_sum. apply sumn_le. intros a Ha. apply Rmult_le_compat_l; [now apply joint_pos|].
  apply (Rle_trans _ (sumn (S (fN c)) (fun _ => sg * (Cend (fM c) * dl) ^ 2))).
  - apply sumn_le. intros f Hf.
    apply (Rle_trans _ _ _ (face_defect c E D 1 (fun _ => 1) (fun _ => with_mat A mus 0 a) 0 (oneQ (with_mat A psi mat a) (jg a)) (fun _ => with_mat A psi mat a) t0 t1 dl t Hg HN (one_joint a Ha) (one_inflow a Ha) Ht He
      (fun b s _ Hs' => Happ a s Ha Hs') (fun _ => d a) 0%nat f (fun b f' _ Hf' => Hd a f' Ha Hf') ltac:(lia) ltac:(lia))).
    apply Rmult_le_compat_r; [apply pow2_ge_0|]. apply Hs; [auto|lia].
  - rewrite sumn_const, S_INR. lra.
Qed.
Lemma coupled_distance_le V : distance c E (S A) (with_mat A ws (1 / 4)) (with_mat A psi mat) V t <=
  2 * energy c (S A) (with_mat A ws (1 / 4)) (fun k => E k t) (fun a s j => V a s j t - pcoef E (with_mat A psi mat a s) s j t) + 5 / 2 * (dl ^ 2 * (E (fN c) t - E 0%nat t)).
Proof.
  unfold distance, energy.
  replace (5 / 2 * (dl ^ 2 * (E (fN c) t - E 0%nat t))) with (5 / 4 * (2 * (dl ^ 2 * (E (fN c) t - E 0%nat t)))) by field.
  rewrite <- (joint_weights A ws H1), <- sumn_scal_r, <- sumn_scal, <- sumn_plus. apply sumn_le. intros a Ha.
  pose proof (distance_le c E D 1 (fun _ => 1) (fun _ => with_mat A mus 0 a) 0 (oneQ (with_mat A psi mat a) (jg a)) (fun _ => with_mat A psi mat a) t0 t1 dl t (one_joint a Ha) He
      (fun b s _ Hs' => Happ a s Ha Hs') (fun _ _ => Rle_0_1) ltac:(cbn; ring) (fun _ => V a)) as K.
  unfold distance, energy in K. cbn [sumn] in K. rewrite !Rplus_0_l, !Rmult_1_l in K.
  apply (Rmult_le_compat_l _ _ _ (joint_pos A ws Hw a Ha)) in K. lra.
Qed.
End Rate.

(** Order of the method.  Exact inflow, cells no wider than h, derivatives of order M+1 in x of both fields bounded by K,
    speeds relative to the faces (those of the faces included) bounded by sg, start from the projections.  The distance
    is the squared L2 distance of the radiation plus a quarter of that of the material. *)
Theorem C155_rate : forall c E D N_ang ws mus cc c_a l Q psi mat t0 t1 st ste V ee h K sg,
  fgeom c = Slab -> (2 <= fN c)%nat -> t0 <= t1 -> mesh_c1 c E D -> (forall t, t0 <= t <= t1 -> increasing (fN c) (fun k => E k t)) ->
  exact_coupled c E D N_ang ws mus cc c_a l Q psi mat t0 t1 ->
  inflow_exact c E D (S N_ang) (with_mat N_ang mus 0) (with_mat N_ang psi mat) t0 t1 ->
  (forall a, (a < N_ang)%nat -> 0 <= ws a) -> sumn N_ang ws = 1 -> 0 <= c_a -> cc + c_a <= 1 -> 0 < l ->
  solves_thermal c E D N_ang ws mus cc c_a l ee (fun s j t => pcoef E (Q s) s j t) st ste V ee t0 t1 ->
  (forall t s, t0 <= t <= t1 -> (s < fN c)%nat -> E (S s) t - E s t <= h) ->
  (forall a s t x k, (a < S N_ang)%nat -> (s < fN c)%nat -> t0 <= t <= t1 -> E s t <= x <= E (S s) t -> (k <= S (fM c))%nat -> ex_derive_n (fun y => with_mat N_ang psi mat a s y t) k x) ->
  (forall a s t x, (a < S N_ang)%nat -> (s < fN c)%nat -> t0 <= t <= t1 -> E s t <= x <= E (S s) t -> Rabs (Derive_n (fun y => with_mat N_ang psi mat a s y t) (S (fM c)) x) <= K) ->
  (forall a f t, (a < S N_ang)%nat -> (f <= fN c)%nat -> t0 <= t <= t1 -> Rabs (with_mat N_ang mus 0 a - D f t) <= sg) ->
  (forall s j, (s < fN c)%nat -> (j <= fM c)%nat -> ee s j t0 = pcoef E (mat s) s j t0 /\ forall a, (a < N_ang)%nat -> V a s j t0 = pcoef E (psi a s) s j t0) ->
  distance c E (S N_ang) (with_mat N_ang ws (1 / 4)) (with_mat N_ang psi mat) (with_mat N_ang V ee) t1 <=
  5 / 2 * (K * h ^ S (fM c) / INR (fact (S (fM c)))) ^ 2 * ((INR (fN c) + 1) * sg * Cend (fM c) ^ 2 * (t1 - t0) + (E (fN c) t1 - E 0%nat t1)).
Proof.
  intros c E D N_ang ws mus cc c_a l Q psi mat t0 t1 st ste V ee h K sg Hg HN Hle HM Hinc HX HI Hw H1 Hca Hcc Hl HV Hh Hs HK Hsg H0.
  set (M := fM c) in *. set (dl := K * h ^ S M / INR (fact (S M))).
  assert (App : forall t, t0 <= t <= t1 -> forall a s, (a < S N_ang)%nat -> (s < fN c)%nat -> exists q, deg_le (fM c) q /\ forall x, E s t <= x <= E (S s) t -> Rabs (with_mat N_ang psi mat a s x t - q x) <= dl).
  { intros t Ht a s Ha Hs'. assert (Hlt := Hinc t Ht s Hs'). cbv beta in Hlt.
    destruct (taylor M (fun y => with_mat N_ang psi mat a s y t) (E s t) (E (S s) t) K Hlt) as (q & Dq & Hq); [intros; now apply Hs|intros; now apply HK|].
    exists q. split; [exact Dq|]. intros x Hx. apply (Rle_trans _ _ _ (Hq x Hx)). unfold dl, Rdiv.
    apply Rmult_le_compat_r; [left; apply Rinv_0_lt_compat, lt_0_INR, lt_O_fact|].
    apply Rmult_le_compat_l; [apply (Rle_trans _ _ _ (Rabs_pos (Derive_n (fun y => with_mat N_ang psi mat a s y t) (S M) x))); now apply HK|].
    apply pow_incr. specialize (Hh t s Ht Hs'). lra. }
  assert (EST := C155_error c E D N_ang ws mus cc c_a l Q psi mat t0 t1 st ste V ee (5 / 4 * ((INR (fN c) + 1) * sg * (Cend M * dl) ^ 2)) Hg HN Hle HM Hinc HX Hw H1 Hca Hcc Hl HV).
  assert (EST' := EST (fun t d Ht Hd => coupled_defect_sum c E D N_ang ws mus cc c_a l Q psi mat t0 t1 Hg HN HX HI Hw H1 t dl Ht (Hinc t Ht) (App t Ht) d sg Hd (fun a f Ha Hf => Hsg a f t Ha Hf Ht))). clear EST.
  assert (Z : energy c N_ang ws (fun k => E k t0) (fun a s j => V a s j t0 - pcoef E (psi a s) s j t0) + 1 / 4 * normsq c (fun k => E k t0) (fun s j => ee s j t0 - pcoef E (mat s) s j t0) = 0).
  { assert (NZ : forall x : nat -> nat -> R, (forall s i, (s < fN c)%nat -> (i <= fM c)%nat -> x s i = 0) -> normsq c (fun k => E k t0) x = 0).
    { intros x Hx. rewrite normsq_coef by (apply Hinc; lra). apply sumn_zero. intros k Hk. apply sumn_zero. intros j Hj. rewrite Hx by (auto; lia). ring. }
    rewrite (NZ (fun s j => ee s j t0 - pcoef E (mat s) s j t0)) by (intros s i Hs' Hi; rewrite (proj1 (H0 s i Hs' Hi)); ring).
    unfold energy. rewrite (sumn_zero N_ang); [ring|]. intros a Ha. rewrite NZ; [ring|]. intros s i Hs' Hi. rewrite (proj2 (H0 s i Hs' Hi) a Ha). ring. }
  rewrite Z in EST'.
  pose proof (coupled_distance_le c E D N_ang ws mus cc c_a l Q psi mat t0 t1 HN HX Hw H1 t1 dl (Hinc t1 ltac:(lra)) (App t1 ltac:(lra)) (with_mat N_ang V ee)) as DL.
  rewrite energy_joint in DL. cbv beta in DL. rewrite !with_mat_A in DL.
  replace (energy c N_ang ws (fun k => E k t1) (fun a s j => with_mat N_ang V ee a s j t1 - pcoef E (with_mat N_ang psi mat a s) s j t1)) with
    (energy c N_ang ws (fun k => E k t1) (fun a s j => V a s j t1 - pcoef E (psi a s) s j t1)) in DL.
  2: { unfold energy. apply sumn_ext. intros a Ha. now rewrite !with_mat_lt. }
  fold dl. nra.
Qed.
Print Assumptions C155_rate.

Lemma exact_coupled_sub c E D A ws mus cc c_a l Q psi mat t0 t1 t : t <= t1 -> exact_coupled c E D A ws mus cc c_a l Q psi mat t0 t1 -> exact_coupled c E D A ws mus cc c_a l Q psi mat t0 t.
Proof.
  intros Ht [X1 X2 X3 X4]. split.
  - intros a s Ha Hs. destruct (X1 a s Ha Hs) as (fx & ft & C & EQ). exists fx, ft. split; [exact C|]. intros; apply EQ; [lra|auto].
  - intros s Hs. destruct (X2 s Hs) as (fx & ft & C & EQ). exists fx, ft. split; [exact C|]. intros; apply EQ; [lra|auto].
  - intros; apply X3; auto; lra.
  - intros; apply X4; auto; lra.
Qed.
(** Exact solutions that are polynomials of degree at most M in every cell are computed exactly, both fields, on moving
    meshes too. *)
Theorem C155_exact : forall c E D N_ang ws mus cc c_a l Q psi mat t0 t1 st ste V ee,
  fgeom c = Slab -> (2 <= fN c)%nat -> mesh_c1 c E D -> (forall t, t0 <= t <= t1 -> increasing (fN c) (fun k => E k t)) ->
  exact_coupled c E D N_ang ws mus cc c_a l Q psi mat t0 t1 ->
  inflow_exact c E D (S N_ang) (with_mat N_ang mus 0) (with_mat N_ang psi mat) t0 t1 ->
  (forall a, (a < N_ang)%nat -> 0 < ws a) -> sumn N_ang ws = 1 -> 0 <= c_a -> cc + c_a <= 1 -> 0 < l ->
  solves_thermal c E D N_ang ws mus cc c_a l ee (fun s j t => pcoef E (Q s) s j t) st ste V ee t0 t1 ->
  (forall a s t, (a < S N_ang)%nat -> (s < fN c)%nat -> t0 <= t <= t1 -> poly_le (fM c) (fun x => with_mat N_ang psi mat a s x t)) ->
  (forall s j, (s < fN c)%nat -> (j <= fM c)%nat -> ee s j t0 = pcoef E (mat s) s j t0 /\ forall a, (a < N_ang)%nat -> V a s j t0 = pcoef E (psi a s) s j t0) ->
  forall t s x, t0 <= t <= t1 -> (s < fN c)%nat ->
    field Slab (fM c) (fun j => ee s j t) (E s t) (E (S s) t) x = mat s x t /\
    forall a, (a < N_ang)%nat -> field Slab (fM c) (fun j => V a s j t) (E s t) (E (S s) t) x = psi a s x t.
Proof.
  intros c E D N_ang ws mus cc c_a l Q psi mat t0 t1 st ste V ee Hg HN HM Hinc HX HI Hw H1 Hca Hcc Hl HV HP H0 t s x Ht Hs.
  assert (Hw' : forall a, (a < N_ang)%nat -> 0 <= ws a) by (intros; left; auto).
  assert (App : forall t, t0 <= t <= t1 -> forall a s, (a < S N_ang)%nat -> (s < fN c)%nat -> exists q, deg_le (fM c) q /\ forall x, E s t <= x <= E (S s) t -> Rabs (with_mat N_ang psi mat a s x t - q x) <= 0).
  { intros w Hw0 b k Hb Hk. exists (fun x => with_mat N_ang psi mat b k x w). split; [apply deg_poly, HP; auto|]. intros y _. rewrite Rminus_eq_0, Rabs_R0. lra. }
  assert (DS : forall w d, t0 <= w <= t -> defects c E D (S N_ang) (with_mat N_ang mus 0) (with_mat N_ang psi mat) w d ->
     defect_sum c D (S N_ang) (with_mat N_ang ws (1 / 4)) (with_mat N_ang mus 0) w d <= 0).
  { intros w d Hw0 Hd.
    assert (B : exists sg, forall a f, (a < S N_ang)%nat -> (f <= fN c)%nat -> Rabs (with_mat N_ang mus 0 a - D f w) <= sg).
    { exists (sumn (S N_ang) (fun a => sumn (S (fN c)) (fun f => Rabs (with_mat N_ang mus 0 a - D f w)))). intros a f Ha Hf.
      assert (ST : forall n g i, (forall k, 0 <= g k) -> (i < n)%nat -> g i <= sumn n g).
      { induction n as [|n IH]; intros g i Hp Hi; [lia|]. cbn [sumn]. pose proof (Hp n). destruct (Nat.eq_dec i n) as [->|N]; [pose proof (sumn_nonneg n g ltac:(intros; apply Hp)); lra|].
        specialize (IH g i Hp ltac:(lia)). lra. }
      eapply Rle_trans; [|apply (ST (S N_ang) (fun a => sumn (S (fN c)) (fun f => Rabs (with_mat N_ang mus 0 a - D f w))) a); [intros; apply sumn_nonneg; intros; apply Rabs_pos|auto]].
      apply (ST (S (fN c)) (fun f => Rabs (with_mat N_ang mus 0 a - D f w)) f); [intros; apply Rabs_pos|lia]. }
    destruct B as (sg & B).
    pose proof (coupled_defect_sum c E D N_ang ws mus cc c_a l Q psi mat t0 t1 Hg HN HX HI Hw' H1 w 0 ltac:(lra) (Hinc w ltac:(lra)) (App w ltac:(lra)) d sg Hd B) as K.
    rewrite Rmult_0_r in K. replace (0 ^ 2) with 0 in K by ring. lra. }
  assert (EST := C155_error c E D N_ang ws mus cc c_a l Q psi mat t0 t st ste V ee 0 Hg HN (proj1 Ht) HM (fun w Hw0 => Hinc w ltac:(lra)) (exact_coupled_sub _ _ _ _ _ _ _ _ _ _ _ _ _ _ t (proj2 Ht) HX) Hw' H1 Hca Hcc Hl).
  specialize (EST ltac:(intros w Hw0; apply HV; lra) DS).
  assert (Z : energy c N_ang ws (fun k => E k t0) (fun a s j => V a s j t0 - pcoef E (psi a s) s j t0) + 1 / 4 * normsq c (fun k => E k t0) (fun s j => ee s j t0 - pcoef E (mat s) s j t0) = 0).
  { assert (NZ : forall x : nat -> nat -> R, (forall s i, (s < fN c)%nat -> (i <= fM c)%nat -> x s i = 0) -> normsq c (fun k => E k t0) x = 0).
    { intros y Hx. rewrite normsq_coef by (apply Hinc; lra). apply sumn_zero. intros k Hk. apply sumn_zero. intros j Hj. rewrite Hx by (auto; lia). ring. }
    rewrite (NZ (fun s j => ee s j t0 - pcoef E (mat s) s j t0)) by (intros k i Hs' Hi; rewrite (proj1 (H0 k i Hs' Hi)); ring).
    unfold energy. rewrite (sumn_zero N_ang); [ring|]. intros a Ha. rewrite NZ; [ring|]. intros k i Hs' Hi. rewrite (proj2 (H0 k i Hs' Hi) a Ha). ring. }
  rewrite Z in EST. clear Z. assert (I := Hinc t Ht).
  assert (N1 : forall b, (b < N_ang)%nat -> 0 <= ws b * normsq c (fun k => E k t) (fun s j => V b s j t - pcoef E (psi b s) s j t)) by (intros b Hb; apply Rmult_le_pos; [auto|now apply normsq_nonneg]).
  assert (N2 := normsq_nonneg c (fun k => E k t) (fun s j => ee s j t - pcoef E (mat s) s j t) I).
  assert (N3 : 0 <= energy c N_ang ws (fun k => E k t) (fun a s j => V a s j t - pcoef E (psi a s) s j t)) by (apply sumn_nonneg; auto).
  assert (ZI : forall y : nat -> nat -> R, normsq c (fun k => E k t) y = 0 -> forall i, (i < fM c + 1)%nat -> y s i = 0).
  { intros y Hy i Hi. rewrite normsq_coef in Hy by auto.
    assert (Zs := sumn_zero_inv (fN c) (fun s => sumn (fM c + 1) (fun i => y s i ^ 2)) ltac:(intros; apply sumn_nonneg; intros; apply pow2_ge_0) ltac:(lra) s Hs). cbv beta in Zs.
    assert (Zi := sumn_zero_inv (fM c + 1) (fun i => y s i ^ 2) ltac:(intros; apply pow2_ge_0) ltac:(lra) i Hi). cbv beta in Zi. nra. }
  assert (FE : forall u v : nat -> R, (forall i, (i < fM c + 1)%nat -> u i = v i) -> field Slab (fM c) u (E s t) (E (S s) t) x = field Slab (fM c) v (E s t) (E (S s) t) x).
  { intros u v Huv. unfold field. apply sumn_ext. intros i Hi. now rewrite Huv. }
  split.
  - rewrite (FE (fun j => ee s j t) (fun j => pcoef E (mat s) s j t)).
    + apply C119_reproduces; [now apply I|]. pose proof (HP N_ang s t ltac:(lia) Hs Ht) as P. now rewrite with_mat_A in P.
    + intros i Hi. pose proof (ZI (fun s j => ee s j t - pcoef E (mat s) s j t) ltac:(lra) i Hi) as Y. cbv beta in Y. lra.
  - intros a Ha. rewrite (FE (fun j => V a s j t) (fun j => pcoef E (psi a s) s j t)).
    + apply C119_reproduces; [now apply I|]. pose proof (HP a s t ltac:(lia) Hs Ht) as P. now rewrite with_mat_lt in P.
    + intros i Hi.
      assert (Y : ws a * normsq c (fun k => E k t) (fun s j => V a s j t - pcoef E (psi a s) s j t) = 0) by (apply (sumn_zero_inv N_ang _ N1 ltac:(unfold energy in *; lra) a Ha)).
      apply Rmult_integral in Y. destruct Y as [Y|Y]; [specialize (Hw a Ha); lra|]. apply (ZI (fun s j => V a s j t - pcoef E (psi a s) s j t)) with (i := i) in Y; [|exact Hi]. cbv beta in Y. lra.
Qed.
Print Assumptions C155_exact.

(** Example: direction 1, no scattering, absorption 1, linear functions on two cells whose common edge moves.  The
    radiation x (1 + t) heats a material that starts cold: 2 x t. *)
Definition mE (k : nat) (t : R) : R := match k with 0%nat => 0 | 1%nat => 1 + / 3 * t | _ => 3 end.
Definition mD (k : nat) (t : R) : R := match k with 1%nat => / 3 | _ => 0 end.
Definition mpsi (a s : nat) (x t : R) : R := x * (1 + t).
Definition mmat (s : nat) (x t : R) : R := 2 * (x * t).
Definition mQ (s : nat) (x t : R) : R := 2 + 2 * t + 4 * x.
Lemma mD_mesh : mesh_c1 xC mE mD.
Proof.
  intros k _ t. split; [|destruct k as [|[|k]]; apply cconst]. destruct k as [|[|k]]; unfold mE, mD; [apply dd_const| |apply dd_const].
  eapply dd_eq; [apply dd_plus; [apply dd_const|apply dd_scal, dd_id]|ring].
Qed.
Lemma mE_inc t : 0 <= t <= 3 -> increasing (fN xC) (fun k => mE k t).
Proof. intros Ht k Hk. cbn in Hk. destruct k as [|[|k]]; [| |lia]; unfold mE; lra. Qed.
Lemma m_cont_lin (p q : R) x t : continuity_2d_pt (fun x t => p + q * t) x t /\ continuity_2d_pt (fun x t => p + q * x) x t.
Proof.
  split; (apply continuity_2d_pt_plus; [apply continuity_2d_pt_const|apply continuity_2d_pt_mult; [apply continuity_2d_pt_const|]]); [apply continuity_2d_pt_id2|apply continuity_2d_pt_id1].
Qed.
Lemma m_c1_psi a s : c1 (mpsi a s) (fun x t => 1 + 1 * t) (fun x t => 0 + 1 * x).
Proof.
  intros x t. unfold mpsi. split; [|split; [|split]].
  - eapply dd_eq; [apply (dd_mult (fun y => y) (fun _ => 1 + t)); [apply dd_id|apply dd_const]|]. ring.
  - eapply dd_eq; [apply dd_scal, (dd_plus (fun _ => 1) (fun w => w)); [apply dd_const|apply dd_id]|]. ring.
  - apply m_cont_lin.
  - apply m_cont_lin.
Qed.
Lemma m_c1_mat s : c1 (mmat s) (fun x t => 0 + 2 * t) (fun x t => 0 + 2 * x).
Proof.
  intros x t. unfold mmat. split; [|split; [|split]].
  - eapply dd_eq; [apply dd_scal, (dd_mult (fun y => y) (fun _ => t)); [apply dd_id|apply dd_const]|]. ring.
  - eapply dd_eq; [apply dd_scal, dd_scal, dd_id|]. ring.
  - apply m_cont_lin.
  - apply m_cont_lin.
Qed.
Lemma m_c1_Q s : c1 (mQ s) (fun x t => 4 + 0 * t) (fun x t => 2 + 0 * t).
Proof.
  intros x t. unfold mQ. split; [|split; [|split]].
  - eapply dd_eq; [apply (dd_plus (fun _ => 2 + 2 * t)); [apply dd_const|apply dd_scal, dd_id]|]. ring.
  - eapply dd_eq; [apply (dd_plus (fun w => 2 + 2 * w) (fun _ => 4 * x)); [apply dd_plus; [apply dd_const|apply dd_scal, dd_id]|apply dd_const]|]. ring.
  - apply m_cont_lin.
  - apply m_cont_lin.
Qed.
Example C155_example_exact : exact_coupled xC mE mD 1 (fun _ => 1) (fun _ => 1) 0 1 1 mQ mpsi mmat 0 3.
Proof.
  split.
  - intros a s _ _. eexists _, _. split; [apply m_c1_psi|]. intros t x _ _. unfold mpsi, mmat, mQ. cbn [uncollided_on xC sumn]. field.
  - intros s _. eexists _, _. split; [apply m_c1_mat|]. intros t x _ _. unfold mpsi, mmat, mQ. cbn [uncollided_on xC sumn]. field.
  - intros s t x _ _. apply (c1_cont _ _ _ _ _ (m_c1_Q s)).
  - intros a f t Ha Hf Ht. unfold with_mat. destruct (a =? 1)%nat; unfold mpsi, mmat; ring.
Qed.
Example C155_example_inflow : inflow_exact xC mE mD 2 (with_mat 1 (fun _ => 1) 0) (with_mat 1 mpsi mmat) 0 3.
Proof.
  intros a t v Ha Ht. split; intros Hd H.
  - inversion H; subst; [destruct (x_off t); contradiction|discriminate|]. unfold with_mat. destruct (a =? 1)%nat; unfold mpsi, mmat, mE; ring.
  - exfalso. revert Hd. unfold with_mat, mD. cbn [fN xC]. destruct (a =? 1)%nat; lra.
Qed.
Lemma m_poly a s t : poly_le (fM xC) (fun x => with_mat 1 mpsi mmat a s x t).
Proof.
  unfold with_mat. destruct (a =? 1)%nat.
  - exists (fun j => match j with 1%nat => 2 * t | _ => 0 end). intros x. unfold mmat. cbn. ring.
  - exists (fun j => match j with 1%nat => 1 + t | _ => 0 end). intros x. unfold mpsi. cbn. ring.
Qed.
(** every trajectory of the code that starts as the projections is this solution, at all times up to 3 *)
Example C155_example : forall st ste V ee,
  solves_thermal xC mE mD 1 (fun _ => 1) (fun _ => 1) 0 1 1 ee (fun s j t => pcoef mE (mQ s) s j t) st ste V ee 0 3 ->
  (forall s j, (s < 2)%nat -> (j <= 1)%nat -> ee s j 0 = pcoef mE (mmat s) s j 0 /\ forall a, (a < 1)%nat -> V a s j 0 = pcoef mE (mpsi a s) s j 0) ->
  forall t s x, 0 <= t <= 3 -> (s < 2)%nat ->
   field Slab 1 (fun j => ee s j t) (mE s t) (mE (S s) t) x = 2 * (x * t) /\ field Slab 1 (fun j => V 0%nat s j t) (mE s t) (mE (S s) t) x = x * (1 + t).
Proof.
  intros st ste V ee HV H0 t s x Ht Hs.
  destruct (C155_exact xC mE mD 1 (fun _ => 1) (fun _ => 1) 0 1 1 mQ mpsi mmat 0 3 st ste V ee eq_refl ltac:(cbn; lia) mD_mesh mE_inc C155_example_exact C155_example_inflow
    (fun _ _ => Rlt_0_1) ltac:(cbn; ring) ltac:(lra) ltac:(lra) ltac:(lra) HV (fun a s t _ _ _ => m_poly a s t) H0 t s x Ht Hs) as [K1 K2].
  split; [exact K1|exact (K2 0%nat ltac:(lia))].
Qed.
Lemma m_src_cont s i : (s < 2)%nat -> continuous_on (pcoef mE (mQ s) s i) 0 3.
Proof.
  intros Hs t Ht. apply (ex_derive_continuous (pcoef mE (mQ s) s i)).
  destruct (leibniz (mE s) (mE (S s)) (mD s) (mD (S s)) (mQ s) (fun x t => 4 + 0 * t) (fun x t => 2 + 0 * t)) with (i := i) (t := t) as (I1 & I2 & _ & _ & K).
  - intros w. apply mD_mesh. cbn. lia.
  - intros w. apply mD_mesh. cbn. lia.
  - apply m_c1_Q.
  - apply (mE_inc t Ht s). exact Hs.
  - eexists. exact K.
Qed.
Example C155_example_exists : exists st ste V ee,
  solves_thermal xC mE mD 1 (fun _ => 1) (fun _ => 1) 0 1 1 ee (fun s j t => pcoef mE (mQ s) s j t) st ste V ee 0 3 /\
  forall s j, (s < 2)%nat -> (j <= 1)%nat -> ee s j 0 = pcoef mE (mmat s) s j 0 /\ forall a, (a < 1)%nat -> V a s j 0 = pcoef mE (mpsi a s) s j 0.
Proof.
  exists (fun _ _ _ => {| sh := 0; shp := 0; shm := 0 |}), (fun _ _ => {| sh := 0; shp := 0; shm := 0 |}).
  destruct (C131_coupled_exists xC mE mD 1 (fun _ => 1) (fun _ => 1) 0 1 1 (fun s j t => pcoef mE (mQ s) s j t) (fun _ _ _ => {| sh := 0; shp := 0; shm := 0 |}) (fun _ _ => {| sh := 0; shp := 0; shm := 0 |})
    (fun a s j => pcoef mE (mpsi a s) s j 0) (fun s j => pcoef mE (mmat s) s j 0) 0 3) as (V & ee & HV & H0); auto.
  - lra.
  - intros t Ht. split; [now apply mE_inc|]. intros k Hk. apply (mD_mesh k Hk t).
  - intros k Hk w _. apply (mD_mesh k Hk w).
  - intros s i Hs _. now apply m_src_cont.
  - apply C131_steady_when. right. split; [reflexivity|left; reflexivity].
  - exists V, ee. split; [exact HV|]. intros s j _ _. apply H0.
Qed.

(* ---------------------------------------------------------------- C156 *)
(** the bound of [C155_rate] *)
Definition coupled_bound (c : flux_cfg) (E : nat -> R -> R) (h K sg t0 t1 : R) : R :=
  5 / 2 * (K * h ^ S (fM c) / INR (fact (S (fM c)))) ^ 2 * ((INR (fN c) + 1) * sg * Cend (fM c) ^ 2 * (t1 - t0) + (E (fN c) t1 - E 0%nat t1)).
Section Near.
Variables (c : flux_cfg) (E D : nat -> R -> R) (A : nat) (ws mus : nat -> R) (cc c_a l : R)
  (Q : nat -> R -> R -> R) (psi : nat -> nat -> R -> R -> R) (mat : nat -> R -> R -> R) (t0 t1 : R).
Hypothesis HN : (2 <= fN c)%nat.
Hypothesis HX : exact_coupled c E D A ws mus cc c_a l Q psi mat t0 t1.
Hypothesis Hw : forall a, (a < A)%nat -> 0 <= ws a.
Variable t : R.
Hypothesis He : increasing (fN c) (fun k => E k t).
Lemma coupled_near (V W : nat -> nat -> nat -> R -> R) th : 0 < th ->
  distance c E (S A) (with_mat A ws (1 / 4)) (with_mat A psi mat) W t <= (1 + th) * distance c E (S A) (with_mat A ws (1 / 4)) (with_mat A psi mat) V t
   + (1 + / th) * energy c (S A) (with_mat A ws (1 / 4)) (fun k => E k t) (fun a s j => W a s j t - V a s j t).
Proof.
  intros Hth. unfold distance, energy. rewrite <- !sumn_scal, <- sumn_plus. apply sumn_le. intros a Ha.
  pose proof (distance_near c E D 1 (fun _ => 1) (fun _ => with_mat A mus 0 a) 0 _ (fun _ => with_mat A psi mat a) t0 t1 (fun _ => V a) (fun _ => W a) t th (one_joint c E D A ws mus cc c_a l Q psi mat t0 t1 HN HX a Ha) He (fun _ _ => Rle_0_1) Hth) as K.
  unfold distance, energy in K. cbn [sumn] in K. rewrite !Rplus_0_l, !Rmult_1_l in K.
  apply (Rmult_le_compat_l _ _ _ (joint_pos A ws Hw a Ha)) in K. lra.
Qed.
Lemma coupled_distance_pos (V : nat -> nat -> nat -> R -> R) : 0 <= distance c E (S A) (with_mat A ws (1 / 4)) (with_mat A psi mat) V t.
Proof.
  unfold distance. apply sumn_nonneg. intros a Ha. apply Rmult_le_pos; [now apply joint_pos|]. apply sumn_nonneg. intros s Hs'. assert (Hlt := He s Hs'). cbv beta in Hlt.
  apply RInt_ge_0; [lra| |intros; apply pow2_ge_0]. eexists. apply int_val. intros y. apply cpow, cminus; [apply field_cont; auto|].
  destruct (ex_eq _ _ _ _ _ _ _ _ _ _ _ (one_joint c E D A ws mus cc c_a l Q psi mat t0 t1 HN HX a Ha) 0%nat s ltac:(lia) Hs') as (fx & ft & C & _). apply (c1_cont _ _ _ _ _ C).
Qed.
End Near.
Lemma coupled_small c A ws e (u : nat -> nat -> nat -> R) d : increasing (fN c) e -> (forall a, (a < A)%nat -> 0 <= ws a) -> sumn A ws = 1 ->
  (forall a s j, (a < S A)%nat -> (s < fN c)%nat -> (j <= fM c)%nat -> Rabs (u a s j) <= d) ->
  energy c (S A) (with_mat A ws (1 / 4)) e u <= 5 / 4 * (INR (fN c) * INR (fM c + 1) * d ^ 2).
Proof.
  intros He Hw H1 Hu. rewrite energy_joint.
  assert (B1 := energy_small c A ws e u d He Hw H1 ltac:(intros; apply Hu; auto)).
  assert (B2 := energy_small c 1 (fun _ => 1) e (fun _ => u A) d He (fun _ _ => Rle_0_1) ltac:(cbn; ring) ltac:(intros; apply Hu; auto)).
  unfold energy in B2 at 1. cbn [sumn] in B2. lra.
Qed.
(** A moving mesh, any consistent method: with steps short enough the numbers computed for radiation and material
    exceed the bound of [C155_rate] by as little as wanted. *)
Theorem C156_moving_mesh : forall T c E D N_ang ws mus cc c_a l Q psi mat t0 t1 st ste h K sg,
  consistent T -> fgeom c = Slab -> (2 <= fN c)%nat -> t0 <= t1 -> mesh_c1 c E D -> (forall t, t0 <= t <= t1 -> increasing (fN c) (fun k => E k t)) ->
  (forall s i, (s < fN c)%nat -> (i <= fM c)%nat -> continuous_on (pcoef E (Q s) s i) t0 t1) -> steady c t0 t1 ->
  exact_coupled c E D N_ang ws mus cc c_a l Q psi mat t0 t1 ->
  inflow_exact c E D (S N_ang) (with_mat N_ang mus 0) (with_mat N_ang psi mat) t0 t1 ->
  (forall a, (a < N_ang)%nat -> 0 <= ws a) -> sumn N_ang ws = 1 -> 0 <= c_a -> cc + c_a <= 1 -> 0 < l ->
  (forall t s, t0 <= t <= t1 -> (s < fN c)%nat -> E (S s) t - E s t <= h) ->
  (forall a s t x k, (a < S N_ang)%nat -> (s < fN c)%nat -> t0 <= t <= t1 -> E s t <= x <= E (S s) t -> (k <= S (fM c))%nat -> ex_derive_n (fun y => with_mat N_ang psi mat a s y t) k x) ->
  (forall a s t x, (a < S N_ang)%nat -> (s < fN c)%nat -> t0 <= t <= t1 -> E s t <= x <= E (S s) t -> Rabs (Derive_n (fun y => with_mat N_ang psi mat a s y t) (S (fM c)) x) <= K) ->
  (forall a f t, (a < S N_ang)%nat -> (f <= fN c)%nat -> t0 <= t <= t1 -> Rabs (with_mat N_ang mus 0 a - D f t) <= sg) ->
  forall eps, 0 < eps -> exists delta, 0 < delta /\ forall hs y, (forall h, In h hs -> 0 <= h <= delta) -> t0 + total hs = t1 ->
    vector (S N_ang) (fN c) (fM c) y ->
    (forall a s j, (a < S N_ang)%nat -> (s < fN c)%nat -> (j <= fM c)%nat -> y (a, s, j) = pcoef E (with_mat N_ang psi mat a s) s j t0) ->
    let F := coupledR c E D N_ang ws mus cc c_a l (fun s j t => pcoef E (Q s) s j t) st ste in
    (exists y', rk_run T F t0 y hs y') /\
    forall y', rk_run T F t0 y hs y' ->
      distance c E (S N_ang) (with_mat N_ang ws (1 / 4)) (with_mat N_ang psi mat) (fun a s j _ => y' (a, s, j)) t1 <= coupled_bound c E h K sg t0 t1 + eps.
Proof.
  intros T c E D N_ang ws mus cc c_a l Q psi mat t0 t1 st ste h K sg HT Hg HN Hle HM Hinc HS Hst HX HI Hw H1 Hca Hcc Hl Hh Hs HK Hsg eps He.
  assert (MO : mesh_ok c E D t0 t1) by (intros t Ht; split; [now apply Hinc|intros k Hk; apply (HM k Hk t)]).
  assert (CD : forall k, (k <= fN c)%nat -> continuous_on (D k) t0 t1) by (intros k Hk w Hw'; now apply HM).
  destruct (C131_coupled_exists c E D N_ang ws mus cc c_a l (fun s j t => pcoef E (Q s) s j t) st ste (fun a s j => pcoef E (psi a s) s j t0) (fun s j => pcoef E (mat s) s j t0) t0 t1) as (V & ee & HV & H0); auto.
  set (B := coupled_bound c E h K sg t0 t1). set (J := with_mat N_ang V ee).
  assert (DV : distance c E (S N_ang) (with_mat N_ang ws (1 / 4)) (with_mat N_ang psi mat) J t1 <= B).
  { apply (C155_rate c E D N_ang ws mus cc c_a l Q psi mat t0 t1 st ste V ee h K sg); auto. }
  assert (NF : 0 <= INR (fN c) * INR (fM c + 1)) by (apply Rmult_le_pos; apply pos_INR).
  assert (It1 := Hinc t1 ltac:(lra)).
  assert (D0 := coupled_distance_pos c E D N_ang ws mus cc c_a l Q psi mat t0 t1 HN HX Hw t1 It1 J).
  set (th := eps / (2 * (B + 1))). assert (Th : 0 < th) by (unfold th; apply Rdiv_lt_0_compat; lra).
  set (G := (1 + / th) * (5 / 4 * (INR (fN c) * INR (fM c + 1))) + 1).
  assert (Ti : 0 < / th) by now apply Rinv_0_lt_compat.
  assert (PG : 1 <= G) by (unfold G; assert (0 <= (1 + / th) * (5 / 4 * (INR (fN c) * INR (fM c + 1)))) by (apply Rmult_le_pos; lra); lra).
  set (e := sqrt (eps / (2 * G))). assert (Pe : 0 < e) by (apply sqrt_lt_R0, Rdiv_lt_0_compat; lra).
  destruct (C138_coupled T c E D N_ang ws mus cc c_a l (fun s j t => pcoef E (Q s) s j t) st ste st ste V ee t0 t1 HT Hg HN Hle MO CD HS Hst HV e Pe) as (d1 & P1 & R1).
  destruct (proj2 (C138_runs_exist T c E D N_ang ws mus cc c_a l (fun s j t => pcoef E (Q s) s j t) st ste t0 t1 HT Hg HN Hle MO CD HS Hst)) as (d2 & P2 & R2).
  exists (Rmin d1 d2). split; [now apply Rmin_pos|]. intros hs y Hhs Ht Hy Hy0 F.
  split.
  { destruct (R2 hs t0 y) as (z & Hz & _); [lra|intros x Hx; specialize (Hhs x Hx); pose proof (Rmin_r d1 d2); lra|lra|]. exists z. exact Hz. }
  intros y' Hrun.
  assert (CL : forall a s i, (a < S N_ang)%nat -> (s < fN c)%nat -> (i <= fM c)%nat -> Rabs (y' (a, s, i) - J a s i t1) <= e).
  { intros a s i Ha Hs' Hi. destruct (R1 hs y y') with (s := s) (i := i) as [K1 K2]; auto.
    - intros x Hx. specialize (Hhs x Hx). pose proof (Rmin_l d1 d2). lra.
    - lra.
    - intros k j Hk Hj. destruct (H0 k j) as [Z1 Z2]. split.
      + rewrite Hy0, with_mat_A, Z1 by auto. rewrite Rminus_eq_0, Rabs_R0. lra.
      + intros b Hb. rewrite Hy0, with_mat_lt, Z2 by auto. rewrite Rminus_eq_0, Rabs_R0. lra.
    - rewrite <- Ht. unfold J, with_mat. destruct (Nat.eqb_spec a N_ang) as [->|N]; [exact K1|apply K2; lia]. }
  eapply Rle_trans; [apply (coupled_near c E D N_ang ws mus cc c_a l Q psi mat t0 t1 HN HX Hw t1 It1 J (fun a s j _ => y' (a, s, j)) th Th)|].
  pose proof (coupled_small c N_ang ws (fun k => E k t1) (fun a s j => y' (a, s, j) - J a s j t1) e It1 Hw H1 CL) as EN.
  assert (e2 : e ^ 2 = eps / (2 * G)) by (unfold e; rewrite <- Rsqr_pow2; apply Rsqr_sqrt; left; apply Rdiv_lt_0_compat; lra).
  rewrite e2 in EN.
  set (EE := energy c (S N_ang) (with_mat N_ang ws (1 / 4)) (fun k => E k t1) (fun a s j => y' (a, s, j) - J a s j t1)) in *.
  assert (S1 : (1 + / th) * EE <= eps / 2).
  { apply Rle_trans with ((1 + / th) * (5 / 4 * (INR (fN c) * INR (fM c + 1) * (eps / (2 * G))))); [apply Rmult_le_compat_l; lra|].
    replace ((1 + / th) * (5 / 4 * (INR (fN c) * INR (fM c + 1) * (eps / (2 * G))))) with ((G - 1) * (eps / (2 * G))) by (unfold G; ring).
    replace (eps / 2) with (G * (eps / (2 * G))) by (field; lra). apply Rmult_le_compat_r; [left; apply Rdiv_lt_0_compat; lra|lra]. }
  set (DD := distance c E (S N_ang) (with_mat N_ang ws (1 / 4)) (with_mat N_ang psi mat) J t1) in *.
  assert (S2 : th * DD <= eps / 2).
  { apply Rle_trans with (th * (B + 1)); [apply Rmult_le_compat_l; lra|]. unfold th. right. field. lra. }
  lra.
Qed.
Print Assumptions C156_moving_mesh.

(** A mesh at rest, a source constant in time, a method of order p: twice that bound plus a multiple of the step length
    to the power 2p. *)
Theorem C156_mesh_at_rest : forall T p c E D N_ang ws mus cc c_a l Q psi mat t0 t1 st ste h K sg,
  consistent T -> order_linear T p -> fgeom c = Slab -> (2 <= fN c)%nat -> t0 <= t1 -> mesh_c1 c E D -> (forall t, t0 <= t <= t1 -> increasing (fN c) (fun k => E k t)) ->
  at_rest c D (fun s i t => pcoef E (Q s) s i t) t0 t1 -> steady c t0 t1 ->
  exact_coupled c E D N_ang ws mus cc c_a l Q psi mat t0 t1 ->
  inflow_exact c E D (S N_ang) (with_mat N_ang mus 0) (with_mat N_ang psi mat) t0 t1 ->
  (forall a, (a < N_ang)%nat -> 0 <= ws a) -> sumn N_ang ws = 1 -> 0 <= c_a -> cc + c_a <= 1 -> 0 < l ->
  (forall t s, t0 <= t <= t1 -> (s < fN c)%nat -> E (S s) t - E s t <= h) ->
  (forall a s t x k, (a < S N_ang)%nat -> (s < fN c)%nat -> t0 <= t <= t1 -> E s t <= x <= E (S s) t -> (k <= S (fM c))%nat -> ex_derive_n (fun y => with_mat N_ang psi mat a s y t) k x) ->
  (forall a s t x, (a < S N_ang)%nat -> (s < fN c)%nat -> t0 <= t <= t1 -> E s t <= x <= E (S s) t -> Rabs (Derive_n (fun y => with_mat N_ang psi mat a s y t) (S (fM c)) x) <= K) ->
  (forall a f t, (a < S N_ang)%nat -> (f <= fN c)%nat -> t0 <= t <= t1 -> Rabs (with_mat N_ang mus 0 a - D f t) <= sg) ->
  exists C d0, 0 < C /\ 0 < d0 /\ forall d hs y, 0 <= d <= d0 -> (forall h, In h hs -> 0 <= h <= d) -> t0 + total hs = t1 ->
    vector (S N_ang) (fN c) (fM c) y ->
    (forall a s j, (a < S N_ang)%nat -> (s < fN c)%nat -> (j <= fM c)%nat -> y (a, s, j) = pcoef E (with_mat N_ang psi mat a s) s j t0) ->
    forall y', rk_run T (coupledR c E D N_ang ws mus cc c_a l (fun s j t => pcoef E (Q s) s j t) st ste) t0 y hs y' ->
    distance c E (S N_ang) (with_mat N_ang ws (1 / 4)) (with_mat N_ang psi mat) (fun a s j _ => y' (a, s, j)) t1 <= 2 * coupled_bound c E h K sg t0 t1 + C * d ^ (2 * p).
Proof.
  intros T p c E D N_ang ws mus cc c_a l Q psi mat t0 t1 st ste h K sg HT HP Hg HN Hle HM Hinc HR Hst HX HI Hw H1 Hca Hcc Hl Hh Hs HK Hsg.
  assert (MO : mesh_ok c E D t0 t1) by (intros t Ht; split; [now apply Hinc|intros k Hk; apply (HM k Hk t)]).
  assert (CD : forall k, (k <= fN c)%nat -> continuous_on (D k) t0 t1) by (intros k Hk w Hw'; now apply HM).
  pose proof HR as (RD & RS & R4).
  set (S0 := fun s j (_ : R) => pcoef E (Q s) s j t0).
  destruct (C131_coupled_exists c E D N_ang ws mus cc c_a l S0 st ste (fun a s j => pcoef E (psi a s) s j t0) (fun s j => pcoef E (mat s) s j t0) t0 t1) as (V & ee & HV0 & H0); auto.
  { intros s i _ _ w _. apply cconst. }
  assert (HV : solves_thermal c E D N_ang ws mus cc c_a l ee (fun s j t => pcoef E (Q s) s j t) st ste V ee t0 t1).
  { intros t Ht s i Hs' Hi. destruct (HV0 t Ht s i Hs' Hi) as [X1 X2]. unfold slab_rhs_thermal, slab_energy, S0 in *. cbv zeta in *. rewrite (RS s i t Hs' Hi Ht). auto. }
  set (B := coupled_bound c E h K sg t0 t1). set (J := with_mat N_ang V ee).
  assert (DV : distance c E (S N_ang) (with_mat N_ang ws (1 / 4)) (with_mat N_ang psi mat) J t1 <= B).
  { apply (C155_rate c E D N_ang ws mus cc c_a l Q psi mat t0 t1 st ste V ee h K sg); auto. }
  assert (NF : 0 <= INR (fN c) * INR (fM c + 1)) by (apply Rmult_le_pos; apply pos_INR).
  assert (It1 := Hinc t1 ltac:(lra)).
  destruct (C146_coupled T p c E D N_ang ws mus cc c_a l (fun s j t => pcoef E (Q s) s j t) st ste st ste V ee t0 t1 HT HP Hg HN Hle MO HR Hst HV) as (C & d0 & PC & Pd & R1).
  exists (5 / 2 * (INR (fN c) * INR (fM c + 1)) * C ^ 2 + 1), d0. split; [assert (0 <= 5 / 2 * (INR (fN c) * INR (fM c + 1)) * C ^ 2) by (apply Rmult_le_pos; [lra|apply pow2_ge_0]); lra|]. split; auto.
  intros d hs y Hd Hhs Ht Hy Hy0 y' Hrun.
  assert (CL : forall a s i, (a < S N_ang)%nat -> (s < fN c)%nat -> (i <= fM c)%nat -> Rabs (y' (a, s, i) - J a s i t1) <= C * d ^ p).
  { intros a s i Ha Hs' Hi. destruct (R1 d hs y y' 0) with (s := s) (i := i) as [K1 K2]; auto; try lra.
    - intros k j Hk Hj. destruct (H0 k j) as [Z1 Z2]. split.
      + rewrite Hy0, with_mat_A, Z1 by auto. rewrite Rminus_eq_0, Rabs_R0. lra.
      + intros b Hb. rewrite Hy0, with_mat_lt, Z2 by auto. rewrite Rminus_eq_0, Rabs_R0. lra.
    - rewrite <- Ht. replace (C * d ^ p) with (C * (0 + d ^ p)) by ring. unfold J, with_mat. destruct (Nat.eqb_spec a N_ang) as [->|N]; [exact K1|apply K2; lia]. }
  eapply Rle_trans; [apply (coupled_near c E D N_ang ws mus cc c_a l Q psi mat t0 t1 HN HX Hw t1 It1 J (fun a s j _ => y' (a, s, j)) 1 ltac:(lra))|].
  pose proof (coupled_small c N_ang ws (fun k => E k t1) (fun a s j => y' (a, s, j) - J a s j t1) (C * d ^ p) It1 Hw H1 CL) as EN.
  replace ((C * d ^ p) ^ 2) with (C ^ 2 * d ^ (2 * p)) in EN by (rewrite Rpow_mult_distr, (Nat.mul_comm 2 p), pow_mult; ring).
  assert (0 <= d ^ (2 * p)) by (apply pow_le; lra). rewrite Rinv_1.
  replace ((5 / 2 * (INR (fN c) * INR (fM c + 1)) * C ^ 2 + 1) * d ^ (2 * p)) with (5 / 2 * (INR (fN c) * INR (fM c + 1) * (C ^ 2 * d ^ (2 * p))) + d ^ (2 * p)) by ring.
  lra.
Qed.
Print Assumptions C156_mesh_at_rest.

(** the heated material of [C155_example] with RK45 on its moving mesh: with steps short enough the numbers at time 3 come
    as close to both fields as wanted *)
Example C156_example : forall st ste eps, 0 < eps -> exists delta, 0 < delta /\ forall hs y, (forall h, In h hs -> 0 <= h <= delta) -> 0 + total hs = 3 ->
  vector 2 2 1 y -> (forall a s j, (a < 2)%nat -> (s < 2)%nat -> (j <= 1)%nat -> y (a, s, j) = pcoef mE (with_mat 1 mpsi mmat a s) s j 0) ->
  let F := coupledR xC mE mD 1 (fun _ => 1) (fun _ => 1) 0 1 1 (fun s j t => pcoef mE (mQ s) s j t) st ste in
  (exists y', rk_run rk45 F 0 y hs y') /\
  forall y', rk_run rk45 F 0 y hs y' -> distance xC mE 2 (with_mat 1 (fun _ => 1) (1 / 4)) (with_mat 1 mpsi mmat) (fun a s j _ => y' (a, s, j)) 3 <= eps.
Proof.
  intros st ste eps He.
  destruct (C156_moving_mesh rk45 xC mE mD 1 (fun _ => 1) (fun _ => 1) 0 1 1 mQ mpsi mmat 0 3 st ste 3 0 2) with (eps := eps) as (d & Pd & H); auto.
  - apply rk45_ok.
  - lra.
  - apply mD_mesh.
  - apply mE_inc.
  - intros s i Hs Hi. now apply m_src_cont.
  - apply C131_steady_when. right. split; [reflexivity|left; reflexivity].
  - apply C155_example_exact.
  - apply C155_example_inflow.
  - intros; lra.
  - cbn. ring.
  - lra.
  - lra.
  - lra.
  - intros t s Ht Hs. cbn in Hs. destruct s as [|[|s]]; [| |lia]; unfold mE; lra.
  - intros a s t x k _ _ _ _ Hk. unfold with_mat. destruct (a =? 1)%nat.
    + apply (ex_derive_n_ext (fun y => (2 * t) * y ^ 1)); [intros; unfold mmat; ring|]. apply ex_derive_n_scal_l, ex_derive_n_pow.
    + apply (ex_derive_n_ext (fun y => (1 + t) * y ^ 1)); [intros; unfold mpsi; ring|]. apply ex_derive_n_scal_l, ex_derive_n_pow.
  - intros a s t x _ _ _ _. cbn [fM xC]. replace (Derive_n (fun y => with_mat 1 mpsi mmat a s y t) 2 x) with 0; [rewrite Rabs_R0; lra|].
    assert (Z : forall q x, Derive_n (fun y => q * y) 2 x = 0).
    { intros q z. change (Derive (Derive (fun y => q * y)) z = 0). rewrite (Derive_ext _ (fun _ => q)); [apply Derive_const|]. intros w. rewrite Derive_scal, Derive_id. ring. }
    symmetry. unfold with_mat. destruct (a =? 1)%nat.
    + rewrite (Derive_n_ext _ (fun y => (2 * t) * y)); [apply Z|]. intros; unfold mmat; ring.
    + rewrite (Derive_n_ext _ (fun y => (1 + t) * y)); [apply Z|]. intros; unfold mpsi; ring.
  - intros a f t _ Hf _. unfold with_mat, mD. apply Rabs_le. destruct (a =? 1)%nat, f as [|[|f]]; lra.
  - exists d. split; auto. intros hs y Hh Ht Hy Hy0 F. destruct (H hs y Hh Ht Hy Hy0) as [K1 K2]. split; [exact K1|].
    intros y' Hr. specialize (K2 y' Hr). unfold coupled_bound in K2. replace (5 / 2 * (0 * 3 ^ S (fM xC) / INR (fact (S (fM xC)))) ^ 2) with 0 in K2 by (unfold Rdiv; ring). lra.
Qed.
