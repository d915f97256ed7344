(** C117-C121: how far the slab solution on a moving mesh is from the exact solution of the transport equation. *)
From Coquelicot Require Import Coquelicot.
From Verif Require Import Py PyLemmas Calc Legendre DGModel DGSpec DGProofs DGInt FuncLobatto StabSpec StabProofs ErrSpec ErrLeib ErrProofs ErrEnergy ErrApprox.

Lemma deg_poly M f : poly_le M f -> deg_le M f.
Proof.
  intros (a & H). apply (deg_ext M (fun x => sumn (M + 1) (fun k => a k * x ^ k))); [intros; now rewrite H|].
  apply deg_sumn. intros k Hk. apply (deg_ext M (fun x => a k * (x - 0) ^ k + 0 * (x - 0) ^ k)); [intros x; rewrite Rminus_0_r; ring|].
  apply deg_lin; apply (deg_mono k); try lia; apply deg_pow.
Qed.

(* ---------------------------------------------------------------- C117 *)
(** The projections of the exact solution on the moving cells satisfy the equations of the code up to the defects at
    the two faces. *)
Theorem C117_consistent : forall c E D N_ang ws mus cc Q psi t0 t1 st d t a s i,
  fgeom c = Slab -> (2 <= fN c)%nat -> mesh_c1 c E D -> increasing (fN c) (fun k => E k t) -> t0 <= t <= t1 ->
  exact c E D N_ang ws mus cc Q psi t0 t1 -> defects c E D N_ang mus psi t d ->
  (a < N_ang)%nat -> (s < fN c)%nat -> (i <= fM c)%nat ->
  is_derive (pcoef E (psi a s) s i) t
    (slab_rhs c st N_ang ws mus cc t (fun k => E k t) (fun k => D k t) (fun j => pcoef E (Q s) s j t) (fun l k j => pcoef E (psi l k) k j t) a s i
     + basis Slab i (E (S s) t) (E s t) (E (S s) t) * ((mus a - D (S s) t) * d a (S s))
     - basis Slab i (E s t) (E s t) (E (S s) t) * ((mus a - D s t) * d a s)).
Proof.
  intros c E D N_ang ws mus cc Q psi t0 t1 st d t a s i Hg HN HM He Ht HX Hd Ha Hs Hi.
  exact (consistency c E D N_ang ws mus cc Q psi t0 t1 Hg HN HM HX t Ht He st d a s i Ha Hs Hi Hd).
Qed.
Print Assumptions C117_consistent.
(** The defects exist, and only one choice is possible. *)
Theorem C117_defects : forall c E D N_ang mus psi t, (2 <= fN c)%nat -> increasing (fN c) (fun k => E k t) ->
  (exists d, defects c E D N_ang mus psi t d) /\
  forall d d', defects c E D N_ang mus psi t d -> defects c E D N_ang mus psi t d' -> forall a f, (a < N_ang)%nat -> (f <= fN c)%nat -> d a f = d' a f.
Proof.
  intros c E D N_ang mus psi t HN He. split; [apply defects_exist; auto|].
  intros d d' H H' a f Ha Hf. pose proof (face_fun c t _ _ _ _ _ HN He f _ _ (H a f Ha Hf) (H' a f Ha Hf)). lra.
Qed.
Print Assumptions C117_defects.

(* ---------------------------------------------------------------- C118 *)
(** The distance of a computed trajectory from the projected exact solution is governed by its initial value and the
    defects alone. *)
Theorem C118_error : forall c E D N_ang ws mus cc Q psi t0 t1 st V g,
  fgeom c = Slab -> (2 <= fN c)%nat -> t0 <= t1 -> mesh_c1 c E D -> (forall t, t0 <= t <= t1 -> increasing (fN c) (fun k => E k t)) ->
  exact c E D N_ang ws mus cc Q psi t0 t1 ->
  (forall a, (a < N_ang)%nat -> 0 <= ws a) -> sumn N_ang ws = 1 -> 0 <= cc <= 1 ->
  solves c E D N_ang ws mus cc (fun s j t => pcoef E (Q s) s j t) st V t0 t1 ->
  (forall t d, t0 <= t <= t1 -> defects c E D N_ang mus psi t d -> defect_sum c D N_ang ws mus t d <= g) ->
  energy c N_ang ws (fun k => E k t1) (fun a s j => V a s j t1 - pcoef E (psi a s) s j t1) <=
  exp (- (2 * (1 - cc)) * (t1 - t0)) * energy c N_ang ws (fun k => E k t0) (fun a s j => V a s j t0 - pcoef E (psi a s) s j t0) + g * (t1 - t0).
Proof.
  intros c E D N_ang ws mus cc Q psi t0 t1 st V g Hg HN Hle HM Hinc HX Hw H1 Hc HV Hd.
  exact (estimate c E D N_ang ws mus cc Q psi t0 t1 Hg HN HM Hinc HX Hw H1 Hc st V g HV Hd Hle).
Qed.
Print Assumptions C118_error.

(* ---------------------------------------------------------------- C119 *)
(** The projection on a cell reproduces polynomials; on smooth functions it is of order M+1 at the ends and in the mean. *)
Theorem C119_reproduces : forall M f E s t x, E s t < E (S s) t -> poly_le M (fun y => f y t) ->
  field Slab M (fun j => pcoef E f s j t) (E s t) (E (S s) t) x = f x t.
Proof.
  intros M f E s t x H P. exact (co_q M (E s t) (E (S s) t) (fun y => f y t) H (deg_poly M _ P) x).
Qed.
Print Assumptions C119_reproduces.
Theorem C119_order : forall M f E s t K, E s t < E (S s) t ->
  (forall x, continuous (fun y => f y t) x) ->
  (forall x k, E s t <= x <= E (S s) t -> (k <= S M)%nat -> ex_derive_n (fun y => f y t) k x) ->
  (forall x, E s t <= x <= E (S s) t -> Rabs (Derive_n (fun y => f y t) (S M) x) <= K) ->
  let h := E (S s) t - E s t in
  let P := field Slab M (fun j => pcoef E f s j t) (E s t) (E (S s) t) in
  Rabs (P (E s t) - f (E s t) t) <= Cend M * (K * h ^ S M / INR (fact (S M))) /\
  Rabs (P (E (S s) t) - f (E (S s) t) t) <= Cend M * (K * h ^ S M / INR (fact (S M))) /\
  RInt (fun x => (P x - f x t) ^ 2) (E s t) (E (S s) t) <= (K * h ^ S M / INR (fact (S M))) ^ 2 * h.
Proof.
  intros M f E s t K H C X B h P. destruct (taylor M (fun y => f y t) (E s t) (E (S s) t) K H X B) as (q & Dq & Hq).
  split; [|split].
  - apply (end_le M (E s t) (E (S s) t) (fun y => f y t) q _ H C Dq Hq); auto.
  - apply (end_le M (E s t) (E (S s) t) (fun y => f y t) q _ H C Dq Hq); auto.
  - apply (mean_le M (E s t) (E (S s) t) (fun y => f y t) q _ H C Dq Hq).
Qed.
Print Assumptions C119_order.

(* ---------------------------------------------------------------- C120 *)
(** Order of the method.  Exact inflow, cells no wider than h, derivatives of order M+1 in x bounded by K, speeds
    relative to the faces bounded by sg, start from the projection. *)
Theorem C120_rate : forall c E D N_ang ws mus cc Q psi t0 t1 st V h K sg,
  fgeom c = Slab -> (2 <= fN c)%nat -> t0 <= t1 -> mesh_c1 c E D -> (forall t, t0 <= t <= t1 -> increasing (fN c) (fun k => E k t)) ->
  exact c E D N_ang ws mus cc Q psi t0 t1 -> inflow_exact c E D N_ang mus psi t0 t1 ->
  (forall a, (a < N_ang)%nat -> 0 <= ws a) -> sumn N_ang ws = 1 -> 0 <= cc <= 1 ->
  solves c E D N_ang ws mus cc (fun s j t => pcoef E (Q s) s j t) st V t0 t1 ->
  (forall t s, t0 <= t <= t1 -> (s < fN c)%nat -> E (S s) t - E s t <= h) ->
  (forall a s t x k, (a < N_ang)%nat -> (s < fN c)%nat -> t0 <= t <= t1 -> E s t <= x <= E (S s) t -> (k <= S (fM c))%nat -> ex_derive_n (fun y => psi a s y t) k x) ->
  (forall a s t x, (a < N_ang)%nat -> (s < fN c)%nat -> t0 <= t <= t1 -> E s t <= x <= E (S s) t -> Rabs (Derive_n (fun y => psi a s y t) (S (fM c)) x) <= K) ->
  (forall a f t, (a < N_ang)%nat -> (f <= fN c)%nat -> t0 <= t <= t1 -> Rabs (mus a - D f t) <= sg) ->
  (forall a s j, (a < N_ang)%nat -> (s < fN c)%nat -> (j <= fM c)%nat -> V a s j t0 = pcoef E (psi a s) s j t0) ->
  distance c E N_ang ws psi V t1 <=
  2 * (K * h ^ S (fM c) / INR (fact (S (fM c)))) ^ 2 * ((INR (fN c) + 1) * sg * Cend (fM c) ^ 2 * (t1 - t0) + (E (fN c) t1 - E 0%nat t1)).
Proof.
  intros c E D N_ang ws mus cc Q psi t0 t1 st V h K sg Hg HN Hle HM Hinc HX HI Hw H1 Hc HV Hh Hs HK Hsg H0.
  set (M := fM c) in *. set (dl := K * h ^ S M / INR (fact (S M))).
  assert (App : forall t, t0 <= t <= t1 -> forall a s, (a < N_ang)%nat -> (s < fN c)%nat -> exists q, deg_le (fM c) q /\ forall x, E s t <= x <= E (S s) t -> Rabs (psi a s x t - q x) <= dl).
  { intros t Ht a s Ha Hs'. assert (Hlt := Hinc t Ht s Hs'). cbv beta in Hlt.
    destruct (taylor M (fun y => psi a s y t) (E s t) (E (S s) t) K Hlt) as (q & Dq & Hq); [intros; now apply Hs|intros; now apply HK|].
    exists q. split; [exact Dq|]. intros x Hx. apply (Rle_trans _ _ _ (Hq x Hx)). unfold dl, Rdiv.
    apply Rmult_le_compat_r; [left; apply Rinv_0_lt_compat, lt_0_INR, lt_O_fact|].
    apply Rmult_le_compat_l; [apply (Rle_trans _ _ _ (Rabs_pos (Derive_n (fun y => psi a s y t) (S M) x))); now apply HK|].
    apply pow_incr. specialize (Hh t s Ht Hs'). lra. }
  assert (EST := C118_error c E D N_ang ws mus cc Q psi t0 t1 st V ((INR (fN c) + 1) * sg * (Cend M * dl) ^ 2) Hg HN Hle HM Hinc HX Hw H1 Hc HV).
  assert (EST' := EST (fun t d Ht Hd => defect_sum_le c E D N_ang ws mus cc Q psi t0 t1 dl t Hg HN HX HI Ht (Hinc t Ht) (App t Ht) Hw H1 d sg Hd (fun a f Ha Hf => Hsg a f t Ha Hf Ht))). clear EST.
  assert (Z : energy c N_ang ws (fun k => E k t0) (fun a s j => V a s j t0 - pcoef E (psi a s) s j t0) = 0).
  { unfold energy. rewrite (sumn_ext N_ang _ (fun _ => 0 * 0)); [rewrite sumn_scal; ring|]. intros a Ha.
    rewrite normsq_coef by (apply Hinc; lra). rewrite (sumn_ext (fN c) _ (fun _ => 0 * 0)); [rewrite sumn_scal; ring|]. intros s Hs'.
    rewrite (sumn_ext (fM c + 1) _ (fun _ => 0 * 0)); [rewrite sumn_scal; ring|]. intros j Hj. rewrite H0 by (auto; lia). ring. }
  rewrite Z in EST'.
  pose proof (distance_le c E D N_ang ws mus cc Q psi t0 t1 dl t1 HX (Hinc t1 ltac:(lra)) (App t1 ltac:(lra)) Hw H1 V) as DL.
  nra.
Qed.
Print Assumptions C120_rate.
(** On meshes with at most w/h faces the squared distance is of order 2M+1 in the width of the cells. *)
Corollary C120_order : forall c E D N_ang ws mus cc Q psi t0 t1 st V h K sg w,
  fgeom c = Slab -> (2 <= fN c)%nat -> t0 <= t1 -> mesh_c1 c E D -> (forall t, t0 <= t <= t1 -> increasing (fN c) (fun k => E k t)) ->
  exact c E D N_ang ws mus cc Q psi t0 t1 -> inflow_exact c E D N_ang mus psi t0 t1 ->
  (forall a, (a < N_ang)%nat -> 0 <= ws a) -> sumn N_ang ws = 1 -> 0 <= cc <= 1 ->
  solves c E D N_ang ws mus cc (fun s j t => pcoef E (Q s) s j t) st V t0 t1 ->
  (forall t s, t0 <= t <= t1 -> (s < fN c)%nat -> E (S s) t - E s t <= h) ->
  (forall a s t x k, (a < N_ang)%nat -> (s < fN c)%nat -> t0 <= t <= t1 -> E s t <= x <= E (S s) t -> (k <= S (fM c))%nat -> ex_derive_n (fun y => psi a s y t) k x) ->
  (forall a s t x, (a < N_ang)%nat -> (s < fN c)%nat -> t0 <= t <= t1 -> E s t <= x <= E (S s) t -> Rabs (Derive_n (fun y => psi a s y t) (S (fM c)) x) <= K) ->
  (forall a f t, (a < N_ang)%nat -> (f <= fN c)%nat -> t0 <= t <= t1 -> Rabs (mus a - D f t) <= sg) ->
  (forall a s j, (a < N_ang)%nat -> (s < fN c)%nat -> (j <= fM c)%nat -> V a s j t0 = pcoef E (psi a s) s j t0) ->
  (INR (fN c) + 1) * h <= w ->
  distance c E N_ang ws psi V t1 <=
  2 * (K / INR (fact (S (fM c)))) ^ 2 * (w * sg * Cend (fM c) ^ 2 * (t1 - t0) + w * h) * h ^ (2 * fM c + 1).
Proof.
  intros c E D N_ang ws mus cc Q psi t0 t1 st V h K sg w Hg HN Hle HM Hinc HX HI Hw H1 Hc HV Hh Hs HK Hsg H0 HW.
  apply (Rle_trans _ _ _ (C120_rate c E D N_ang ws mus cc Q psi t0 t1 st V h K sg Hg HN Hle HM Hinc HX HI Hw H1 Hc HV Hh Hs HK Hsg H0)).
  assert (Tel : forall n, (n <= fN c)%nat -> E n t1 - E 0%nat t1 <= INR n * h).
  { induction n as [|n IH]; intros Hn; [cbn; lra|]. rewrite S_INR. specialize (IH ltac:(lia)). specialize (Hh t1 n ltac:(lra) ltac:(lia)). lra. }
  specialize (Tel (fN c) (le_n _)).
  assert (h0 : 0 < h) by (specialize (Hh t0 0%nat ltac:(lra) ltac:(lia)); specialize (Hinc t0 ltac:(lra) 0%nat ltac:(lia)); cbv beta in Hinc; lra).
  assert (NA : (0 < N_ang)%nat) by (destruct N_ang; [cbn in H1; lra|lia]).
  assert (sg0 : 0 <= sg) by (apply (Rle_trans _ _ _ (Rabs_pos (mus 0%nat - D 0%nat t0))), Hsg; auto; [lia|lra]).
  set (k := K / INR (fact (S (fM c)))). set (M := fM c) in *.
  replace ((K * h ^ S M / INR (fact (S M))) ^ 2) with (k ^ 2 * (h * h ^ (2 * M + 1))).
  2: { unfold k. replace (2 * M + 1)%nat with (M + S M)%nat by lia. rewrite pow_add. unfold Rdiv. cbn [pow]. ring. }
  assert (k2 : 0 <= k ^ 2) by apply pow2_ge_0. assert (hp : 0 <= h ^ (2 * M + 1)) by (apply pow_le; lra).
  assert (C2 : 0 <= Cend M ^ 2) by apply pow2_ge_0.
  replace (2 * (k ^ 2 * (h * h ^ (2 * M + 1))) * ((INR (fN c) + 1) * sg * Cend M ^ 2 * (t1 - t0) + (E (fN c) t1 - E 0%nat t1)))
    with (2 * k ^ 2 * (((INR (fN c) + 1) * h) * (sg * Cend M ^ 2 * (t1 - t0)) + (E (fN c) t1 - E 0%nat t1) * h) * h ^ (2 * M + 1)) by ring.
  apply Rmult_le_compat_r; [exact hp|]. apply Rmult_le_compat_l; [lra|]. apply Rplus_le_compat.
  - replace (w * sg * Cend M ^ 2 * (t1 - t0)) with (w * (sg * Cend M ^ 2 * (t1 - t0))) by ring.
    apply Rmult_le_compat_r; [|exact HW]. apply Rmult_le_pos; [apply Rmult_le_pos; auto|lra].
  - apply Rmult_le_compat_r; [lra|]. lra.
Qed.
Print Assumptions C120_order.

(* ---------------------------------------------------------------- C121 *)
(** Exact solutions that are polynomials of degree at most M in every cell are computed exactly, also with jumps at
    edges that move with the particles. *)
Theorem C121_exact : forall c E D N_ang ws mus cc Q psi t0 t1 st V,
  fgeom c = Slab -> (2 <= fN c)%nat -> mesh_c1 c E D -> (forall t, t0 <= t <= t1 -> increasing (fN c) (fun k => E k t)) ->
  exact c E D N_ang ws mus cc Q psi t0 t1 -> inflow_exact c E D N_ang mus psi t0 t1 ->
  (forall a, (a < N_ang)%nat -> 0 < ws a) -> sumn N_ang ws = 1 -> 0 <= cc <= 1 ->
  solves c E D N_ang ws mus cc (fun s j t => pcoef E (Q s) s j t) st V t0 t1 ->
  (forall a s t, (a < N_ang)%nat -> (s < fN c)%nat -> t0 <= t <= t1 -> poly_le (fM c) (fun x => psi a s x t)) ->
  (forall a s j, (a < N_ang)%nat -> (s < fN c)%nat -> (j <= fM c)%nat -> V a s j t0 = pcoef E (psi a s) s j t0) ->
  forall t a s x, t0 <= t <= t1 -> (a < N_ang)%nat -> (s < fN c)%nat ->
    field Slab (fM c) (fun j => V a s j t) (E s t) (E (S s) t) x = psi a s x t.
Proof.
  intros c E D N_ang ws mus cc Q psi t0 t1 st V Hg HN HM Hinc HX HI Hw H1 Hc HV HP H0 t a s x Ht Ha Hs.
  assert (Hw' : forall a, (a < N_ang)%nat -> 0 <= ws a) by (intros; left; auto).
  assert (App : forall t, t0 <= t <= t1 -> forall a s, (a < N_ang)%nat -> (s < fN c)%nat -> exists q, deg_le (fM c) q /\ forall x, E s t <= x <= E (S s) t -> Rabs (psi a s x t - q x) <= 0).
  { intros w Hw0 b k Hb Hk. exists (fun x => psi b k x w). split; [apply deg_poly, HP; auto|]. intros y _. rewrite Rminus_eq_0, Rabs_R0. lra. }
  assert (HX' : exact c E D N_ang ws mus cc Q psi t0 t).
  { destruct HX as [X1 X2]. split.
    - intros b k Hb Hk. destruct (X1 b k Hb Hk) as (fx & ft & C & EQ). exists fx, ft. split; [exact C|]. intros; apply EQ; [lra|auto].
    - intros; apply X2; auto; lra. }
  assert (EST := C118_error c E D N_ang ws mus cc Q psi t0 t st V 0 Hg HN (proj1 Ht) HM (fun w Hw0 => Hinc w ltac:(lra)) HX' Hw' H1 Hc).
  assert (EST' := EST ltac:(intros w Hw0; apply HV; lra)). clear EST.
  assert (Z : energy c N_ang ws (fun k => E k t0) (fun a s j => V a s j t0 - pcoef E (psi a s) s j t0) = 0).
  { unfold energy. rewrite (sumn_ext N_ang _ (fun _ => 0 * 0)); [rewrite sumn_scal; ring|]. intros b Hb.
    rewrite normsq_coef by (apply Hinc; lra). rewrite (sumn_ext (fN c) _ (fun _ => 0 * 0)); [rewrite sumn_scal; ring|]. intros k Hk.
    rewrite (sumn_ext (fM c + 1) _ (fun _ => 0 * 0)); [rewrite sumn_scal; ring|]. intros j Hj. rewrite H0 by (auto; lia). ring. }
  rewrite Z in EST'.
  assert (T0 : energy c N_ang ws (fun k => E k t) (fun a s j => V a s j t - pcoef E (psi a s) s j t) <= 0).
  { apply (Rle_trans _ (exp (- (2 * (1 - cc)) * (t - t0)) * 0 + 0 * (t - t0))); [|lra]. apply EST'.
    intros w d Hw0 Hd. unfold defect_sum. rewrite (sumn_ext N_ang _ (fun _ => 0 * 0)); [rewrite sumn_scal; lra|]. intros b Hb.
    rewrite (sumn_ext (S (fN c)) _ (fun _ => 0 * 0)); [rewrite sumn_scal; ring|]. intros f Hf.
    assert (Hw1 : t0 <= w <= t1) by lra.
    pose proof (face_defect c E D N_ang ws mus cc Q psi t0 t1 0 w Hg HN HX HI Hw1 (Hinc w Hw1) (App w Hw1) d b f Hd Hb ltac:(lia)) as FD.
    assert (0 <= Rabs (mus b - D f w) * d b f ^ 2) by (apply Rmult_le_pos; [apply Rabs_pos|apply pow2_ge_0]).
    rewrite Rmult_0_r in FD. replace (0 ^ 2) with 0 in FD by ring. lra. }
  unfold energy in T0.
  assert (Za := sumn_zero_inv N_ang _ (fun b Hb => Rmult_le_pos _ _ (Hw' b Hb) (normsq_nonneg c (fun k => E k t) (fun s j => V b s j t - pcoef E (psi b s) s j t) (Hinc t Ht))) T0 a Ha).
  cbv beta in Za. apply Rmult_integral in Za. destruct Za as [Za|Za]; [specialize (Hw a Ha); lra|].
  rewrite normsq_coef in Za by (apply Hinc; auto).
  assert (Zs := sumn_zero_inv (fN c) _ (fun k Hk => sumn_nonneg (fM c + 1) (fun i => (V a k i t - pcoef E (psi a k) k i t) ^ 2) (fun i Hi => pow2_ge_0 _)) ltac:(rewrite Za; lra) s Hs).
  cbv beta in Zs.
  assert (Zi := sumn_zero_inv (fM c + 1) (fun i => (V a s i t - pcoef E (psi a s) s i t) ^ 2) (fun i Hi => pow2_ge_0 _) ltac:(rewrite Zs; lra)). cbv beta in Zi.
  rewrite <- (C119_reproduces (fM c) (psi a s) E s t x (Hinc t Ht s Hs) (HP a s t Ha Hs Ht)).
  apply sumn_ext. intros j Hj. f_equal. specialize (Zi j Hj). assert (V a s j t - pcoef E (psi a s) s j t = 0); [|lra].
  destruct (Req_dec (V a s j t - pcoef E (psi a s) s j t) 0) as [|N]; [auto|]. pose proof (pow_nonzero _ 2 N). lra.
Qed.
Print Assumptions C121_exact.

(** Example: direction 1, scattering ratio 1/2, linear functions on two cells.  The wave x fills the left cell, its
    front sits on the middle edge, which moves with the particles; nothing is to the right of it. *)
Definition xC : flux_cfg := {| fgeom := Slab; fM := 1; fN := 2; src4 := false; boundary_source := false;
  uncollided_on := false; ft0 := 1; bon_left := false; bon_right := false; strength := 0; fquad := nil |}.
Definition xE (k : nat) (t : R) : R := INR k + INR k * t.
Definition xD (k : nat) (t : R) : R := INR k.
Definition xpsi (a s : nat) (x t : R) : R := if (s =? 0)%nat then x else 0.
Definition xQ (s : nat) (x t : R) : R := if (s =? 0)%nat then 2 + x else 0.
Lemma xD_mesh : mesh_c1 xC xE xD.
Proof.
  intros k _ t. split; [|apply cconst]. unfold xE, xD. eapply dd_eq; [apply dd_plus; [apply dd_const|apply dd_scal, dd_id]|ring].
Qed.
Lemma xE_inc t : 0 <= t -> increasing (fN xC) (fun k => xE k t).
Proof. intros Ht k _. unfold xE. rewrite S_INR. pose proof (pos_INR k). nra. Qed.
Lemma x_exact t1 : exact xC xE xD 1 (fun _ => 1) (fun _ => 1) (1 / 2) xQ xpsi 0 t1.
Proof.
  split.
  - intros a s _ _. exists (fun _ _ => if (s =? 0)%nat then 1 else 0), (fun _ _ => 0). split.
    + intros x t. unfold xpsi. split; [|split; [|split]].
      * destruct (s =? 0)%nat; [apply dd_id|apply dd_const].
      * destruct (s =? 0)%nat; apply dd_const.
      * apply continuity_2d_pt_const.
      * apply continuity_2d_pt_const.
    + intros t x _ _. unfold xpsi, xQ. cbn [sumn]. destruct (s =? 0)%nat; field.
  - intros a f t _ Hf _. cbn in Hf. assert (f = 0%nat) as -> by lia. unfold xD. cbn. ring.
Qed.
Lemma x_off t : ~ left_on xC t /\ ~ right_on xC t.
Proof. split; intros [H|[H _]]; discriminate. Qed.
Lemma x_inflow t1 : inflow_exact xC xE xD 1 (fun _ => 1) xpsi 0 t1.
Proof.
  intros a t v _ _. destruct (x_off t) as [OL OR]. split; intros _ H.
  - inversion H; subst; [contradiction|discriminate|]. unfold xpsi, xE. cbn. ring.
  - inversion H; subst; [contradiction|]. reflexivity.
Qed.
(** the projections are a trajectory of the code's equations *)
Lemma x_solves t1 : solves xC xE xD 1 (fun _ => 1) (fun _ => 1) (1 / 2) (fun s j t => pcoef xE (xQ s) s j t)
  (fun _ _ _ => {| sh := 0; shp := 0; shm := 0 |}) (fun a s j => pcoef xE (xpsi a s) s j) 0 t1.
Proof.
  intros t Ht a s i Ha Hs Hi. assert (HN : (2 <= fN xC)%nat) by (cbn; lia). assert (He := xE_inc t (proj1 Ht)).
  destruct (C117_defects xC xE xD 1 (fun _ => 1) xpsi t HN He) as [(d & Hd) _].
  assert (Z : forall f, (f <= 2)%nat -> (1 - xD f t) * d a f = 0).
  { intros f Hf. pose proof (face_defect xC xE xD 1 (fun _ => 1) (fun _ => 1) (1 / 2) xQ xpsi 0 t1 0 t eq_refl HN (x_exact t1) (x_inflow t1) Ht He) as FD.
    assert (App : forall a s, (a < 1)%nat -> (s < fN xC)%nat -> exists q, deg_le (fM xC) q /\ forall x, xE s t <= x <= xE (S s) t -> Rabs (xpsi a s x t - q x) <= 0).
    { intros b k _ _. exists (fun x => xpsi b k x t). split; [|intros; rewrite Rminus_eq_0, Rabs_R0; lra].
      apply deg_poly. exists (fun j => if (k =? 0)%nat then INR j else 0). intros x. unfold xpsi. cbn. destruct (k =? 0)%nat; cbn; ring. }
    specialize (FD App d a f Hd Ha Hf). cbv beta in FD. rewrite Rmult_0_r in FD. replace (0 ^ 2) with 0 in FD by ring.
    assert (0 <= Rabs (1 - xD f t) * d a f ^ 2) by (apply Rmult_le_pos; [apply Rabs_pos|apply pow2_ge_0]).
    assert (X : Rabs (1 - xD f t) * d a f ^ 2 = 0) by lra. apply Rmult_integral in X. destruct X as [X|X].
    - destruct (Req_dec (1 - xD f t) 0) as [->|N]; [ring|]. apply Rabs_no_R0 in N. contradiction.
    - destruct (Req_dec (d a f) 0) as [->|N]; [ring|]. apply (pow_nonzero _ 2) in N. contradiction. }
  eapply dd_eq; [apply (C117_consistent xC xE xD 1 (fun _ => 1) (fun _ => 1) (1 / 2) xQ xpsi 0 t1 {| sh := 0; shp := 0; shm := 0 |} d t a s i eq_refl HN xD_mesh He Ht (x_exact t1) Hd Ha Hs Hi)|].
  cbv beta. cbn in Hs. rewrite (Z s), (Z (S s)) by lia. ring.
Qed.
(** any trajectory of the code that starts as the projection is the wave with its front, at all later times *)
Example C121_front : forall st V t1, 0 <= t1 ->
  solves xC xE xD 1 (fun _ => 1) (fun _ => 1) (1 / 2) (fun s j t => pcoef xE (xQ s) s j t) st V 0 t1 ->
  (forall s j, (s < 2)%nat -> (j <= 1)%nat -> V 0%nat s j 0 = pcoef xE (xpsi 0 s) s j 0) ->
  forall x, field Slab 1 (fun j => V 0%nat 0%nat j t1) 0 (1 + t1) x = x /\ field Slab 1 (fun j => V 0%nat 1%nat j t1) (1 + t1) (2 + 2 * t1) x = 0.
Proof.
  intros st V t1 Ht HV H0 x.
  assert (K := C121_exact xC xE xD 1 (fun _ => 1) (fun _ => 1) (1 / 2) xQ xpsi 0 t1 st V eq_refl ltac:(cbn; lia) xD_mesh (fun w Hw => xE_inc w (proj1 Hw)) (x_exact t1) (x_inflow t1)
    (fun _ _ => Rlt_0_1) ltac:(cbn; ring) ltac:(lra) HV).
  assert (P : forall a s t, (a < 1)%nat -> (s < fN xC)%nat -> 0 <= t <= t1 -> poly_le (fM xC) (fun x => xpsi a s x t)).
  { intros b k w _ _ _. exists (fun j => if (k =? 0)%nat then INR j else 0). intros y. unfold xpsi. cbn. destruct (k =? 0)%nat; cbn; ring. }
  specialize (K P ltac:(intros [|a] s j Ha Hs Hj; [apply H0; cbn in *; lia|lia]) t1).
  assert (E0 : xE 0 t1 = 0) by (unfold xE; cbn; ring). assert (E1 : xE 1 t1 = 1 + t1) by (unfold xE; cbn; ring). assert (E2 : xE 2 t1 = 2 + 2 * t1) by (unfold xE; cbn; ring).
  split.
  - specialize (K 0%nat 0%nat x ltac:(lra) ltac:(lia) ltac:(cbn; lia)). rewrite E0, E1 in K. exact K.
  - specialize (K 0%nat 1%nat x ltac:(lra) ltac:(lia) ltac:(cbn; lia)). rewrite E1, E2 in K. exact K.
Qed.
Example C121_front_exists : exists st V, solves xC xE xD 1 (fun _ => 1) (fun _ => 1) (1 / 2) (fun s j t => pcoef xE (xQ s) s j t) st V 0 3 /\
  forall s j, (s < 2)%nat -> (j <= 1)%nat -> V 0%nat s j 0 = pcoef xE (xpsi 0 s) s j 0.
Proof. exists (fun _ _ _ => {| sh := 0; shp := 0; shm := 0 |}), (fun a s j => pcoef xE (xpsi a s) s j). split; [apply x_solves|reflexivity]. Qed.
(** the same data satisfy the hypotheses of C118 (bound 0) and C120 (K = 0) *)
Example C118_applies : forall t d, 0 <= t <= 3 -> defects xC xE xD 1 (fun _ => 1) xpsi t d -> defect_sum xC xD 1 (fun _ => 1) (fun _ => 1) t d <= 0.
Proof.
  intros t d Ht Hd. assert (HN : (2 <= fN xC)%nat) by (cbn; lia).
  assert (App : forall a s, (a < 1)%nat -> (s < fN xC)%nat -> exists q, deg_le (fM xC) q /\ forall x, xE s t <= x <= xE (S s) t -> Rabs (xpsi a s x t - q x) <= 0).
  { intros b k _ _. exists (fun x => xpsi b k x t). split; [|intros; rewrite Rminus_eq_0, Rabs_R0; lra].
    apply deg_poly. exists (fun j => if (k =? 0)%nat then INR j else 0). intros x. unfold xpsi. cbn. destruct (k =? 0)%nat; cbn; ring. }
  pose proof (defect_sum_le xC xE xD 1 (fun _ => 1) (fun _ => 1) (1 / 2) xQ xpsi 0 3 0 t eq_refl HN (x_exact 3) (x_inflow 3) Ht (xE_inc t (proj1 Ht)) App (fun _ _ => Rle_0_1) ltac:(cbn; ring) d 1 Hd) as X.
  rewrite Rmult_0_r in X. replace (0 ^ 2) with 0 in X by ring. rewrite Rmult_0_r in X. apply X.
  intros a f _ Hf. unfold xD. cbn in Hf. destruct f as [|[|[|f]]]; cbn; try lia; unfold Rabs; destruct (Rcase_abs _); lra.
Qed.
