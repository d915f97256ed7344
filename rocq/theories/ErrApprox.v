(** How well the projection on a cell does: at the ends and in the L2 norm. *)
From Coquelicot Require Import Coquelicot.
From Verif Require Import Py PyLemmas Calc Legendre Cheb DGModel DGSpec DGProofs DGInt DGBalance FuncLobatto StabSpec StabProofs ErrSpec ErrLeib ErrProofs.

Section Cell.
Variables (M : nat) (a b : R) (f q : R -> R) (dl : R).
Hypothesis Hab : a < b.
Hypothesis Cf : forall x, continuous f x.
Hypothesis Hq : deg_le M q.
Hypothesis Hd : forall x, a <= x <= b -> Rabs (f x - q x) <= dl.
Definition co (v : R -> R) (j : nat) : R := RInt (fun x => v x * basis Slab j x a b) a b.

Lemma dl_pos : 0 <= dl.
Proof. apply (Rle_trans _ (Rabs (f a - q a))); [apply Rabs_pos|apply Hd; lra]. Qed.
Lemma q_field : exists u, forall x, q x = field Slab M u a b x.
Proof.
  destruct (span_field M (fun z => q ((b - a) / 2 * z + (a + b) / 2)) a b Hab (deg_affine M q _ _ Hq)) as (u & Hu).
  exists u. intros x. rewrite <- Hu. f_equal. unfold refz. field. lra.
Qed.
Lemma field_cont u x : continuous (fun x => field Slab M u a b x) x.
Proof.
  unfold field. induction (M + 1)%nat as [|n IH]; cbn [sumn]; [apply cconst|]. apply cplus; [apply IH|]. apply cmult; [apply cconst|apply basis_cont; auto].
Qed.
Lemma q_cont x : continuous q x.
Proof. destruct q_field as (u & Hu). apply (continuous_ext (fun x => field Slab M u a b x)); [intros; now rewrite Hu|apply field_cont]. Qed.
Lemma co_int v j : (forall x, continuous v x) -> is_RInt (fun x => v x * basis Slab j x a b) a b (co v j).
Proof. intros C. apply int_val. intros x. apply cmult; [apply C|apply basis_cont; auto]. Qed.
(** the projection reproduces q *)
Lemma co_q x : field Slab M (co q) a b x = q x.
Proof.
  destruct q_field as (u & Hu). rewrite Hu. apply sumn_ext. intros j Hj. f_equal. apply int_uniq.
  apply (int_ext (fun x => field Slab M u a b x * basis Slab j x a b)); [intros; now rewrite Hu|]. apply project_field; [auto|lia].
Qed.
Let g x := f x - q x.
Lemma g_cont x : continuous g x. Proof. apply cminus; [apply Cf|apply q_cont]. Qed.
Lemma co_g j : co f j = co q j + co g j.
Proof.
  unfold co at 1. apply int_uniq. eapply (int_ext (fun x => q x * basis Slab j x a b + g x * basis Slab j x a b)); [intros; unfold g; ring|].
  apply int_plus; apply co_int; [apply q_cont|apply g_cont].
Qed.
Lemma proj_split x : field Slab M (co f) a b x = q x + field Slab M (co g) a b x.
Proof. rewrite <- co_q. unfold field. rewrite <- sumn_plus. apply sumn_ext. intros j _. rewrite co_g. ring. Qed.
Lemma g2_le : 0 <= RInt (fun x => g x ^ 2) a b <= dl ^ 2 * (b - a).
Proof.
  assert (I : is_RInt (fun x => g x ^ 2) a b (RInt (fun x => g x ^ 2) a b)) by (apply int_val; intros; apply cpow, g_cont).
  split.
  - apply (is_RInt_le (fun _ => 0) (fun x => g x ^ 2) a b ((b - a) * 0)) in I; [lra|lra|apply int_const|]. intros; apply pow2_ge_0.
  - replace (dl ^ 2 * (b - a)) with ((b - a) * dl ^ 2) by ring. apply (is_RInt_le (fun x => g x ^ 2) (fun _ => dl ^ 2) a b); [lra|exact I|apply int_const|].
    intros x Hx. rewrite <- (pow2_abs (g x)). apply pow_incr. split; [apply Rabs_pos|]. apply Hd. lra.
Qed.
(** what is left after the projection *)
Lemma rest_int : is_RInt (fun x => (field Slab M (co g) a b x - g x) ^ 2) a b (RInt (fun x => g x ^ 2) a b - sumn (M + 1) (fun j => co g j ^ 2)).
Proof.
  apply (int_ext (fun x => field Slab M (co g) a b x ^ 2 - 2 * sumn (M + 1) (fun j => co g j * (g x * basis Slab j x a b)) + g x ^ 2)).
  { intros x. replace (sumn (M + 1) (fun j => co g j * (g x * basis Slab j x a b))) with (g x * field Slab M (co g) a b x) by (unfold field; rewrite <- sumn_scal; apply sumn_ext; intros; ring). ring. }
  eapply int_eq; [apply int_plus; [apply int_minus; [apply field_square; auto|]|apply int_val; intros; apply cpow, g_cont]|].
  - apply int_scal. apply (int_sumn (M + 1) (fun j x => co g j * (g x * basis Slab j x a b)) (fun j => co g j * co g j)). intros j _. apply int_scal, co_int, g_cont.
  - rewrite (sumn_ext _ (fun j => co g j ^ 2) (fun j => co g j * co g j)) by (intros; ring). ring.
Qed.
Lemma co_g_le j : (j <= M)%nat -> Rabs (co g j) <= dl * sqrt (b - a).
Proof.
  intros Hj. assert (P : 0 <= RInt (fun x => g x ^ 2) a b - sumn (M + 1) (fun j => co g j ^ 2)).
  { pose proof rest_int as I. apply (is_RInt_le (fun _ => 0) _ a b ((b - a) * 0)) in I; [lra|lra|apply int_const|]. intros; apply pow2_ge_0. }
  assert (S : co g j ^ 2 <= sumn (M + 1) (fun j => co g j ^ 2)).
  { rewrite <- (sumn_delta (M + 1) (fun j => co g j ^ 2) j) by lia. apply sumn_le. intros i _. pose proof (pow2_ge_0 (co g i)). destruct (i =? j)%nat; lra. }
  pose proof g2_le. pose proof dl_pos. assert (0 <= sqrt (b - a)) by apply sqrt_pos.
  assert (K : Rabs (co g j) ^ 2 <= (dl * sqrt (b - a)) ^ 2).
  { rewrite pow2_abs, Rpow_mult_distr, pow2_sqrt by lra. lra. }
  apply Rsqr_incr_0_var; [unfold Rsqr; lra|apply Rmult_le_pos; auto].
Qed.
(** at the ends *)
Lemma end_le x : x = a \/ x = b -> Rabs (field Slab M (co f) a b x - f x) <= Cend M * dl.
Proof.
  intros Hx. rewrite proj_split. replace (q x + field Slab M (co g) a b x - f x) with (field Slab M (co g) a b x - g x) by (unfold g; ring).
  assert (X : a <= x <= b) by (destruct Hx; lra).
  apply (Rle_trans _ _ _ (Rabs_triang _ (- g x))). rewrite Rabs_Ropp. unfold Cend. rewrite Rmult_plus_distr_r, Rmult_1_l, Rplus_comm.
  apply Rplus_le_compat; [apply Hd, X|]. unfold field. rewrite <- sumn_scal_r.
  assert (T : forall n, Rabs (sumn n (fun j => co g j * basis Slab j x a b)) <= sumn n (fun j => Rabs (co g j * basis Slab j x a b))).
  { induction n as [|n IH]; cbn [sumn]; [rewrite Rabs_R0; lra|]. apply (Rle_trans _ _ _ (Rabs_triang _ _)). lra. }
  apply (Rle_trans _ _ _ (T _)). apply sumn_le. intros j Hj. rewrite Rabs_mult.
  assert (Hs : 0 < sqrt (b - a)) by (apply sqrt_lt_R0; lra). assert (S0 := sqrt_pos (2 * INR j + 1)).
  assert (B : Rabs (basis Slab j x a b) = sqrt (2 * INR j + 1) / sqrt (b - a)).
  { assert (P : 0 <= sqrt (2 * INR j + 1) / sqrt (b - a)) by (apply Rmult_le_pos; [auto|left; apply Rinv_0_lt_compat; auto]).
    destruct Hx as [-> | ->]; [rewrite basis_slab_l by auto|rewrite basis_slab_r by auto].
    - rewrite Rabs_mult, pow_1_abs, Rmult_1_l. apply Rabs_pos_eq; auto.
    - apply Rabs_pos_eq; auto. }
  rewrite B. apply (Rle_trans _ (dl * sqrt (b - a) * (sqrt (2 * INR j + 1) / sqrt (b - a)))).
  - apply Rmult_le_compat_r; [rewrite <- B; apply Rabs_pos|apply co_g_le; lia].
  - right. field. lra.
Qed.
(** in the mean *)
Lemma mean_le : RInt (fun x => (field Slab M (co f) a b x - f x) ^ 2) a b <= dl ^ 2 * (b - a).
Proof.
  rewrite (RInt_ext _ (fun x => (field Slab M (co g) a b x - g x) ^ 2)).
  2: { intros x _. rewrite proj_split. unfold g. f_equal. ring. }
  rewrite (int_uniq _ _ _ _ rest_int). pose proof g2_le.
  assert (0 <= sumn (M + 1) (fun j => co g j ^ 2)) by (apply sumn_nonneg; intros; apply pow2_ge_0). lra.
Qed.
End Cell.

(** ** Taylor *)
Lemma deg_pow m y0 : deg_le m (fun y => (y - y0) ^ m).
Proof.
  induction m as [|m IH]; [apply (deg_ext _ (fun _ => 1)); [reflexivity|apply deg_const]|].
  apply (deg_ext _ (fun y => 1 * (y * (y - y0) ^ m) + (- y0) * (y - y0) ^ m)); [intros; cbn [pow]; ring|].
  apply deg_lin; [now apply deg_x|apply (deg_mono m); auto].
Qed.
Lemma deg_sum_f d n (v : nat -> R -> R) : (forall i, (i <= n)%nat -> deg_le d (v i)) -> deg_le d (fun z => sum_f_R0 (fun i => v i z) n).
Proof.
  induction n as [|n IH]; intros H; cbn [sum_f_R0]; [apply H; lia|].
  apply (deg_ext d (fun z => 1 * sum_f_R0 (fun i => v i z) n + 1 * v (S n) z)); [intros; ring|]. apply deg_lin; [apply IH; auto|apply H; auto].
Qed.
Lemma taylor M (f : R -> R) a b K : a < b -> (forall x k, a <= x <= b -> (k <= S M)%nat -> ex_derive_n f k x) ->
  (forall x, a <= x <= b -> Rabs (Derive_n f (S M) x) <= K) ->
  exists q, deg_le M q /\ forall x, a <= x <= b -> Rabs (f x - q x) <= K * (b - a) ^ (S M) / INR (fact (S M)).
Proof.
  intros Hab Hf HK. assert (K0 : 0 <= K) by (apply (Rle_trans _ _ _ (Rabs_pos (Derive_n f (S M) a))), HK; lra).
  assert (Fp : 0 < INR (fact (S M))) by (apply lt_0_INR, lt_O_fact).
  exists (fun y => sum_f_R0 (fun m => (y - a) ^ m / INR (fact m) * Derive_n f m a) M). split.
  - apply (deg_sum_f M M (fun m y => (y - a) ^ m / INR (fact m) * Derive_n f m a)). intros i Hi.
    apply (deg_ext M (fun y => (Derive_n f i a / INR (fact i)) * (y - a) ^ i + 0 * (y - a) ^ i)); [intros; unfold Rdiv; ring|].
    apply deg_lin; apply (deg_mono i); auto; apply deg_pow.
  - intros x Hx. destruct (Req_dec x a) as [->|N].
    + replace (f a - _) with 0.
      { rewrite Rabs_R0. apply Rmult_le_pos; [|left; apply Rinv_0_lt_compat; auto]. apply Rmult_le_pos; [auto|apply pow_le; lra]. }
      replace (sum_f_R0 (fun m => (a - a) ^ m / INR (fact m) * Derive_n f m a) M) with (f a); [ring|].
      clear. induction M as [|M IH]; cbn [sum_f_R0]; [cbn; field|]. rewrite <- IH. replace (a - a) with 0 by ring. rewrite pow_i by lia. unfold Rdiv. ring.
    + destruct (Taylor_Lagrange f M a x) as (z & Hz & E); [lra|intros; apply Hf; [lra|auto]|].
      rewrite E at 1. match goal with |- Rabs (?p + ?r - ?p) <= _ => replace (p + r - p) with r by ring end.
      rewrite Rabs_mult. unfold Rdiv. rewrite Rabs_mult, (Rabs_pos_eq (/ _)) by (left; apply Rinv_0_lt_compat; auto).
      rewrite Rabs_pos_eq by (apply pow_le; lra).
      replace (K * (b - a) ^ S M * / INR (fact (S M))) with ((b - a) ^ S M * / INR (fact (S M)) * K) by ring.
      assert (P : (x - a) ^ S M <= (b - a) ^ S M) by (apply pow_incr; lra).
      assert (P0 : 0 <= (x - a) ^ S M) by (apply pow_le; lra).
      assert (I0 : 0 < / INR (fact (S M))) by (apply Rinv_0_lt_compat; auto).
      apply Rmult_le_compat; [apply Rmult_le_pos; lra|apply Rabs_pos|apply Rmult_le_compat_r; lra|apply HK; lra].
Qed.

Lemma sumn_const n k : sumn n (fun _ => k) = INR n * k.
Proof. induction n as [|n IH]; [cbn; ring|]. cbn [sumn]. rewrite IH, S_INR. ring. Qed.

(** ** Faces *)
Section Faces.
Variables (c : flux_cfg) (E D : nat -> R -> R) (N_ang : nat) (ws mus : nat -> R) (cc : R)
  (Q : nat -> R -> R -> R) (psi : nat -> nat -> R -> R -> R) (t0 t1 dl t : R).
Hypothesis Hg : fgeom c = Slab.
Hypothesis HN : (2 <= fN c)%nat.
Hypothesis HX : exact c E D N_ang ws mus cc Q psi t0 t1.
Hypothesis HI : inflow_exact c E D N_ang mus psi t0 t1.
Hypothesis Ht : t0 <= t <= t1.
Hypothesis He : increasing (fN c) (fun k => E k t).
Hypothesis Happ : forall a s, (a < N_ang)%nat -> (s < fN c)%nat -> exists q, deg_le (fM c) q /\ forall x, E s t <= x <= E (S s) t -> Rabs (psi a s x t - q x) <= dl.
Lemma cell_end a s x : (a < N_ang)%nat -> (s < fN c)%nat -> x = E s t \/ x = E (S s) t ->
  Rabs (field Slab (fM c) (fun j => pcoef E (psi a s) s j t) (E s t) (E (S s) t) x - psi a s x t) <= Cend (fM c) * dl.
Proof.
  intros Ha Hs Hx. destruct (Happ a s Ha Hs) as (q & Dq & Hq).
  apply (end_le (fM c) (E s t) (E (S s) t) (fun x => psi a s x t) q dl (He s Hs)); auto.
  intros y. destruct (ex_eq _ _ _ _ _ _ _ _ _ _ _ HX a s Ha Hs) as (fx & ft & C & _). apply (c1_cont _ _ _ _ _ C).
Qed.
Lemma face_defect d a f : defects c E D N_ang mus psi t d -> (a < N_ang)%nat -> (f <= fN c)%nat ->
  Rabs (mus a - D f t) * d a f ^ 2 <= Rabs (mus a - D f t) * (Cend (fM c) * dl) ^ 2.
Proof.
  intros Hd Ha Hf. assert (F := Hd a f Ha Hf).
  assert (Sq : Rabs (d a f) <= Cend (fM c) * dl -> Rabs (mus a - D f t) * d a f ^ 2 <= Rabs (mus a - D f t) * (Cend (fM c) * dl) ^ 2).
  { intros X. apply Rmult_le_compat_l; [apply Rabs_pos|]. rewrite <- (pow2_abs (d a f)). apply pow_incr. split; [apply Rabs_pos|exact X]. }
  assert (Z : mus a - D f t = 0 -> Rabs (mus a - D f t) * d a f ^ 2 <= Rabs (mus a - D f t) * (Cend (fM c) * dl) ^ 2) by (intros ->; rewrite Rabs_R0; lra).
  assert (N0 : 0 <= Cend (fM c) * dl).
  { assert (S0 : (0 < fN c)%nat) by lia. apply (Rle_trans _ _ _ (Rabs_pos (field Slab (fM c) (fun j => pcoef E (psi a 0%nat) 0%nat j t) (E 0%nat t) (E 1%nat t) (E 0%nat t) - psi a 0%nat (E 0%nat t) t))), cell_end; auto. }
  assert (Zd : d a f = 0 -> Rabs (mus a - D f t) * d a f ^ 2 <= Rabs (mus a - D f t) * (Cend (fM c) * dl) ^ 2) by (intros X; apply Sq; rewrite X, Rabs_R0; exact N0).
  pose (e := fun k => E k t). pose (Dt := fun k => D k t). pose (P := fun s j => pcoef E (psi a s) s j t).
  destruct (Req_dec (mus a - D f t) 0) as [|NZ]; [now apply Z|].
  destruct (Rle_dec 0 (mus a - D f t)) as [Pos|Neg].
  - destruct f as [|k].
    + apply Zd. assert (T : trace c E psi a 0 t = psi a 0%nat (E 0%nat t) t) by (unfold trace; destruct (Nat.ltb_spec 0 (fN c)); [reflexivity|lia]).
      assert (X : exists x, inflow_l c t e (fun _ => 0) x) by (eexists; apply (v0_bd c t e P (fun _ => 0) HN He {| sh := 0; shp := 0; shm := 0 |})).
      destruct X as (x & X).
      assert (V := face_fun c t e Dt P (mus a) (fun _ => 0) HN He 0 _ x F (face_in_l c t e Dt P (mus a) (fun _ => 0) x Pos X)).
      rewrite T in V. pose proof (proj1 (HI a t x Ha Ht) ltac:(lra) X). lra.
    + assert (V := face_fun c t e Dt P (mus a) (fun _ => 0) HN He (S k) _ _ F (face_from_left c t e Dt P (mus a) (fun _ => 0) k Pos ltac:(lia))).
      rewrite Hg in V. apply Sq.
      pose proof (right_trace c E D N_ang ws mus cc Q psi t0 t1 HN HX t Ht a k Ha ltac:(lia)) as T.
      apply Rmult_eq_reg_l in T; [|exact NZ]. rewrite <- T in V.
      replace (d a (S k)) with (d a (S k) + psi a k (E (S k) t) t - psi a k (E (S k) t) t) by ring. rewrite V. apply cell_end; auto; lia.
  - assert (Neg' : mus a - D f t < 0) by lra. destruct (Nat.eq_dec f (fN c)) as [->|NN].
    + apply Zd. assert (T : trace c E psi a (fN c) t = psi a (fN c - 1)%nat (E (fN c) t) t) by (unfold trace; rewrite Nat.ltb_irrefl; reflexivity).
      assert (X : exists x, inflow_r c t e x) by (eexists; apply (v3_bd c t e P (fun _ => 0) HN He {| sh := 0; shp := 0; shm := 0 |})).
      destruct X as (x & X).
      assert (V := face_fun c t e Dt P (mus a) (fun _ => 0) HN He (fN c) _ x F (face_in_r c t e Dt P (mus a) (fun _ => 0) x Neg' X)).
      rewrite T in V. pose proof (proj2 (HI a t x Ha Ht) Neg' X). lra.
    + assert (V := face_fun c t e Dt P (mus a) (fun _ => 0) HN He f _ _ F (face_from_right c t e Dt P (mus a) (fun _ => 0) f Neg' ltac:(lia))).
      rewrite Hg in V. apply Sq.
      assert (T : trace c E psi a f t = psi a f (E f t) t) by (unfold trace; destruct (Nat.ltb_spec f (fN c)); [reflexivity|lia]). rewrite T in V.
      replace (d a f) with (d a f + psi a f (E f t) t - psi a f (E f t) t) by ring. rewrite V. apply cell_end; auto; lia.
Qed.
Hypothesis Hw : forall a, (a < N_ang)%nat -> 0 <= ws a.
Hypothesis H1 : sumn N_ang ws = 1.
Lemma defect_sum_le d sg : defects c E D N_ang mus psi t d -> (forall a f, (a < N_ang)%nat -> (f <= fN c)%nat -> Rabs (mus a - D f t) <= sg) ->
  defect_sum c D N_ang ws mus t d <= (INR (fN c) + 1) * sg * (Cend (fM c) * dl) ^ 2.
Proof.
  intros Hd Hs. unfold defect_sum.
  apply (Rle_trans _ (sumn N_ang (fun a => ws a * ((INR (fN c) + 1) * sg * (Cend (fM c) * dl) ^ 2)))).
  - apply sumn_le. intros a Ha. apply Rmult_le_compat_l; [auto|].
    apply (Rle_trans _ (sumn (S (fN c)) (fun _ => sg * (Cend (fM c) * dl) ^ 2))).
    + apply sumn_le. intros f Hf. apply (Rle_trans _ _ _ (face_defect d a f Hd Ha ltac:(lia))). apply Rmult_le_compat_r; [apply pow2_ge_0|]. apply Hs; [auto|lia].
    + rewrite sumn_const, S_INR. lra.
  - rewrite sumn_scal_r, H1. lra.
Qed.
(** squared distance: twice the error of the scheme, twice the error of the projection *)
Lemma distance_le V : distance c E N_ang ws psi V t <=
  2 * energy c N_ang ws (fun k => E k t) (fun a s j => V a s j t - pcoef E (psi a s) s j t) + 2 * (dl ^ 2 * (E (fN c) t - E 0%nat t)).
Proof.
  assert (Tel : forall n, sumn n (fun s => E (S s) t - E s t) = E n t - E 0%nat t) by (induction n as [|n IH]; cbn [sumn]; [ring|rewrite IH; ring]).
  apply (Rle_trans _ (sumn N_ang (fun a => ws a * (2 * normsq c (fun k => E k t) (fun s j => V a s j t - pcoef E (psi a s) s j t) + 2 * (dl ^ 2 * (E (fN c) t - E 0%nat t)))))).
  - apply sumn_le. intros a Ha. apply Rmult_le_compat_l; [auto|]. unfold normsq.
    rewrite <- Tel, <- !sumn_scal, <- sumn_plus. apply sumn_le. intros s Hs.
    destruct (Happ a s Ha Hs) as (q & Dq & Hq). assert (Hlt := He s Hs). cbv beta in Hlt.
    assert (Cp : forall y, continuous (fun x => psi a s x t) y).
    { intros y. destruct (ex_eq _ _ _ _ _ _ _ _ _ _ _ HX a s Ha Hs) as (fx & ft & C & _). apply (c1_cont _ _ _ _ _ C). }
    assert (ML := mean_le (fM c) (E s t) (E (S s) t) (fun x => psi a s x t) q dl Hlt Cp Dq Hq).
    set (A := E s t) in *. set (B := E (S s) t) in *. change (co A B (fun x => psi a s x t)) with (fun j => pcoef E (psi a s) s j t) in ML.
    set (fv := fun x => field Slab (fM c) (fun j => V a s j t) A B x). set (fp := fun x => field Slab (fM c) (fun j => pcoef E (psi a s) s j t) A B x).
    assert (CV : forall y, continuous fv y) by (intros; apply field_cont; auto).
    assert (CP : forall y, continuous fp y) by (intros; apply field_cont; auto).
    apply (Rle_trans _ (2 * RInt (fun x => field Slab (fM c) (fun j => V a s j t - pcoef E (psi a s) s j t) A B x ^ 2) A B + 2 * RInt (fun x => (fp x - psi a s x t) ^ 2) A B)).
    2: { apply Rplus_le_compat_l, Rmult_le_compat_l; [lra|exact ML]. }
    assert (I1 : is_RInt (fun x => (fv x - psi a s x t) ^ 2) A B (RInt (fun x => (fv x - psi a s x t) ^ 2) A B)) by (apply int_val; intros; apply cpow, cminus; auto).
    assert (I2 : is_RInt (fun x => (fv x - fp x) ^ 2) A B (RInt (fun x => field Slab (fM c) (fun j => V a s j t - pcoef E (psi a s) s j t) A B x ^ 2) A B)).
    { apply (int_ext (fun x => field Slab (fM c) (fun j => V a s j t - pcoef E (psi a s) s j t) A B x ^ 2)).
      - intros x. now rewrite (field_minus (fM c) (fun j => V a s j t) (fun j => pcoef E (psi a s) s j t) A B x).
      - apply int_val. intros y. apply (cpow (fun x => field Slab (fM c) (fun j => V a s j t - pcoef E (psi a s) s j t) A B x)), field_cont; auto. }
    assert (I3 : is_RInt (fun x => (fp x - psi a s x t) ^ 2) A B (RInt (fun x => (fp x - psi a s x t) ^ 2) A B)) by (apply int_val; intros; apply cpow, cminus; auto).
    eapply (is_RInt_le _ _ A B _ _ (Rlt_le _ _ Hlt) I1); [apply int_plus; apply int_scal; [exact I2|exact I3]|].
    intros x _. cbv beta. pose proof (pow2_ge_0 ((fv x - fp x) - (fp x - psi a s x t))). nra.
  - unfold energy. set (T := 2 * (dl ^ 2 * (E (fN c) t - E 0%nat t))).
    rewrite (sumn_ext N_ang _ (fun a => 2 * (ws a * normsq c (fun k => E k t) (fun s j => V a s j t - pcoef E (psi a s) s j t)) + ws a * T)) by (intros; ring).
    rewrite sumn_plus, sumn_scal, sumn_scal_r, H1. lra.
Qed.
End Faces.
