(** C152: what the angular differences of the sphere approximate, and how well. *)
From Coquelicot Require Import Coquelicot.
From Verif Require Import Py PyLemmas Calc DGModel DGSpec MatModel RhsModel RhsProofs.
Open Scope R_scope.

(* ---------------------------------------------------------------- C152 *)
Lemma mvt (f f' : R -> R) a b : a <= b -> (forall z, a <= z <= b -> is_derive f z (f' z)) -> exists c, a <= c <= b /\ f b - f a = f' c * (b - a).
Proof.
  intros H D. destruct (MVT_gen f a b f') as (c & Hc & E).
  - intros x Hx. rewrite Rmin_left, Rmax_right in Hx by lra. apply D. lra.
  - intros x Hx. rewrite Rmin_left, Rmax_right in Hx by lra. apply derivable_continuous_pt. exists (f' x). apply is_derive_Reals. apply D. lra.
  - rewrite Rmin_left, Rmax_right in Hc by lra. eauto.
Qed.
Lemma lip (f f' : R -> R) a b K : (forall z, a <= z <= b -> is_derive f z (f' z)) -> (forall z, a <= z <= b -> Rabs (f' z) <= K) ->
  forall x y, a <= x <= b -> a <= y <= b -> Rabs (f x - f y) <= K * Rabs (x - y).
Proof.
  intros D B. assert (G : forall x y, a <= x <= b -> a <= y <= b -> x <= y -> Rabs (f x - f y) <= K * Rabs (x - y)).
  { intros x y Hx Hy L. destruct (mvt f f' x y L) as (c & Hc & E); [intros; apply D; lra|]. rewrite Rabs_minus_sym, E, Rabs_mult, (Rabs_minus_sym x y). apply Rmult_le_compat_r; [apply Rabs_pos|apply B; lra]. }
  intros x y Hx Hy. destruct (Rle_lt_dec x y); [auto|]. rewrite Rabs_minus_sym, (Rabs_minus_sym x y). apply G; auto; lra.
Qed.
(** the mean of the end values against the value in the middle *)
Lemma mean_mid (f f1 f2 : R -> R) a b K : a <= b -> (forall z, a <= z <= b -> is_derive f z (f1 z)) -> (forall z, a <= z <= b -> is_derive f1 z (f2 z)) -> (forall z, a <= z <= b -> Rabs (f2 z) <= K) ->
  Rabs ((f a + f b) / 2 - f ((a + b) / 2)) <= K * (b - a) ^ 2 / 8.
Proof.
  intros H D1 D2 B. set (m := (a + b) / 2). set (d := (b - a) / 2).
  set (k := fun s => (f (m - s) + f (m + s)) / 2 - f m).
  assert (Dk : forall s, 0 <= s <= d -> is_derive k s ((f1 (m + s) - f1 (m - s)) / 2)).
  { intros s Hs. unfold k. eapply dd_eq; [apply dd_minus; [apply dd_divc; apply dd_plus; [apply (dd_comp f (fun s => m - s)); [apply D1; unfold m, d in *; lra|apply dd_minus; [apply dd_const|apply dd_id]]|apply (dd_comp f (fun s => m + s)); [apply D1; unfold m, d in *; lra|apply dd_plus; [apply dd_const|apply dd_id]]]|apply dd_const]|]. cbv beta. field. }
  assert (Bk : forall s, 0 <= s <= d -> Rabs ((f1 (m + s) - f1 (m - s)) / 2) <= K * s).
  { intros s Hs. unfold Rdiv. rewrite Rabs_mult, (Rabs_pos_eq (/ 2)) by lra. pose proof (lip f1 f2 a b K D2 B (m + s) (m - s) ltac:(unfold m, d in *; lra) ltac:(unfold m, d in *; lra)) as L.
    replace (m + s - (m - s)) with (2 * s) in L by ring. rewrite (Rabs_pos_eq (2 * s)) in L by lra. lra. }
  assert (Up : forall sg, sg = 1 \/ sg = -1 -> sg * k d <= K * d ^ 2 / 2).
  { intros sg Hsg. destruct (mvt (fun s => sg * k s - K * s ^ 2 / 2) (fun s => sg * ((f1 (m + s) - f1 (m - s)) / 2) - K * s) 0 d ltac:(unfold d; lra)) as (c & Hc & E).
    - intros s Hs. eapply dd_eq; [apply dd_minus; [apply dd_scal; apply Dk; auto|apply dd_divc; apply dd_scal; apply (dd_ext (fun z => z * z)); [intro; ring|apply dd_mult; apply dd_id]]|]. cbv beta. field.
    - cbv beta in E. assert (K0 : k 0 = 0) by (unfold k; rewrite Rminus_0_r, Rplus_0_r; field). rewrite K0 in E. specialize (Bk c Hc). apply Rabs_le_between in Bk. unfold d in *.
      assert (sg * ((f1 (m + c) - f1 (m - c)) / 2) - K * c <= 0) by (destruct Hsg as [->| ->]; lra). 
      assert (P : (sg * ((f1 (m + c) - f1 (m - c)) / 2) - K * c) * ((b - a) / 2 - 0) <= 0) by nra. simpl (0 ^ 2) in E. lra. }
  assert (Kd : k d = (f a + f b) / 2 - f m) by (unfold k; replace (m - d) with a by (unfold m, d; field); replace (m + d) with b by (unfold m, d; field); reflexivity).
  rewrite <- Kd. replace (K * (b - a) ^ 2 / 8) with (K * d ^ 2 / 2) by (unfold d; field). pose proof (Up 1 (or_introl eq_refl)). pose proof (Up (-1) (or_intror eq_refl)). apply Rabs_le. lra.
Qed.
Section Angles.
Variables (N : nat) (x : nat -> R) (psi psi1 psi2 : R -> R) (K G h : R).
Hypothesis HN : (2 <= N)%nat.
Hypothesis Hd : directions N x.
Hypothesis Hgap : forall b, (S b < N)%nat -> x (S b) - x b <= 2 * h.
Hypothesis Hl : x 0%nat + 1 <= h.
Hypothesis Hr : 1 - x (N - 1)%nat <= h.
Hypothesis D1 : forall z, -1 <= z <= 1 -> is_derive psi z (psi1 z).
Hypothesis D2 : forall z, -1 <= z <= 1 -> is_derive psi1 z (psi2 z).
Hypothesis BK : forall z, -1 <= z <= 1 -> Rabs (psi2 z) <= K.
Hypothesis BG : forall z, -1 <= z <= 1 -> Rabs ((1 - z ^ 2) * psi2 z - 4 * z * psi1 z - 2 * psi z) <= G.
Lemma xin a : (a < N)%nat -> -1 <= x a <= 1.
Proof.
  destruct Hd as (I & L & R). assert (U : forall a b, (a <= b)%nat -> (b < N)%nat -> x a <= x b).
  { intros a' b Hab Hb. induction b as [|b IH]; [replace a' with 0%nat by lia; lra|]. destruct (Nat.eq_dec a' (S b)) as [->|]; [lra|]. specialize (IH ltac:(lia) ltac:(lia)). specialize (I b Hb). lra. }
  intros Ha. pose proof (U 0%nat a ltac:(lia) Ha). pose proof (U a (N - 1)%nat ltac:(lia) ltac:(lia)). lra.
Qed.
Let g (z : R) : R := (1 - z ^ 2) * psi z.
Let g1 (z : R) : R := (1 - z ^ 2) * psi1 z - 2 * z * psi z.
Lemma Dg z : -1 <= z <= 1 -> is_derive g z (g1 z).
Proof.
  intros Hz. unfold g. eapply dd_eq; [apply (dd_mult (fun z => 1 - z ^ 2) psi); [apply (dd_minus (fun _ => 1) (fun z => z ^ 2)); [apply dd_const|apply (dd_ext (fun z => z * z)); [intro; ring|apply dd_mult; apply dd_id]]|apply D1; auto]|]. unfold g1. cbv beta. ring.
Qed.
Lemma Dg1 z : -1 <= z <= 1 -> is_derive g1 z ((1 - z ^ 2) * psi2 z - 4 * z * psi1 z - 2 * psi z).
Proof.
  intros Hz. unfold g1. eapply dd_eq.
  - apply (dd_minus (fun z => (1 - z ^ 2) * psi1 z) (fun z => 2 * z * psi z)).
    + apply (dd_mult (fun z => 1 - z ^ 2) psi1); [apply (dd_minus (fun _ => 1) (fun z => z ^ 2)); [apply dd_const|apply (dd_ext (fun z => z * z)); [intro; ring|apply dd_mult; apply dd_id]]|apply D2; auto].
    + apply (dd_mult (fun z => 2 * z) psi); [apply (dd_scal (fun z => z)); apply dd_id|apply D1; auto].
  - cbv beta. ring.
Qed.
(** error of a face flux against half the distance of the face from the direction *)
Lemma edge_in a : (a <= N)%nat -> -1 <= aedge N x a <= 1.
Proof.
  intros Ha. unfold aedge. destruct (Nat.eqb_spec a 0); [lra|]. destruct (Nat.eqb_spec a N); [lra|]. pose proof (xin (a - 1) ltac:(lia)). pose proof (xin a ltac:(lia)). lra.
Qed.
Lemma K_nonneg : 0 <= K. Proof. pose proof (BK 0 ltac:(lra)). pose proof (Rabs_pos (psi2 0)). lra. Qed.
Lemma G_nonneg : 0 <= G. Proof. pose proof (BG 0 ltac:(lra)). pose proof (Rabs_pos ((1 - 0 ^ 2) * psi2 0 - 4 * 0 * psi1 0 - 2 * psi 0)). lra. Qed.
Lemma flux_err a : (0 < a)%nat -> (a < N)%nat -> Rabs (aflux N x (fun i => psi (x i)) a - g (aedge N x a)) <= K * (x a - x (a - 1)%nat) ^ 2 / 8.
Proof.
  intros H0 H1. unfold aflux, g. destruct (Nat.eqb_spec a 0); [lia|]. destruct (Nat.eqb_spec a N); [lia|]. pose proof (edge_in a ltac:(lia)) as Ei.
  pose proof (xin (a - 1) ltac:(lia)) as X1. pose proof (xin a H1) as X2. destruct Hd as (I & _). specialize (I (a - 1)%nat ltac:(lia)). replace (S (a - 1)) with a in I by lia.
  rewrite <- Rmult_minus_distr_l, Rabs_mult. assert (E : aedge N x a = (x (a - 1)%nat + x a) / 2) by (unfold aedge; destruct (Nat.eqb_spec a 0); [lia|]; destruct (Nat.eqb_spec a N); [lia|]; reflexivity).
  pose proof (mean_mid psi psi1 psi2 (x (a - 1)%nat) (x a) K ltac:(lra) ltac:(intros; apply D1; lra) ltac:(intros; apply D2; lra) ltac:(intros; apply BK; lra)) as M. rewrite <- E in M.
  assert (F : 0 <= Rabs (1 - aedge N x a ^ 2) <= 1) by (split; [apply Rabs_pos|apply Rabs_le; nra]). pose proof (Rabs_pos ((psi (x (a - 1)%nat) + psi (x a)) / 2 - psi (aedge N x a))). nra.
Qed.
Lemma angular_error a : (a < N)%nat -> Rabs (aterm N x (fun i => psi (x i)) a - g1 (x a)) <= (K / 2 + G) * h.
Proof.
  intros Ha. rewrite aterm_flux by auto. unfold awidth. set (F := aflux N x (fun i => psi (x i))). set (e := aedge N x). pose proof K_nonneg as K0. pose proof G_nonneg as G0.
  assert (P : exists dp, e (S a) - x a = dp /\ 0 <= dp <= h /\ Rabs (F (S a) - g (e (S a))) <= K * dp ^ 2 / 2).
  { exists (e (S a) - x a). split; [reflexivity|]. destruct (Nat.eq_dec (S a) N) as [EN|NE].
    - assert (E1 : e (S a) = 1) by (unfold e, aedge; destruct (Nat.eqb_spec (S a) 0); [lia|]; destruct (Nat.eqb_spec (S a) N); [reflexivity|lia]). rewrite E1. pose proof (xin a Ha). replace (N - 1)%nat with a in Hr by lia. split; [lra|].
      assert (F0 : F (S a) = 0) by (unfold F, aflux; destruct (Nat.eqb_spec (S a) 0); [lia|]; destruct (Nat.eqb_spec (S a) N); [reflexivity|lia]). rewrite F0. unfold g. replace (0 - (1 - 1 ^ 2) * psi 1) with 0 by ring. rewrite Rabs_R0. pose proof (pow2_ge_0 (1 - x a)). nra.
    - pose proof (flux_err (S a) ltac:(lia) ltac:(lia)) as Q. fold F e in Q. replace (S a - 1)%nat with a in Q by lia.
      assert (E1 : e (S a) = (x a + x (S a)) / 2) by (unfold e, aedge; destruct (Nat.eqb_spec (S a) 0); [lia|]; destruct (Nat.eqb_spec (S a) N); [lia|]; replace (S a - 1)%nat with a by lia; reflexivity).
      pose proof (Hgap a ltac:(lia)). destruct Hd as (I & _). specialize (I a ltac:(lia)). split; [rewrite E1; lra|]. eapply Rle_trans; [exact Q|]. rewrite E1. right. field. }
  assert (M : exists dm, x a - e a = dm /\ 0 <= dm <= h /\ Rabs (F a - g (e a)) <= K * dm ^ 2 / 2).
  { exists (x a - e a). split; [reflexivity|]. destruct (Nat.eq_dec a 0) as [->|NE].
    - change (e 0%nat) with (-1). change (F 0%nat) with 0. pose proof (xin 0 Ha). split; [lra|]. unfold g. replace (0 - (1 - (-1) ^ 2) * psi (-1)) with 0 by ring. rewrite Rabs_R0. pose proof (pow2_ge_0 (x 0%nat - -1)). nra.
    - pose proof (flux_err a ltac:(lia) Ha) as Q. fold F e in Q.
      assert (E1 : e a = (x (a - 1)%nat + x a) / 2) by (unfold e, aedge; destruct (Nat.eqb_spec a 0); [lia|]; destruct (Nat.eqb_spec a N); [lia|]; reflexivity).
      pose proof (Hgap (a - 1)%nat ltac:(lia)) as Gp. destruct Hd as (I & _). specialize (I (a - 1)%nat ltac:(lia)). replace (S (a - 1)) with a in * by lia. split; [rewrite E1; lra|]. eapply Rle_trans; [exact Q|]. rewrite E1. right. field. }
  destruct P as (dp & Ep & Hp & Qp). destruct M as (dm & Em & Hm & Qm).
  pose proof (edge_in (S a) ltac:(lia)) as I1. pose proof (edge_in a ltac:(lia)) as I2. fold e in I1, I2.
  assert (W : e (S a) - e a = dp + dm) by lra.
  assert (Wp : 0 < dp + dm).
  { assert (POS : 0 < dp \/ 0 < dm); [|lra]. destruct Hd as (I & _ & _). destruct (Nat.eq_dec a 0) as [->|NE].
    - left. rewrite <- Ep. unfold e, aedge. destruct (Nat.eqb_spec 1 0); [lia|]. destruct (Nat.eqb_spec 1 N); [lia|]. replace (1 - 1)%nat with 0%nat by lia. specialize (I 0%nat ltac:(lia)). lra.
    - right. rewrite <- Em. unfold e, aedge. destruct (Nat.eqb_spec a 0); [lia|]. destruct (Nat.eqb_spec a N); [lia|]. specialize (I (a - 1)%nat ltac:(lia)). replace (S (a - 1)) with a in I by lia. lra. }
  destruct (mvt g g1 (e a) (e (S a)) ltac:(lra) ltac:(intros; apply Dg; lra)) as (c & Hc & Ec).
  assert (LG : Rabs (g1 c - g1 (x a)) <= G * h).
  { eapply Rle_trans; [apply (lip g1 (fun z => (1 - z ^ 2) * psi2 z - 4 * z * psi1 z - 2 * psi z) (-1) 1 G); [intros; now apply Dg1|intros; now apply BG|lra|apply xin; auto]|]. apply Rmult_le_compat_l; auto. apply Rabs_le. lra. }
  replace ((F (S a) - F a) / (e (S a) - e a) - g1 (x a)) with (((F (S a) - g (e (S a))) - (F a - g (e a))) / (dp + dm) + (g1 c - g1 (x a))).
  2: { rewrite W. replace (g1 c) with ((g (e (S a)) - g (e a)) / (dp + dm)); [field; lra|]. rewrite Ec, W. field. lra. }
  eapply Rle_trans; [apply Rabs_triang|]. rewrite Rmult_plus_distr_r. apply Rplus_le_compat; auto.
  unfold Rdiv at 1. rewrite Rabs_mult, Rabs_inv, (Rabs_pos_eq (dp + dm)) by lra.
  apply Rmult_le_reg_r with (dp + dm); auto. rewrite Rmult_assoc, Rinv_l, Rmult_1_r by lra.
  eapply Rle_trans; [apply Rabs_triang|]. rewrite Rabs_Ropp.
  assert (Q : forall d, 0 <= d <= h -> K * d ^ 2 / 2 <= K / 2 * h * d).
  { intros d Hd'. assert (0 <= K * (d * (h - d))) by (apply Rmult_le_pos; [auto|apply Rmult_le_pos; lra]). replace (K * d ^ 2 / 2) with (K / 2 * h * d - K * (d * (h - d)) / 2) by field. lra. }
  pose proof (Q dp Hp). pose proof (Q dm Hm). lra.
Qed.
End Angles.
(** for directions in increasing order whose half-gaps are at most h, and any twice differentiable angular flux with |psi''| <= K and |((1-mu^2) psi)''| <= G,
    the term that the sphere's right-hand side computes differs from the derivative of (1 - mu^2) psi by at most (K/2 + G) h, at every direction, the first and the last included *)
Theorem C152_angular_term_first_order : forall N (x : nat -> R) (psi psi1 psi2 : R -> R) K G h a, (2 <= N)%nat ->
  (forall b, (S b < N)%nat -> x b < x (S b)) -> -1 <= x 0%nat -> x (N - 1)%nat <= 1 ->
  (forall b, (S b < N)%nat -> x (S b) - x b <= 2 * h) -> x 0%nat + 1 <= h -> 1 - x (N - 1)%nat <= h ->
  (forall z, -1 <= z <= 1 -> is_derive psi z (psi1 z)) -> (forall z, -1 <= z <= 1 -> is_derive psi1 z (psi2 z)) ->
  (forall z, -1 <= z <= 1 -> Rabs (psi2 z) <= K) -> (forall z, -1 <= z <= 1 -> Rabs ((1 - z ^ 2) * psi2 z - 4 * z * psi1 z - 2 * psi z) <= G) -> (a < N)%nat ->
  exists d, is_derive (fun z => (1 - z ^ 2) * psi z) (x a) d /\ Rabs (finite_diff_uneven x a (fun i => psi (x i)) (a =? 0)%nat (a =? N - 1)%nat - d) <= (K / 2 + G) * h.
Proof.
  intros N x psi psi1 psi2 K G h a HN I L R Gp Hl Hr D1 D2 BK BG Ha. exists ((1 - x a ^ 2) * psi1 (x a) - 2 * x a * psi (x a)). split.
  - apply (Dg psi psi1 D1). apply (xin N x HN); auto. repeat split; auto.
  - apply (angular_error N x psi psi1 psi2 K G h); auto. repeat split; auto.
Qed.
Print Assumptions C152_angular_term_first_order.
(** the order cannot be better than one on unequal directions: for the isotropic flux the error at an inner direction is half the difference of the neighbouring gaps *)
Theorem C152_error_of_isotropic_flux : forall x a, x (a - 1)%nat < x a -> x a < x (a + 1)%nat ->
  finite_diff_uneven x a (fun _ => 1) false false - (- 2 * x a) = - ((x (a + 1)%nat - x a) - (x a - x (a - 1)%nat)) / 2.
Proof. intros x a H1 H2. unfold finite_diff_uneven. cbn [negb andb]. cbv zeta. field. lra. Qed.
Print Assumptions C152_error_of_isotropic_flux.
(** eleven equally spaced directions and psi = mu: h = 1/10, K = 0, G = 6 *)
Example C152_example : let x := fun i => -1 + 2 * INR i / 10 in exists d, is_derive (fun z => (1 - z ^ 2) * z) (x 3%nat) d /\ Rabs (finite_diff_uneven x 3 (fun i => x i) false false - d) <= 6 / 10.
Proof.
  cbv zeta. destruct (C152_angular_term_first_order 11 (fun i => -1 + 2 * INR i / 10) (fun z => z) (fun _ => 1) (fun _ => 0) 0 6 (1 / 10) 3) as (d & D & E); try lia.
  - intros b _. rewrite S_INR. lra.
  - simpl INR. lra.
  - simpl INR. lra.
  - intros b _. rewrite S_INR. lra.
  - simpl INR. lra.
  - simpl INR. lra.
  - intros; apply dd_id.
  - intros; apply dd_const.
  - intros; rewrite Rabs_R0; lra.
  - intros z Hz. apply Rabs_le. lra.
  - exists d. split; [exact D|]. eapply Rle_trans; [exact E|]. lra.
Qed.
