(** The functions normTn are orthonormal with the weight of the orthogonality test: C166. *)
From Coquelicot Require Import Coquelicot.
From Verif Require Import Py PyLemmas Calc Legendre Cheb DGModel DGProofs FuncModel DGSpec SourceProofs TestModel TestThms S2Model.
Local Open Scope R_scope.

(** v is the improper integral of f over (a,b) *)
Definition improper (f : R -> R) (a b v : R) : Prop := forall eps, 0 < eps -> exists del, 0 < del /\
  forall l r, a < l < a + del -> b - del < r < b -> exists w, is_RInt f l r w /\ Rabs (w - v) < eps.

Definition sinc (n : nat) (th : R) : R := if (n =? 0)%nat then th else sin (INR n * th) / INR n.
Lemma sinc_derive n th : is_derive (sinc n) th (cos (INR n * th)).
Proof.
  unfold sinc. destruct (n =? 0)%nat eqn:E.
  - apply Nat.eqb_eq in E. subst. simpl INR. rewrite Rmult_0_l, cos_0. apply dd_id.
  - apply Nat.eqb_neq in E. assert (INR n <> 0) by (now apply not_0_INR). auto_derive; auto. field. auto.
Qed.
Lemma sinc_0 n : sinc n 0 = 0.
Proof. unfold sinc. destruct (n =? 0)%nat; auto. rewrite Rmult_0_r, sin_0. unfold Rdiv. ring. Qed.
Lemma sin_nPI n : sin (INR n * PI) = 0.
Proof. induction n as [|n IH]; [simpl; rewrite Rmult_0_l; apply sin_0|]. rewrite S_INR, Rmult_plus_distr_r, Rmult_1_l, neg_sin, IH. ring. Qed.
Lemma sinc_PI n : sinc n PI = if (n =? 0)%nat then PI else 0.
Proof. unfold sinc. destruct (n =? 0)%nat; auto. rewrite sin_nPI. unfold Rdiv. ring. Qed.
Definition absdiff (i j : nat) : nat := (i - j) + (j - i).
Lemma cos_absdiff i j th : cos (INR (absdiff i j) * th) = cos (INR i * th - INR j * th).
Proof.
  unfold absdiff. destruct (Nat.le_ge_cases j i) as [H|H].
  - replace (j - i)%nat with 0%nat by lia. rewrite Nat.add_0_r, minus_INR by auto. f_equal. ring.
  - replace (i - j)%nat with 0%nat by lia. rewrite Nat.add_0_l, minus_INR by auto. rewrite <- cos_neg. f_equal. ring.
Qed.
(** a primitive of the product of two cosines *)
Definition cosprim (i j : nat) (th : R) : R := (sinc (i + j) th + sinc (absdiff i j) th) / 2.
Lemma cosprim_derive i j th : is_derive (cosprim i j) th (cos (INR i * th) * cos (INR j * th)).
Proof.
  apply (is_derive_ext (fun th => / 2 * (sinc (i + j) th + sinc (absdiff i j) th))); [intro y; unfold cosprim; match goal with |- @eq _ ?p ?q => change (@eq R p q) end; field|].
  eapply dd_eq; [apply dd_scal, dd_plus; apply sinc_derive|]. cbv beta. rewrite cos_absdiff, plus_INR, Rmult_plus_distr_r, cos_plus, cos_minus. field.
Qed.
Lemma cosprim_0 i j : cosprim i j 0 = 0.
Proof. unfold cosprim. rewrite !sinc_0. field. Qed.
Lemma cosprim_PI i j : cosprim i j PI = (if (i =? j)%nat then if (i =? 0)%nat then PI else PI / 2 else 0).
Proof.
  unfold cosprim, absdiff. rewrite !sinc_PI. destruct (Nat.eqb_spec i j) as [->|H].
  - rewrite Nat.sub_diag. cbn [Nat.add Nat.eqb]. destruct (Nat.eqb_spec j 0) as [->|K]; [cbn; field|]. destruct (Nat.eqb_spec (j + j) 0); [lia|field].
  - destruct (Nat.eqb_spec (i + j) 0); [lia|]. destruct (Nat.eqb_spec (i - j + (j - i)) 0); [lia|]. field.
Qed.
Lemma cosprim_lip i j u v : u <= v -> Rabs (cosprim i j v - cosprim i j u) <= v - u.
Proof.
  intro H. destruct (MVT_gen (cosprim i j) u v (fun th => cos (INR i * th) * cos (INR j * th))) as (c & _ & E).
  - intros x _. apply cosprim_derive.
  - intros x _. apply continuity_pt_filterlim. apply (ex_derive_continuous (cosprim i j)). eexists. apply cosprim_derive.
  - rewrite E, Rabs_mult, (Rabs_pos_eq (v - u)) by lra. rewrite <- (Rmult_1_l (v - u)) at 2. apply Rmult_le_compat_r; [lra|].
    rewrite Rabs_mult. pose proof (COS_bound (INR i * c)). pose proof (COS_bound (INR j * c)). rewrite <- (Rmult_1_l 1). apply Rmult_le_compat; try apply Rabs_pos; apply Rabs_le; lra.
Qed.
Lemma acos_derive z : -1 < z < 1 -> is_derive acos z (- 1 / sqrt (1 - z ^ 2)).
Proof.
  intro H. replace (z ^ 2) with (Rsqr z) by (unfold Rsqr; ring). apply is_derive_Reals. rewrite <- (derive_pt_acos z H). apply derive_pt_eq_1 with (pr := derivable_pt_acos z H). reflexivity.
Qed.
Lemma acos_small z eta : -1 <= z <= 1 -> 0 <= eta <= PI -> cos eta < z -> acos z < eta.
Proof.
  intros Hz He H. destruct (Rlt_le_dec (acos z) eta) as [L|L]; auto. exfalso. pose proof (acos_bound z). assert (cos (acos z) <= cos eta); [|rewrite cos_acos in *; lra].
  destruct L as [L|L]; [apply Rlt_le, cos_decreasing_1; lra|rewrite L; lra].
Qed.
Lemma acos_large z eta : -1 <= z <= 1 -> 0 <= eta <= PI -> z < - cos eta -> PI - eta < acos z.
Proof. intros Hz He H. assert (A : acos (- z) < eta) by (apply acos_small; lra). rewrite acos_opp in A. lra. Qed.

Section Weight.
  Variables (a b : R) (i j : nat).
  Hypothesis Hab : a < b.
  Definition zz (x : R) : R := 2 / (b - a) * x - (b + a) / (b - a).
  Lemma zz_range x : a < x < b -> -1 < zz x < 1.
  Proof.
    intro H. unfold zz. assert (I : 0 < / (b - a)) by (apply Rinv_0_lt_compat; lra).
    replace (2 / (b - a) * x - (b + a) / (b - a)) with ((2 * x - b - a) * / (b - a)) by (field; lra).
    split; [replace (-1) with (- (b - a) * / (b - a)) by (field; lra)|replace 1 with ((b - a) * / (b - a)) by (field; lra)]; apply Rmult_lt_compat_r; lra.
  Qed.
  Lemma weight_zz x : a < x < b -> weight_func_Tn x a b = 2 / sqrt (1 - zz x ^ 2).
  Proof.
    intro H. pose proof (zz_range x H). unfold weight_func_Tn. assert (P : 0 < 1 - zz x ^ 2) by nra.
    replace ((a - x) * (x - b)) with (((b - a) / 2) ^ 2 * (1 - zz x ^ 2)) by (unfold zz; field; lra).
    rewrite sqrt_mult, sqrt_pow2 by (try lra; apply pow2_ge_0). assert (0 < sqrt (1 - zz x ^ 2)) by now apply sqrt_lt_R0. field. split; lra.
  Qed.
  Definition prim (x : R) : R := - cosprim i j (acos (zz x)).
  Lemma prim_derive x : a < x < b -> is_derive prim x (/ (b - a) * (cheb i (zz x) * cheb j (zz x) * weight_func_Tn x a b)).
  Proof.
    intro H. pose proof (zz_range x H) as Hz. unfold prim. rewrite weight_zz by auto. assert (P : 0 < sqrt (1 - zz x ^ 2)) by (apply sqrt_lt_R0; nra).
    eapply dd_eq.
    - apply dd_opp. apply (is_derive_comp (cosprim i j) (fun x => acos (zz x))); [apply cosprim_derive|].
      apply (is_derive_comp acos zz); [now apply acos_derive|]. unfold zz. auto_derive; [lra|reflexivity].
    - rewrite <- (cheb_cos i), <- (cheb_cos j), cos_acos by lra. set (A := cheb i (zz x)). set (B := cheb j (zz x)). set (s := sqrt (1 - zz x ^ 2)) in *.
      unfold scal; cbn [ModuleSpace.scal NormedModule.ModuleSpace R_ModuleSpace]. cbn. unfold mult. cbn. match goal with |- @eq _ ?p ?q => change (@eq R p q) end. field. split; lra.
  Qed.
  Lemma weight_cont x : a < x < b -> continuous (fun x => cheb i (zz x) * cheb j (zz x) * weight_func_Tn x a b) x.
  Proof.
    intro H. assert (Z : forall n, ex_derive (fun x => cheb n (zz x)) x).
    { intro n. revert n. apply cheb_ind2.
      - apply (ex_derive_ext (fun _ => 1)); [intro; reflexivity|]. auto_derive; auto.
      - apply (ex_derive_ext zz); [intro; reflexivity|]. unfold zz. auto_derive. lra.
      - intros n A B. apply (ex_derive_ext (fun x => 2 * zz x * cheb (S n) (zz x) - cheb n (zz x))); [intro; symmetry; apply cheb_SS|].
        apply (ex_derive_minus (fun x => 2 * zz x * cheb (S n) (zz x)) (fun x => cheb n (zz x))); auto.
        apply (ex_derive_mult (fun x => 2 * zz x) (fun x => cheb (S n) (zz x))); auto. unfold zz. auto_derive. lra. }
    apply (ex_derive_continuous (fun x => cheb i (zz x) * cheb j (zz x) * weight_func_Tn x a b)).
    apply (ex_derive_mult (fun x => cheb i (zz x) * cheb j (zz x)) (fun x => weight_func_Tn x a b)); [apply (ex_derive_mult (fun x => cheb i (zz x)) (fun x => cheb j (zz x))); apply Z|].
    unfold weight_func_Tn. auto_derive. assert (0 < (a - x) * (x - b)) by nra. split; [nra|]. split; [|auto]. apply Rgt_not_eq, sqrt_lt_R0. nra.
  Qed.
  Lemma weight_integral l r : a < l -> l <= r -> r < b ->
    is_RInt (fun x => cheb i (zz x) * cheb j (zz x) * weight_func_Tn x a b) l r ((b - a) * (cosprim i j (acos (zz l)) - cosprim i j (acos (zz r)))).
  Proof.
    intros Hl Hlr Hr. eapply int_eq.
    - apply (int_ftc_on (fun x => (b - a) * prim x)); [auto| |].
      + intros z Hz. eapply dd_eq; [apply dd_scal, prim_derive; lra|]. match goal with |- @eq _ ?p ?q => change (@eq R p q) end. field. lra.
      + intros z Hz. apply weight_cont. lra.
    - unfold prim. ring.
  Qed.
  Lemma zz_near_1 eta : 0 < eta <= PI -> exists del, 0 < del /\ del <= (b - a) / 2 /\ (forall r, b - del < r < b -> cos eta < zz r) /\ (forall l, a < l < a + del -> zz l < - cos eta).
  Proof.
    intro He. assert (C : cos eta < 1) by (rewrite <- cos_0; apply cos_decreasing_1; lra). pose proof (COS_bound eta) as CB.
    exists ((b - a) / 2 * ((1 - cos eta) / 2)). assert (D : 0 < (b - a) / 2) by lra. assert (I : 0 < / (b - a)) by (apply Rinv_0_lt_compat; lra).
    split; [apply Rmult_lt_0_compat; lra|]. split; [rewrite <- (Rmult_1_r ((b - a) / 2)) at 2; apply Rmult_le_compat_l; lra|].
    split; intros r Hr; unfold zz.
    - replace (2 / (b - a) * r - (b + a) / (b - a)) with (1 - 2 * ((b - r) * / (b - a))) by (field; lra).
      assert ((b - r) * / (b - a) < (1 - cos eta) / 4); [|lra]. replace ((1 - cos eta) / 4) with ((b - a) / 2 * ((1 - cos eta) / 2) * / (b - a)) by (field; lra). apply Rmult_lt_compat_r; lra.
    - replace (2 / (b - a) * r - (b + a) / (b - a)) with (-1 + 2 * ((r - a) * / (b - a))) by (field; lra).
      assert ((r - a) * / (b - a) < (1 - cos eta) / 4); [|lra]. replace ((1 - cos eta) / 4) with ((b - a) / 2 * ((1 - cos eta) / 2) * / (b - a)) by (field; lra). apply Rmult_lt_compat_r; lra.
  Qed.
  Lemma weight_improper : improper (fun x => cheb i (zz x) * cheb j (zz x) * weight_func_Tn x a b) a b ((b - a) * (cosprim i j PI)).
  Proof.
    intros eps He. pose proof PI_RGT_0 as PP. set (eta := Rmin PI (eps / (4 * (b - a)))). assert (E0 : 0 < eps / (4 * (b - a))) by (apply Rdiv_lt_0_compat; lra).
    assert (E1 : 0 < eta <= PI) by (split; [apply Rmin_glb_lt; auto|apply Rmin_l]). assert (E2 : eta <= eps / (4 * (b - a))) by apply Rmin_r.
    destruct (zz_near_1 eta E1) as (del & D0 & D1 & Dr & Dl). exists del. split; auto. intros l r Hl Hr.
    exists ((b - a) * (cosprim i j (acos (zz l)) - cosprim i j (acos (zz r)))). split; [apply weight_integral; lra|].
    pose proof (zz_range l ltac:(lra)) as Zl. pose proof (zz_range r ltac:(lra)) as Zr.
    assert (Al : PI - eta < acos (zz l)) by (apply acos_large; [lra|lra|now apply Dl]). assert (Ar : acos (zz r) < eta) by (apply acos_small; [lra|lra|now apply Dr]).
    pose proof (acos_bound (zz l)) as Bl. pose proof (acos_bound (zz r)) as Br.
    pose proof (cosprim_lip i j (acos (zz l)) PI ltac:(lra)) as Ll. pose proof (cosprim_lip i j 0 (acos (zz r)) ltac:(lra)) as Lr. rewrite cosprim_0 in Lr.
    rewrite <- Rmult_minus_distr_l, Rabs_mult, (Rabs_pos_eq (b - a)) by lra.
    apply Rle_lt_trans with ((b - a) * (2 * eta)).
    - apply Rmult_le_compat_l; [lra|]. apply Rabs_le. apply Rabs_le_between in Ll. apply Rabs_le_between in Lr. lra.
    - apply Rle_lt_trans with ((b - a) * (2 * (eps / (4 * (b - a))))); [apply Rmult_le_compat_l; lra|]. replace ((b - a) * (2 * (eps / (4 * (b - a))))) with (eps / 2) by (field; lra). lra.
  Qed.
End Weight.
Lemma improper_ext f g a b v : (forall x, a < x < b -> f x = g x) -> a < b -> improper f a b v -> improper g a b v.
Proof.
  intros E Hab H eps He. destruct (H eps He) as (del & D0 & D). exists (Rmin del ((b - a) / 2)). split; [apply Rmin_glb_lt; lra|]. intros l r Hl Hr.
  pose proof (Rmin_l del ((b - a) / 2)). pose proof (Rmin_r del ((b - a) / 2)). destruct (D l r ltac:(lra) ltac:(lra)) as (w & W & B). exists w. split; [|exact B].
  apply (int_ext_open f); [lra| |exact W]. intros x Hx. apply E. lra.
Qed.
Lemma improper_scal f a b v k : improper f a b v -> improper (fun x => k * f x) a b (k * v).
Proof.
  intros H eps He. assert (P : 0 < Rabs k + 1) by (pose proof (Rabs_pos k); lra). destruct (H (eps / (Rabs k + 1)) ltac:(apply Rdiv_lt_0_compat; auto)) as (del & D0 & D).
  exists del. split; auto. intros l r Hl Hr. destruct (D l r Hl Hr) as (w & W & B). exists (k * w). split; [now apply int_scal|].
  rewrite <- Rmult_minus_distr_l, Rabs_mult. apply Rle_lt_trans with ((Rabs k + 1) * Rabs (w - v)); [apply Rmult_le_compat_r; [apply Rabs_pos|lra]|].
  replace eps with ((Rabs k + 1) * (eps / (Rabs k + 1))) by (field; lra). apply Rmult_lt_compat_l; auto.
Qed.
(** two of the functions, with the weight between them, have the integral one or zero over the cell *)
Theorem C166_orthonormal : forall i j a b Ti Tj, a < b -> (forall x, normTn i x a b = Ok (Ti x)) -> (forall x, normTn j x a b = Ok (Tj x)) ->
  improper (fun x => Ti x * weight_func_Tn x a b * Tj x) a b (if (i =? j)%nat then 1 else 0).
Proof.
  intros i j a b Ti Tj Hab HTi HTj.
  assert (Hn : forall n T, (forall x, normTn n x a b = Ok (T x)) -> (n <= 12)%nat).
  { intros n T HT. destruct (Nat.le_gt_cases n 12) as [L|L]; auto. specialize (HT 0). unfold normTn in HT. rewrite eval_Tn_high in HT by auto. discriminate. }
  pose proof (Hn i Ti HTi) as Hi. pose proof (Hn j Tj HTj) as Hj. pose proof PI_RGT_0 as PP.
  set (P := sqrt ((if (i =? 0)%nat then 1 else 2) / (PI * (b - a)))). set (Q := sqrt ((if (j =? 0)%nat then 1 else 2) / (PI * (b - a)))).
  assert (Ei : forall x, Ti x = P * cheb i (zz a b x)).
  { intro x. specialize (HTi x). rewrite normTn_basis in HTi by auto. injection HTi as <-. unfold basis, P. f_equal. f_equal. unfold refz, zz. field. lra. }
  assert (Ej : forall x, Tj x = Q * cheb j (zz a b x)).
  { intro x. specialize (HTj x). rewrite normTn_basis in HTj by auto. injection HTj as <-. unfold basis, Q. f_equal. f_equal. unfold refz, zz. field. lra. }
  replace (if (i =? j)%nat then 1 else 0) with (P * Q * ((b - a) * cosprim i j PI)).
  - eapply improper_ext; [|exact Hab|apply improper_scal, weight_improper; auto]. intros x _. cbv beta. rewrite Ei, Ej. ring.
  - rewrite cosprim_PI. destruct (Nat.eqb_spec i j) as [<-|]; [|ring].
    replace (P * Q) with ((if (i =? 0)%nat then 1 else 2) / (PI * (b - a))).
    + destruct (i =? 0)%nat; field; lra.
    + unfold P, Q. rewrite sqrt_sqrt; [reflexivity|]. apply Rlt_le, Rdiv_lt_0_compat; [destruct (i =? 0)%nat; lra|apply Rmult_lt_0_compat; lra].
Qed.
Print Assumptions C166_orthonormal.
(** the orthogonality test passes for every draw if the quadrature returns improper integrals *)
Definition quad_improper (quad : (R -> R) -> R -> R -> R) : Prop := forall f a b v, a < b -> improper f a b v -> quad f a b = v.
Theorem C166_test_passes : forall quad u v, quad_improper quad -> (forall k, 0 <= v k) -> test_ortho_Tn quad u v = Ok tt.
Proof.
  intros quad u v HQ Hv. apply loop_ok. intros r _. cbv zeta. rewrite draw_lt by auto. cbn [py_assert bind]. apply loop_ok. intros (i, j) Hij.
  apply in_prod_iff in Hij as (Hi & Hj). apply in_seq in Hi, Hj. cbn [fst snd]. set (aa := u r * 3). set (bb := aa + v r + 1 / 10).
  assert (H : aa < bb) by (unfold bb; specialize (Hv r); lra). apply npassert_eq; try apply tol_pos. apply HQ; auto.
  eapply improper_ext; [|exact H|apply (C166_orthonormal i j aa bb (fun x => basis Sphere i x aa bb) (fun x => basis Sphere j x aa bb) H); intro x; apply normTn_basis; auto; lia].
  intros x _. cbv beta. rewrite !normTn_basis by (auto; lia). reflexivity.
Qed.
Print Assumptions C166_test_passes.
(** such a quadrature exists: a limit over shrinking ends *)
Definition limit_quad (f : R -> R) (a b : R) : R := real (Lim_seq (fun n => RInt f (a + (b - a) / INR (n + 3)) (b - (b - a) / INR (n + 3)))).
Example C166_contract_holds : quad_improper limit_quad.
Proof.
  intros f a b v Hab H. unfold limit_quad. rewrite (is_lim_seq_unique _ v); [reflexivity|]. apply is_lim_seq_spec. intros eps. destruct (H eps (cond_pos eps)) as (del & D0 & D).
  destruct (archimed_cor1 (del / (b - a)) ltac:(apply Rdiv_lt_0_compat; lra)) as (N & HN & NP). exists N. intros n Hn.
  assert (P : 0 < INR (n + 3)) by (apply lt_0_INR; lia). assert (PN : 0 < INR N) by (now apply lt_0_INR). assert (L : INR N <= INR (n + 3)) by (apply le_INR; lia).
  assert (K : 0 < (b - a) / INR (n + 3) < del).
  { split; [apply Rdiv_lt_0_compat; lra|]. apply Rle_lt_trans with ((b - a) * / INR N); [apply Rmult_le_compat_l; [lra|apply Rinv_le_contravar; auto]|].
    replace del with ((b - a) * (del / (b - a))) by (field; lra). apply Rmult_lt_compat_l; lra. }
  destruct (D (a + (b - a) / INR (n + 3)) (b - (b - a) / INR (n + 3)) ltac:(lra) ltac:(lra)) as (w & W & B). rewrite (is_RInt_unique _ _ _ _ W). exact B.
Qed.
Example C166_example : test_ortho_Tn limit_quad (fun _ => 0) (fun _ => 0) = Ok tt /\ weight_func_Tn (1 / 2) 0 1 = 2.
Proof.
  split; [apply C166_test_passes; [apply C166_contract_holds|intro; lra]|]. unfold weight_func_Tn. replace ((0 - 1 / 2) * (1 / 2 - 1)) with ((1 / 2) ^ 2) by field. rewrite sqrt_pow2 by lra. field.
Qed.
