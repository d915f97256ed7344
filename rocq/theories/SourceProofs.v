From Coq Require Import Ranalysis5.
From Coquelicot Require Import Coquelicot.
From Verif Require Import Py PyLemmas Calc Legendre Cheb DGModel DGSpec DGProofs FuncModel FuncProofs SourceModel.
Open Scope R_scope.

(* ------------------------------------------------------------------ integrals of step functions *)
Lemma int_ext_open (f g : R -> R) (a b l : R) : a <= b -> (forall x, a < x < b -> f x = g x) -> is_RInt f a b l -> is_RInt g a b l.
Proof.
  intros Hab E H. apply (is_RInt_ext f); auto. rewrite Rmin_left, Rmax_right by auto. exact E.
Qed.
Lemma int_ftc_on (F f : R -> R) (a b : R) : a <= b -> (forall z, a <= z <= b -> is_derive F z (f z)) ->
  (forall z, a <= z <= b -> continuous f z) -> is_RInt f a b (F b - F a).
Proof.
  intros Hab HD HC. apply (is_RInt_derive F f a b); rewrite Rmin_left, Rmax_right by auto; auto.
Qed.
Lemma int_chasles (f : R -> R) (a b c l m : R) : is_RInt f a b l -> is_RInt f b c m -> is_RInt f a c (l + m).
Proof. intros H1 H2. exact (is_RInt_Chasles f a b c l m H1 H2). Qed.
Lemma int_point (f : R -> R) a : is_RInt f a a 0.
Proof. apply (is_RInt_point f a). Qed.
Definition ind (P : bool) : R := if P then 1 else 0.
Definition clip (T y : R) : R := Rmax 0 (Rmin y T).
Lemma clip_mono T y z : y <= z -> clip T y <= clip T z.
Proof. intro H. unfold clip. apply Rle_max_compat_l. apply Rle_min_compat_r. auto. Qed.
Lemma clip_range T y : 0 <= T -> 0 <= clip T y <= T.
Proof. intro H. unfold clip. split; [apply Rmax_l|]. apply Rmax_lub; auto. apply Rmin_r. Qed.
Lemma clip_case T y : 0 <= T -> (y <= 0 /\ clip T y = 0) \/ (0 <= y <= T /\ clip T y = y) \/ (T <= y /\ clip T y = T).
Proof.
  intro H. unfold clip, Rmax, Rmin. destruct (Rle_dec y T); destruct (Rle_dec _ _); [| | |]; try (right; left; split; lra); try (left; split; lra); try (right; right; split; lra).
  all: destruct (Rle_dec 0 y); try lra; first [left; split; lra | right; left; split; lra | right; right; split; lra].
Qed.
Lemma clip_lo T y : 0 <= T -> y <= 0 -> clip T y = 0.
Proof. intros. destruct (clip_case T y) as [[? E]|[[? E]|[? E]]]; auto; rewrite E; lra. Qed.
Lemma clip_mid T y : 0 <= T -> 0 <= y <= T -> clip T y = y.
Proof. intros. destruct (clip_case T y) as [[? E]|[[? E]|[? E]]]; auto; rewrite E; lra. Qed.
Lemma clip_hi T y : 0 <= T -> T <= y -> clip T y = T.
Proof. intros. destruct (clip_case T y) as [[? E]|[[? E]|[? E]]]; auto; rewrite E; lra. Qed.
Lemma clip_max T y : 0 <= T -> y <= T -> clip T y = Rmax 0 y.
Proof. intros. unfold clip. now rewrite Rmin_left. Qed.
Lemma clip_alt T y : 0 <= T -> clip T y = Rmin (Rmax y 0) T.
Proof. intros. unfold clip, Rmax, Rmin. repeat destruct (Rle_dec _ _); lra. Qed.
(** the primitive F restricted to a window [lo,hi] of [0,T] *)
Lemma int_window (F f : R -> R) lo hi T : 0 <= T -> lo <= hi -> (forall z, is_derive F z (f z)) -> (forall z, continuous f z) ->
  is_RInt (fun tau => f tau * ind (Rleb lo tau && Rleb tau hi)) 0 T (F (clip T hi) - F (clip T lo)).
Proof.
  intros HT Hlh HD HC. pose proof (clip_range T lo HT). pose proof (clip_range T hi HT). pose proof (clip_mono T _ _ Hlh).
  replace (F (clip T hi) - F (clip T lo)) with (0 + (F (clip T hi) - F (clip T lo)) + 0) by ring.
  apply (int_chasles _ 0 (clip T hi) T); [apply (int_chasles _ 0 (clip T lo) (clip T hi))|].
  - apply (int_ext_open (fun _ => 0)); [lra| |].
    + intros x Hx. destruct (clip_case T lo HT) as [[? E1]|[[? E1]|[? E1]]]; destruct (clip_case T hi HT) as [[? E2]|[[? E2]|[? E2]]]; rewrite ?E1, ?E2 in Hx; unfold ind; (rewrite (Rleb_false lo x); [simpl; ring|lra]).
    + eapply int_eq; [apply int_const|ring].
  - apply (int_ext_open f); [lra| |].
    + intros x Hx. destruct (clip_case T lo HT) as [[? E1]|[[? E1]|[? E1]]]; destruct (clip_case T hi HT) as [[? E2]|[[? E2]|[? E2]]]; rewrite ?E1, ?E2 in Hx; unfold ind; (rewrite !Rleb_true; [simpl; ring|lra|lra]).
    + apply int_ftc_on; auto.
  - apply (int_ext_open (fun _ => 0)); [lra| |].
    + intros x Hx. destruct (clip_case T lo HT) as [[? E1]|[[? E1]|[? E1]]]; destruct (clip_case T hi HT) as [[? E2]|[[? E2]|[? E2]]]; rewrite ?E1, ?E2 in Hx; unfold ind; (rewrite (Rleb_false x hi); [rewrite andb_false_r; ring|lra]).
    + eapply int_eq; [apply int_const|ring].
Qed.

(* ------------------------------------------------------------------ S2 square source *)
Lemma sqrt3_pos : 0 < sqrt 3. Proof. apply sqrt_lt_R0. lra. Qed.
Lemma sqrt3_sq : sqrt 3 * sqrt 3 = 3. Proof. apply sqrt_sqrt. lra. Qed.
(** intensity at (x,t) emitted at time tau and travelling with speed +-1/sqrt 3 from the source [-x0,x0] *)
Definition beam (x x0 s : R) : R := ind (Rleb (Rabs (x - s / sqrt 3)) x0).
Definition s2_rate (x t x0 tau : R) : R := 1 / 2 * exp (- (t - tau)) * (beam x x0 (t - tau) + beam (- x) x0 (t - tau)).
Lemma Rabs_le_iff a b : Rabs a <= b <-> - b <= a <= b.
Proof. split; intro H; [unfold Rabs in H; destruct (Rcase_abs a); lra|now apply Rabs_le]. Qed.
Lemma beam_window x x0 t tau : beam x x0 (t - tau) = ind (Rleb (t - sqrt 3 * (x + x0)) tau && Rleb tau (t - sqrt 3 * (x - x0))).
Proof.
  pose proof sqrt3_pos. unfold beam. f_equal.
  assert (E : forall u v, u / sqrt 3 <= v <-> u <= sqrt 3 * v).
  { intros u v. split; intro K.
    - replace u with (sqrt 3 * (u / sqrt 3)) by (field; lra). apply Rmult_le_compat_l; lra.
    - apply Rmult_le_reg_l with (sqrt 3); auto. replace (sqrt 3 * (u / sqrt 3)) with u by (field; lra). auto. }
  assert (E' : forall u v, v <= u / sqrt 3 <-> sqrt 3 * v <= u).
  { intros u v. split; intro K.
    - replace u with (sqrt 3 * (u / sqrt 3)) by (field; lra). apply Rmult_le_compat_l; lra.
    - apply Rmult_le_reg_l with (sqrt 3); auto. replace (sqrt 3 * (u / sqrt 3)) with u by (field; lra). auto. }
  destruct (Rleb_spec (Rabs (x - (t - tau) / sqrt 3)) x0) as [K|K].
  - apply Rabs_le_iff in K. destruct K as [K1 K2].
    assert (A : (t - tau) / sqrt 3 <= x + x0) by lra. assert (B : x - x0 <= (t - tau) / sqrt 3) by lra. apply E in A. apply E' in B.
    rewrite !Rleb_true by lra. reflexivity.
  - destruct (Rleb_spec (t - sqrt 3 * (x + x0)) tau) as [A|A]; destruct (Rleb_spec tau (t - sqrt 3 * (x - x0))) as [B|B]; auto. exfalso.
    assert (A' : (t - tau) / sqrt 3 <= x + x0) by (apply E; lra). assert (B' : x - x0 <= (t - tau) / sqrt 3) by (apply E'; lra).
    assert (Rabs (x - (t - tau) / sqrt 3) <= x0) by (apply Rabs_le_iff; lra). lra.
Qed.
Lemma s2_F_derive t z : is_derive (s2_F t) z (1 / 2 * exp (- (t - z))).
Proof.
  unfold s2_F. eapply dd_eq; [apply dd_scal; apply (dd_exp (fun z => - t + z)); apply dd_plus; [apply dd_const|apply dd_id]|].
  cbv beta. replace (- (t - z)) with (- t + z) by ring. ring.
Qed.
Definition s2_exact (x t x0 t0 : R) : R :=
  let T := Rmin t t0 in
  s2_F t (clip T (t - sqrt 3 * (x - x0))) - s2_F t (clip T (t - sqrt 3 * (x + x0)))
  + (s2_F t (clip T (t - sqrt 3 * (- x - x0))) - s2_F t (clip T (t - sqrt 3 * (- x + x0)))).
Lemma s2_integral x t x0 t0 : 0 <= x0 -> 0 <= t -> 0 <= t0 -> is_RInt (s2_rate x t x0) 0 (Rmin t t0) (s2_exact x t x0 t0).
Proof.
  intros Hx Ht Ht0. pose proof sqrt3_pos.
  assert (HT : 0 <= Rmin t t0) by (now apply Rmin_glb).
  assert (C : forall z, continuous (fun tau => 1 / 2 * exp (- (t - tau))) z).
  { intro z. apply (ex_derive_continuous (fun tau => 1 / 2 * exp (- (t - tau)))). exists (1 / 2 * (1 * exp (- (t - z)))). apply dd_scal. apply (dd_exp (fun tau => - (t - tau))).
    eapply dd_eq; [apply dd_opp, dd_minus; [apply dd_const|apply dd_id]|ring]. }
  apply (int_ext (fun tau => 1 / 2 * exp (- (t - tau)) * ind (Rleb (t - sqrt 3 * (x + x0)) tau && Rleb tau (t - sqrt 3 * (x - x0)))
    + 1 / 2 * exp (- (t - tau)) * ind (Rleb (t - sqrt 3 * (- x + x0)) tau && Rleb tau (t - sqrt 3 * (- x - x0))))).
  - intro tau. unfold s2_rate. rewrite !beam_window. ring.
  - unfold s2_exact. cbv zeta. apply int_plus; apply (int_window (s2_F t) (fun tau => 1 / 2 * exp (- (t - tau)))); auto; try (intro; apply s2_F_derive); nra.
Qed.
Lemma three_over : 3 / sqrt 3 = sqrt 3.
Proof. pose proof sqrt3_pos. apply (Rmult_eq_reg_r (sqrt 3)); [|lra]. rewrite sqrt3_sq. field. lra. Qed.
Lemma s2_even x t x0 t0 : s2_exact (- x) t x0 t0 = s2_exact x t x0 t0.
Proof. unfold s2_exact. cbv zeta. rewrite Ropp_involutive. ring. Qed.
Lemma s2_abs x t x0 t0 : s2_exact (Rabs x) t x0 t0 = s2_exact x t x0 t0.
Proof. unfold Rabs. destruct (Rcase_abs x); auto. apply s2_even. Qed.
(** the amount by which the closed form exceeds the integral *)
Definition s2_excess (x t x0 t0 : R) : R :=
  if Rltb t0 t && Rltb (Rabs x) (x0 - (t - t0) / sqrt 3) then 1 / 2 * exp (- t) * (exp (Rmax 0 (t - sqrt 3 * (Rabs x + x0))) - 1) else 0.
Lemma s2_closed x t x0 t0 : 0 <= x0 -> 0 <= t -> 0 <= t0 ->
  uncollided_su_olson_s2 x t x0 t0 = Some (s2_exact x t x0 t0 + s2_excess x t x0 t0).
Proof.
  intros Hx Ht Ht0. rewrite <- s2_abs. unfold uncollided_su_olson_s2, s2_exact, s2_excess. cbv zeta. pose proof (Rabs_pos x) as Ha. generalize dependent (Rabs x). intros a Ha.
  pose proof sqrt3_pos as P3. pose proof sqrt3_sq as S3.
  assert (E3 : forall u, u * 3 / sqrt 3 = sqrt 3 * u) by (intro u; replace (u * 3 / sqrt 3) with (u * (3 / sqrt 3)) by (unfold Rdiv; ring); rewrite three_over; ring).
  rewrite !E3.
  assert (D3 : (t - t0) / sqrt 3 = sqrt 3 * (t - t0) / 3).
  { apply (Rmult_eq_reg_l (sqrt 3)); [|lra]. replace (sqrt 3 * (sqrt 3 * (t - t0) / 3)) with ((sqrt 3 * sqrt 3) * (t - t0) / 3) by field. rewrite S3. field. lra. }
  rewrite D3. clear D3 E3.
  assert (Q : forall u v, u <= v <-> sqrt 3 * u <= sqrt 3 * v) by (intros u v; split; intro K; [apply Rmult_le_compat_l; lra|apply Rmult_le_reg_l with (sqrt 3); auto]).
  assert (Q3 : sqrt 3 * (sqrt 3 * (t - t0) / 3) = t - t0) by (replace (sqrt 3 * (sqrt 3 * (t - t0) / 3)) with ((sqrt 3 * sqrt 3) * (t - t0) / 3) by field; rewrite S3; field).
  replace (t - sqrt 3 * (a - x0)) with (t - (sqrt 3 * a - sqrt 3 * x0)) by ring. replace (t - sqrt 3 * (a + x0)) with (t - (sqrt 3 * a + sqrt 3 * x0)) by ring.
  replace (t - sqrt 3 * (- a - x0)) with (t + sqrt 3 * a + sqrt 3 * x0) by ring. replace (t - sqrt 3 * (- a + x0)) with (t + sqrt 3 * a - sqrt 3 * x0) by ring.
  replace (t - sqrt 3 * (x0 - a)) with (t + sqrt 3 * a - sqrt 3 * x0) by ring.
  assert (Pa : 0 <= sqrt 3 * a) by (apply Rmult_le_pos; lra). assert (Px : 0 <= sqrt 3 * x0) by (apply Rmult_le_pos; lra).
  destruct (Rleb_spec t t0) as [L|L].
  - rewrite (Rltb_false t0 t) by lra. cbn [andb]. rewrite Rmin_left by auto. rewrite Rplus_0_r.
    replace (t - sqrt 3 * (a - x0)) with (t - (sqrt 3 * a - sqrt 3 * x0)) by ring. replace (t - sqrt 3 * (a + x0)) with (t - (sqrt 3 * a + sqrt 3 * x0)) by ring.
    replace (t - sqrt 3 * (x0 - a)) with (t + sqrt 3 * a - sqrt 3 * x0) by ring.
    rewrite (clip_hi t (t + sqrt 3 * a + sqrt 3 * x0)) by lra.
    unfold Rgtb. destruct (Rltb_spec x0 a) as [A|A].
    + assert (sqrt 3 * x0 < sqrt 3 * a) by (apply Rmult_lt_compat_l; auto). rewrite (clip_hi t (t + sqrt 3 * a - sqrt 3 * x0)) by lra.
      rewrite !(clip_max t) by lra. f_equal. ring.
    + apply Q in A. rewrite (clip_hi t (t - (sqrt 3 * a - sqrt 3 * x0))) by lra.
      destruct (Rleb_spec (t + sqrt 3 * a) (sqrt 3 * x0)) as [B|B].
      * rewrite !(clip_lo t) by lra. f_equal. ring.
      * rewrite Rltb_true by lra. cbn [andb]. destruct (Rltb_spec 0 (t - (sqrt 3 * a + sqrt 3 * x0))) as [C|C].
        -- rewrite !(clip_mid t) by lra. f_equal. ring.
        -- rewrite Rleb_true by lra. rewrite (clip_lo t (t - _)), (clip_mid t (t + _ - _)) by lra. rewrite Rmax_right by lra. f_equal. ring.
  - rewrite (Rltb_true t0 t) by lra. cbn [andb]. rewrite Rmin_right by lra. rewrite (clip_hi t0 (t + sqrt 3 * a + sqrt 3 * x0)) by lra.
    destruct (Rleb_spec (x0 - sqrt 3 * (t - t0) / 3) a) as [A|A].
    + rewrite (Rltb_false a) by lra. pose proof (proj1 (Q _ _) A) as A'. rewrite Rmult_minus_distr_l, Q3 in A'.
      rewrite (clip_hi t0 (t + sqrt 3 * a - sqrt 3 * x0)) by lra. rewrite <- !clip_alt by auto. rewrite Rplus_0_r.
      destruct (Rleb_spec a (x0 + sqrt 3 * (t - t0) / 3)) as [B|B]; cbn [andb].
      * f_equal. ring.
      * unfold Rgtb. rewrite Rltb_true by lra. f_equal. ring.
    + cbn [andb]. unfold Rgtb. assert (0 < sqrt 3 * (t - t0) / 3) by (apply Rdiv_lt_0_compat; [apply Rmult_lt_0_compat|]; lra).
      rewrite (Rltb_false (x0 + _) a) by lra. rewrite (Rltb_true a) by lra.
      assert (A' : sqrt 3 * a < sqrt 3 * x0 - (t - t0)) by (rewrite <- Q3, <- Rmult_minus_distr_l; apply Rmult_lt_compat_l; auto).
      rewrite (clip_hi t0 (t - (sqrt 3 * a - sqrt 3 * x0))) by lra.
      destruct (Rleb_spec (t + sqrt 3 * a - sqrt 3 * x0) 0) as [B|B].
      * rewrite !(clip_lo t0) by lra. rewrite (Rmax_left 0) by lra. rewrite exp_0. f_equal. ring.
      * rewrite (Rltb_true 0), (Rltb_true _ t0) by lra. cbn [andb]. rewrite (clip_mid t0 (t + _ - _)) by lra. rewrite (clip_max t0) by lra.
        f_equal. unfold s2_F. rewrite (exp_plus (- t) 0), (exp_plus (- t) (Rmax 0 _)), exp_0. ring.
Qed.

(* ------------------------------------------------------------------ square source, all directions *)
(** contract of the exponential integral on the negative axis *)
Definition expi_ok (Ei : R -> R) : Prop := forall y, y < 0 -> is_derive Ei y (exp y / y).
(** length of the part of [-x0,x0] within distance s of x *)
Definition visible (x x0 s : R) : R := Rmax 0 (Rmin (x + s) x0 - Rmax (x - s) (- x0)).
Definition sq_rate (x t x0 tau : R) : R := exp (- (t - tau)) / (2 * (t - tau)) * visible x x0 (t - tau).
Lemma visible_even x x0 s : visible (- x) x0 s = visible x x0 s.
Proof. unfold visible. f_equal. unfold Rmin, Rmax. repeat destruct (Rle_dec _ _); lra. Qed.
Lemma visible_abs x x0 s : visible (Rabs x) x0 s = visible x x0 s.
Proof. unfold Rabs. destruct (Rcase_abs x); auto. apply visible_even. Qed.
Lemma visible_0 a x0 s : 0 <= a -> 0 <= x0 -> s <= a - x0 -> visible a x0 s = 0.
Proof. intros. unfold visible, Rmin, Rmax. repeat destruct (Rle_dec _ _); lra. Qed.
Lemma visible_1 a x0 s : 0 <= a -> 0 <= x0 -> 0 <= s -> s <= x0 - a -> visible a x0 s = 2 * s.
Proof. intros. unfold visible, Rmin, Rmax. repeat destruct (Rle_dec _ _); lra. Qed.
Lemma visible_2 a x0 s : 0 <= a -> 0 <= x0 -> 0 <= s -> x0 - a <= s -> a - x0 <= s -> s <= x0 + a -> visible a x0 s = x0 - a + s.
Proof. intros. unfold visible, Rmin, Rmax. repeat destruct (Rle_dec _ _); lra. Qed.
Lemma visible_3 a x0 s : 0 <= a -> 0 <= x0 -> x0 + a <= s -> visible a x0 s = 2 * x0.
Proof. intros. unfold visible, Rmin, Rmax. repeat destruct (Rle_dec _ _); lra. Qed.
Lemma cont_rate t k z : z < t -> continuous (fun tau => exp (tau - t) / (t - tau) * k + 1 / 2 * exp (tau - t)) z.
Proof.
  intro H. apply (ex_derive_continuous (fun tau => exp (tau - t) / (t - tau) * k + 1 / 2 * exp (tau - t))). eexists.
  apply dd_plus; [apply dd_scal_r; apply dd_div; [apply dd_exp; apply dd_minus; [apply dd_id|apply dd_const]|apply dd_minus; [apply dd_const|apply dd_id]|lra]|].
  apply dd_scal. apply dd_exp. apply dd_minus; [apply dd_id|apply dd_const].
Qed.
Lemma f1_derive Ei t x0 z : expi_ok Ei -> z < t -> is_derive (fun tau => f1 Ei t tau x0) z (exp (z - t) / (t - z) * x0).
Proof.
  intros HE H. unfold f1. eapply dd_eq; [apply dd_scal; apply (dd_comp Ei (fun tau => tau - t)); [apply HE; lra|apply dd_minus; [apply dd_id|apply dd_const]]|].
  cbv beta. field. lra.
Qed.
Definition f2p (Ei : R -> R) (t x0 x tau : R) : R := 1 / 2 * ((- x0 + Rabs x) * Ei (tau - t) + exp (tau - t)).
Lemma f2_derive Ei t x0 x z : expi_ok Ei -> z < t -> is_derive (f2p Ei t x0 x) z (exp (z - t) / (t - z) * ((x0 - Rabs x) / 2) + 1 / 2 * exp (z - t)).
Proof.
  intros HE H. unfold f2p. eapply dd_eq.
  - apply dd_scal. apply dd_plus; [apply dd_scal; apply (dd_comp Ei (fun tau => tau - t)); [apply HE; lra|apply dd_minus; [apply dd_id|apply dd_const]]|].
    apply (dd_exp (fun tau => tau - t)). apply dd_minus; [apply dd_id|apply dd_const].
  - cbv beta. field. lra.
Qed.
Lemma f3_derive t z : is_derive (f3 t) z (exp (z - t)).
Proof. unfold f3. eapply dd_eq; [apply (dd_exp (fun tau => tau - t)); apply dd_minus; [apply dd_id|apply dd_const]|cbv beta; ring]. Qed.
Lemma cont_exp t z : continuous (fun tau => exp (tau - t)) z.
Proof. apply (ex_derive_continuous (fun tau => exp (tau - t))). eexists. apply (f3_derive t). Qed.
Lemma f2_val Ei t tau x0 x : tau <> t -> f2 Ei t tau x0 x = f2p Ei t x0 x tau.
Proof. intro H. unfold f2, f2p. destruct (Reqb_spec tau t); [contradiction|reflexivity]. Qed.
Lemma f2_val' Ei t tau x0 x : Rabs x = x0 -> f2 Ei t tau x0 x = 1 / 2 * f3 t tau.
Proof.
  intro H. unfold f2, f3. destruct (Reqb_spec tau t) as [->|]; [rewrite Rminus_eq_0, exp_0; ring|]. rewrite H. ring.
Qed.
(** middle piece: partial view *)
Lemma piece2 Ei t x0 x u v : expi_ok Ei -> u <= v -> v <= t -> (v < t \/ Rabs x = x0) ->
  is_RInt (fun tau => exp (- (t - tau)) / (2 * (t - tau)) * (x0 - Rabs x + (t - tau))) u v (f2 Ei t v x0 x - f2 Ei t u x0 x).
Proof.
  intros HE Huv Hvt [Hv|Hx].
  - rewrite !f2_val by lra. apply (int_ext_open (fun tau => exp (tau - t) / (t - tau) * ((x0 - Rabs x) / 2) + 1 / 2 * exp (tau - t))); auto.
    + intros y Hy. replace (- (t - y)) with (y - t) by ring. field. lra.
    + apply int_ftc_on; auto; intros z Hz; [apply f2_derive; auto; lra|apply cont_rate; lra].
  - rewrite !f2_val' by auto. apply (int_ext_open (fun tau => 1 / 2 * exp (tau - t))); auto.
    + intros y Hy. rewrite Hx. replace (- (t - y)) with (y - t) by ring. field. lra.
    + replace (1 / 2 * f3 t v - 1 / 2 * f3 t u) with (1 / 2 * (f3 t v - f3 t u)) by ring. apply int_scal.
      apply int_ftc_on; auto; intros; [apply f3_derive|apply cont_exp].
Qed.
Lemma piece1 Ei t x0 u v : expi_ok Ei -> u <= v -> v < t ->
  is_RInt (fun tau => exp (- (t - tau)) / (2 * (t - tau)) * (2 * x0)) u v (f1 Ei t v x0 - f1 Ei t u x0).
Proof.
  intros HE Huv Hv. apply (int_ext_open (fun tau => exp (tau - t) / (t - tau) * x0)); auto.
  - intros y Hy. replace (- (t - y)) with (y - t) by ring. field. lra.
  - apply (int_ftc_on (fun tau => f1 Ei t tau x0)); auto; intros z Hz; [apply f1_derive; auto; lra|].
    apply (ex_derive_continuous (fun tau => exp (tau - t) / (t - tau) * x0)). eexists.
    apply dd_scal_r; apply dd_div; [apply dd_exp; apply dd_minus; [apply dd_id|apply dd_const]|apply dd_minus; [apply dd_const|apply dd_id]|lra].
Qed.
Lemma piece3 t u v : u <= v -> v <= t -> is_RInt (fun tau => exp (- (t - tau)) / (2 * (t - tau)) * (2 * (t - tau))) u v (f3 t v - f3 t u).
Proof.
  intros Huv Hv. apply (int_ext_open (fun tau => exp (tau - t))); auto.
  - intros y Hy. replace (- (t - y)) with (y - t) by ring. field. lra.
  - apply int_ftc_on; auto; intros; [apply f3_derive|apply cont_exp].
Qed.
Lemma sq_exact Ei x t x0 t0 : expi_ok Ei -> 0 < x0 -> 0 < t -> 0 <= t0 ->
  is_RInt (sq_rate x t x0) 0 (Rmin t t0) (uncollided_square_s2 Ei x t x0 t0).
Proof.
  intros HE Hx Ht Ht0. apply (int_ext (sq_rate (Rabs x) t x0)); [intro; unfold sq_rate; now rewrite visible_abs|].
  unfold uncollided_square_s2. cbv zeta. unfold Rgtb. rewrite (Rltb_true 0 t) by auto. pose proof (Rabs_pos x) as Ha.
  set (a := Rabs x) in *. set (T := Rmin t t0). assert (HT : 0 <= T <= t) by (split; [apply Rmin_glb; lra|apply Rmin_l]).
  set (e := Rmin T (t - a + x0)).
  assert (He : e <= T /\ e <= t - a + x0 /\ (e = T \/ e = t - a + x0)) by (unfold e, Rmin; destruct (Rle_dec _ _); lra).
  destruct (Rleb_spec e 0) as [L|L].
  - apply (int_ext_open (fun _ => 0)); [lra| |eapply int_eq; [apply int_const|ring]].
    intros y Hy. unfold sq_rate. rewrite visible_0; [ring|auto|lra|]. destruct He as (_ & _ & [->|He]); [lra|]. lra.
  - rewrite (Rltb_false e 0) by lra.
    assert (W : forall m, 0 <= (if Rltb (Rmin e m) 0 then 0 else Rmin e m) <= e /\ (m <= e -> 0 <= m -> (if Rltb (Rmin e m) 0 then 0 else Rmin e m) = m) /\
       (m <= 0 -> (if Rltb (Rmin e m) 0 then 0 else Rmin e m) = 0) /\ (e <= m -> (if Rltb (Rmin e m) 0 then 0 else Rmin e m) = e)).
    { intro m. unfold Rmin. destruct (Rle_dec e m); [destruct (Rltb_spec e 0)|destruct (Rltb_spec m 0)]; repeat split; intros; lra. }
    destruct (W (t - x0 - a)) as (W1 & W2 & W3 & W4). destruct (W (t - x0 + a)) as (V1 & V2 & V3 & V4). clear W.
    set (tau2 := if Rltb (Rmin e (t - x0 - a)) 0 then 0 else Rmin e (t - x0 - a)) in *.
    set (tau3 := if Rltb (Rmin e (t - x0 + a)) 0 then 0 else Rmin e (t - x0 + a)) in *.
    assert (T23 : tau2 <= tau3).
    { destruct (Rle_dec (t - x0 - a) 0); [rewrite W3 by auto; lra|]. destruct (Rle_dec e (t - x0 + a)); [rewrite V4 by auto; lra|].
      rewrite V2, W2 by lra. lra. }
    replace (f1 Ei t tau2 x0 - f1 Ei t 0 x0 + (f2 Ei t tau3 x0 x - f2 Ei t tau2 x0 x) + (f3 t e - f3 t tau3))
      with (f1 Ei t tau2 x0 - f1 Ei t 0 x0 + (f2 Ei t tau3 x0 x - f2 Ei t tau2 x0 x) + (f3 t e - f3 t tau3) + 0) by ring.
    apply (int_chasles _ 0 e T); [apply (int_chasles _ 0 tau3 e); [apply (int_chasles _ 0 tau2 tau3)|]|].
    + assert (tau2 < t) by (destruct (Rle_dec (t - x0 - a) 0); [rewrite W3 by auto; lra|]; destruct (Rle_dec e (t - x0 - a)); [rewrite W4 by auto; lra|rewrite W2 by lra; lra]).
      apply (int_ext_open (fun tau => exp (- (t - tau)) / (2 * (t - tau)) * (2 * x0))); [lra| |apply piece1; auto; lra].
      intros y Hy. unfold sq_rate. rewrite visible_3; auto; [lra|]. destruct (Rle_dec (t - x0 - a) 0); [pose proof (W3 ltac:(lra)); lra|]. destruct (Rle_dec e (t - x0 - a)); [lra|]. pose proof (W2 ltac:(lra) ltac:(lra)); lra.
    + apply (int_ext_open (fun tau => exp (- (t - tau)) / (2 * (t - tau)) * (x0 - a + (t - tau)))); [lra| |].
      * intros y Hy. unfold sq_rate. rewrite visible_2; auto; try lra.
      * apply piece2; auto; [lra|]. destruct (Rlt_dec tau3 t); [left; auto|right]. fold a.
        destruct (Rle_dec (t - x0 + a) 0); [pose proof (V3 ltac:(lra)); lra|]. destruct (Rle_dec e (t - x0 + a)); [pose proof (V4 ltac:(lra)); lra|pose proof (V2 ltac:(lra) ltac:(lra)); lra].
    + apply (int_ext_open (fun tau => exp (- (t - tau)) / (2 * (t - tau)) * (2 * (t - tau)))); [lra| |apply piece3; lra].
      intros y Hy. unfold sq_rate. rewrite visible_1; auto; try lra.
    + apply (int_ext_open (fun _ => 0)); [lra| |eapply int_eq; [apply int_const|ring]].
      intros y Hy. unfold sq_rate. rewrite visible_0; [ring|auto|lra|]. destruct He as (_ & _ & [He|He]); lra.
Qed.

(* ------------------------------------------------------------------ boxes, signs, supports *)
Lemma int_nonneg (f : R -> R) (a b l : R) : a <= b -> (forall x, a < x < b -> 0 <= f x) -> is_RInt f a b l -> 0 <= l.
Proof.
  intros Hab Hf H. assert (Z : is_RInt (fun _ => 0) a b 0) by (eapply int_eq; [apply int_const|ring]).
  apply (is_RInt_le (fun _ => 0) f a b 0 l); auto.
Qed.
Lemma int_box lo hi A B : A <= B -> lo <= hi -> is_RInt (fun m => ind (Rleb lo m && Rleb m hi)) A B (Rmax 0 (Rmin hi B - Rmax lo A)).
Proof.
  intros HAB Hlh.
  assert (K : is_RInt (fun tau => 1 * ind (Rleb (lo - A) tau && Rleb tau (hi - A))) 0 (B - A) (clip (B - A) (hi - A) - clip (B - A) (lo - A))).
  { apply (int_window (fun z => z) (fun _ => 1)); [lra|lra|intro; apply dd_id|]. intro z. apply (continuous_const 1 z). }
  replace (Rmax 0 (Rmin hi B - Rmax lo A)) with (clip (B - A) (hi - A) - clip (B - A) (lo - A)).
  2:{ unfold clip, Rmax, Rmin. repeat destruct (Rle_dec _ _); lra. }
  apply (int_ext (fun m => 1 * (1 * ind (Rleb (lo - A) (1 * m + - A) && Rleb (1 * m + - A) (hi - A))))).
  - intro m. rewrite !Rmult_1_l. f_equal. f_equal.
    + destruct (Rleb_spec lo m); destruct (Rleb_spec (lo - A) (m + - A)); auto; lra.
    + destruct (Rleb_spec m hi); destruct (Rleb_spec (m + - A) (hi - A)); auto; lra.
  - apply (int_affine (fun tau => 1 * ind (Rleb (lo - A) tau && Rleb tau (hi - A)))). replace (1 * A + - A) with 0 by ring. replace (1 * B + - A) with (B - A) by ring. exact K.
Qed.
(** share of directions from which the pulse [-x0,x0] is seen *)
Lemma directions_visible x x0 t : 0 <= x0 -> 0 < t -> is_RInt (fun mu => ind (Rleb (Rabs (x - mu * t)) x0)) (-1) 1 (visible x x0 t / t).
Proof.
  intros Hx Ht.
  assert (V : visible x x0 t / t = Rmax 0 (Rmin ((x + x0) / t) 1 - Rmax ((x - x0) / t) (-1))).
  { unfold visible. assert (D : forall u v, u / t <= v <-> u <= v * t).
    { intros u v. split; intro K; [apply (Rmult_le_compat_r t) in K; [|lra]; replace (u / t * t) with u in K by (field; lra); auto|].
      apply Rmult_le_reg_r with t; auto. replace (u / t * t) with u by (field; lra). auto. }
    assert (M1 : Rmin (x + t) x0 - Rmax (x - t) (- x0) = t * (Rmin ((x + x0) / t) 1 - Rmax ((x - x0) / t) (-1))).
    { replace (Rmin (x + t) x0 - Rmax (x - t) (- x0)) with (Rmin (x + x0) t - Rmax (x - x0) (- t)) by (unfold Rmin, Rmax; repeat destruct (Rle_dec _ _); lra).
      rewrite Rmult_minus_distr_l. f_equal.
      - unfold Rmin. destruct (Rle_dec (x + x0) t) as [A|A]; destruct (Rle_dec ((x + x0) / t) 1) as [B|B]; [field; lra|exfalso; apply B; apply D; lra|exfalso; apply D in B; lra|lra].
      - unfold Rmax. destruct (Rle_dec (x - x0) (- t)) as [A|A]; destruct (Rle_dec ((x - x0) / t) (-1)) as [B|B]; [lra|exfalso; apply B; apply D; lra|exfalso; apply D in B; lra|field; lra]. }
    rewrite M1. unfold Rmax at 1 3. set (q := Rmin ((x + x0) / t) 1 - Rmax ((x - x0) / t) (-1)).
    destruct (Rle_dec 0 (t * q)) as [A|A]; destruct (Rle_dec 0 q) as [B|B]; try (field; lra); nra. }
  rewrite V. eapply int_ext; [|apply int_box; [lra|]].
  - intro mu. cbv beta. f_equal. assert (D : forall u, u / t <= mu <-> u <= mu * t).
    { intro u. split; intro K; [apply (Rmult_le_compat_r t) in K; [|lra]; replace (u / t * t) with u in K by (field; lra); auto|].
      apply Rmult_le_reg_r with t; auto. replace (u / t * t) with u by (field; lra). auto. }
    assert (D' : forall u, mu <= u / t <-> mu * t <= u).
    { intro u. split; intro K; [apply (Rmult_le_compat_r t) in K; [|lra]; replace (u / t * t) with u in K by (field; lra); auto|].
      apply Rmult_le_reg_r with t; auto. replace (u / t * t) with u by (field; lra). auto. }
    destruct (Rleb_spec (Rabs (x - mu * t)) x0) as [A|A].
    + apply Rabs_le_iff in A. rewrite !Rleb_true; auto; [apply D'; lra|apply D; lra].
    + destruct (Rleb_spec ((x - x0) / t) mu) as [P|P]; destruct (Rleb_spec mu ((x + x0) / t)) as [Q|Q]; auto. exfalso.
      apply D in P. apply D' in Q. assert (Rabs (x - mu * t) <= x0) by (apply Rabs_le_iff; lra). lra.
  - apply Rmult_le_compat_r; [left; now apply Rinv_0_lt_compat|lra].
Qed.
