(** Gaussian pulses and sources, the spherical shell and the manufactured solution. *)
From Coquelicot Require Import Coquelicot.
From Verif Require Import Py PyLemmas Calc Legendre Cheb DGModel DGSpec DGProofs FuncModel FuncProofs SourceModel SourceProofs SourceMore.
Local Open Scope R_scope.

Lemma dd_sq (g : R -> R) (x b : R) : is_derive g x b -> is_derive (fun z => g z ^ 2) x (2 * g x * b).
Proof.
  intro H. apply (dd_ext (fun z => g z * g z)); [intro; ring|]. eapply dd_eq; [apply dd_mult; apply H|ring].
Qed.
(** contract of math.erf *)
Definition erf_ok (erf : R -> R) : Prop := erf 0 = 0 /\ forall y, is_derive erf y (2 / sqrt PI * exp (- y ^ 2)).
Lemma sqrtPI_pos : 0 < sqrt PI. Proof. apply sqrt_lt_R0, PI_RGT_0. Qed.
Lemma erf_odd erf y : erf_ok erf -> erf (- y) = - erf y.
Proof.
  intros [H0 H].
  assert (D : forall z, is_derive (fun z => erf z + erf (- z)) z 0).
  { intro z. eapply dd_eq; [apply dd_plus; [apply H|apply (dd_comp erf (fun z => - z)); [apply H|apply dd_opp, dd_id]]|].
    replace ((- z) ^ 2) with (z ^ 2) by ring. ring. }
  assert (I : is_RInt (fun _ => 0) 0 y ((erf y + erf (- y)) - (erf 0 + erf (- 0)))).
  { apply (int_ftc (fun z => erf z + erf (- z)) (fun _ => 0)); [exact D|]. intro z. apply (continuous_const 0 z). }
  assert (J : is_RInt (fun _ => 0) 0 y 0) by (eapply int_eq; [apply int_const|ring]).
  pose proof (int_uniq2 _ _ _ _ _ I J) as K. rewrite Ropp_0, H0 in K. lra.
Qed.
Lemma cont_gauss k a b z : continuous (fun m => k * exp (- (a + b * m) ^ 2)) z.
Proof.
  apply (ex_derive_continuous (fun m => k * exp (- (a + b * m) ^ 2))). eexists. apply dd_scal. apply (dd_exp (fun m => - (a + b * m) ^ 2)). apply dd_opp.
  apply (dd_sq (fun m => a + b * m)). apply dd_plus; [apply dd_const|apply dd_scal, dd_id].
Qed.
(** directions average of a Gaussian *)
Lemma gauss_directions erf sigma x t : erf_ok erf -> 0 < sigma -> 0 < t ->
  is_RInt (fun mu => exp (- t) / 2 * exp (- (x - mu * t) ^ 2 / sigma ^ 2)) (-1) 1
    (sigma * exp (- t) * sqrt PI * (erf ((t - x) / sigma) + erf ((t + x) / sigma)) / (4 * t)).
Proof.
  intros HE Hs Ht. pose proof sqrtPI_pos as HP. destruct HE as [H0 HD].
  apply (int_ext (fun mu => exp (- t) / 2 * exp (- (x / sigma + (- t / sigma) * mu) ^ 2))).
  { intro mu. do 2 f_equal. field. lra. }
  eapply int_eq; [apply (int_ftc (fun mu => - (exp (- t) * sigma * sqrt PI / (4 * t)) * erf (x / sigma + (- t / sigma) * mu)))|].
  - intro z. eapply dd_eq; [apply dd_scal; apply (dd_comp erf (fun mu => x / sigma + (- t / sigma) * mu)); [apply HD|apply dd_plus; [apply dd_const|apply dd_scal, dd_id]]|].
    cbv beta. field. lra.
  - intro z. apply cont_gauss.
  - cbv beta. replace (x / sigma + - t / sigma * 1) with (- ((t - x) / sigma)) by (field; lra).
    replace (x / sigma + - t / sigma * -1) with ((t + x) / sigma) by (field; lra). rewrite (erf_odd erf) by (split; auto). field. lra.
Qed.
Lemma gauss_pulse c x t : erf_ok (erf c) -> 0 < ssigma c -> 0 < t -> exists v,
  is_RInt (fun mu => exp (- t) / 2 * exp (- (x - mu * t) ^ 2 / ssigma c ^ 2)) (-1) 1 v /\
  gaussian_IC_uncollided_solution c x t = strength_s c * v * (4 * t / (4 * t + / 10 ^ 12)).
Proof.
  intros HE Hs Ht. eexists. split; [apply (gauss_directions (erf c)); auto|]. unfold gaussian_IC_uncollided_solution. pose proof eps_pos. field. lra.
Qed.
Lemma gauss_pulse_0 c x : erf_ok (erf c) -> 0 < ssigma c -> gaussian_IC_uncollided_solution c x 0 = 0.
Proof.
  intros HE Hs. unfold gaussian_IC_uncollided_solution. replace ((0 - x) / ssigma c) with (- ((0 + x) / ssigma c)) by (field; lra). rewrite (erf_odd (erf c)) by auto. unfold Rdiv. ring.
Qed.
Lemma gauss_source_rate c x t tau : erf_ok (erf c) -> 0 < ssigma c -> tau < t ->
  is_RInt (fun mu => exp (- (t - tau)) / 2 * exp (- (x - mu * (t - tau)) ^ 2 / ssigma c ^ 2)) (-1) 1
    (gaussian_source_integrand c tau t x * sqrt PI * ssigma c).
Proof.
  intros HE Hs Ht. eapply int_eq; [apply (gauss_directions (erf c)); auto; lra|]. unfold gaussian_source_integrand. rewrite Reqb_false by lra.
  unfold Rabs. destruct (Rcase_abs x); [replace (t - tau - - x) with (t - tau + x) by ring; replace (t - tau + - x) with (t - tau - x) by ring|]; field; lra.
Qed.
(** S2: the closed form for thin sources is the time integral used for thick ones *)
Definition s2_arg (sigma x s : R) : R := x / sigma + s / (sqrt 3 * sigma) + sqrt 3 * sigma / 2.
Lemma s2_arg_sq sigma x s : 0 < sigma -> s2_arg sigma x s ^ 2 = (sqrt 3 * s + 3 * x) ^ 2 / (9 * sigma ^ 2) + sqrt 3 * x + s + 3 * sigma ^ 2 / 4.
Proof.
  intro H. pose proof sqrt3_pos as P. pose proof sqrt3_sq as Q. unfold s2_arg.
  assert (E : s / (sqrt 3 * sigma) = sqrt 3 * s / (3 * sigma)).
  { apply (Rmult_eq_reg_r (3 * sqrt 3 * sigma)); [|nra]. replace (sqrt 3 * s / (3 * sigma) * (3 * sqrt 3 * sigma)) with (sqrt 3 * sqrt 3 * s) by (field; lra). rewrite Q. field. lra. }
  rewrite E. set (r := sqrt 3) in *. clearbody r.
  replace ((x / sigma + r * s / (3 * sigma) + r * sigma / 2) ^ 2) with ((r * s + 3 * x) ^ 2 / (9 * sigma ^ 2) + r * x + r * r * s / 3 + r * r * sigma ^ 2 / 4) by (field; lra).
  rewrite Q. field. lra.
Qed.
Lemma s2_beam erf sigma x t T : erf_ok erf -> 0 < sigma ->
  is_RInt (fun tau => 1 / 2 * exp (- t + tau) * exp (- (sqrt 3 * (t - tau) + 3 * x) ^ 2 / (9 * sigma ^ 2))) 0 T
    (sqrt (3 * PI) * sigma / 4 * exp (sqrt 3 * x + 3 * sigma ^ 2 / 4) * (erf (s2_arg sigma x t) - erf (s2_arg sigma x (t - T)))).
Proof.
  intros [H0 HD] Hs. pose proof sqrt3_pos as P. pose proof sqrt3_sq as Q. pose proof sqrtPI_pos as HP.
  set (K := 1 / 2 * exp (sqrt 3 * x + 3 * sigma ^ 2 / 4)).
  apply (int_ext (fun tau => K * exp (- (s2_arg sigma x t + - / (sqrt 3 * sigma) * tau) ^ 2))).
  { intro tau. replace (s2_arg sigma x t + - / (sqrt 3 * sigma) * tau) with (s2_arg sigma x (t - tau)) by (unfold s2_arg; field; lra).
    rewrite s2_arg_sq by auto. unfold K. rewrite !Rmult_assoc, <- !exp_plus. do 2 f_equal. field. lra. }
  eapply int_eq; [apply (int_ftc (fun tau => - (sqrt PI * sqrt 3 * sigma / 2 * K) * erf (s2_arg sigma x t + - / (sqrt 3 * sigma) * tau)))|].
  - intro z. eapply dd_eq; [apply dd_scal; apply (dd_comp erf (fun tau => s2_arg sigma x t + - / (sqrt 3 * sigma) * tau)); [apply HD|apply dd_plus; [apply dd_const|apply dd_scal, dd_id]]|].
    cbv beta. field. lra.
  - intro z. apply cont_gauss.
  - cbv beta. replace (s2_arg sigma x t + - / (sqrt 3 * sigma) * T) with (s2_arg sigma x (t - T)) by (unfold s2_arg; field; lra).
    replace (s2_arg sigma x t + - / (sqrt 3 * sigma) * 0) with (s2_arg sigma x t) by ring.
    rewrite sqrt_mult by (pose proof PI_RGT_0; lra). unfold K. field.
Qed.
Lemma s2_gauss_closed c x t : erf_ok (erf c) -> 0 < ssigma c ->
  is_RInt (fun tau => gaussian_s2_thick_integrand c tau t x) 0 (Rmin t (st0 c)) (uncollided_s2_gaussian (erf c) x t (ssigma c) (st0 c)).
Proof.
  intros HE Hs. pose proof sqrt3_pos as P. pose proof sqrt3_sq as Q. set (T := Rmin t (st0 c)). set (sg := ssigma c) in *.
  apply (int_ext (fun tau => 1 / 2 * exp (- t + tau) * exp (- (sqrt 3 * (t - tau) + 3 * x) ^ 2 / (9 * sg ^ 2))
    + 1 / 2 * exp (- t + tau) * exp (- (sqrt 3 * (t - tau) + 3 * - x) ^ 2 / (9 * sg ^ 2)))).
  { intro tau. unfold gaussian_s2_thick_integrand. fold sg.
    replace (sqrt 3 * t + 3 * x - sqrt 3 * tau) with (sqrt 3 * (t - tau) + 3 * x) by ring.
    replace ((- (sqrt 3 * t) + 3 * x + sqrt 3 * tau) ^ 2) with ((sqrt 3 * (t - tau) + 3 * - x) ^ 2) by ring. field. }
  eapply int_eq; [apply int_plus; apply (s2_beam (erf c)); auto|].
  unfold uncollided_s2_gaussian. cbv zeta. fold T.
  assert (I3 : / sqrt 3 = sqrt 3 / 3) by (apply (Rmult_eq_reg_r (3 * sqrt 3)); [|nra]; replace (sqrt 3 / 3 * (3 * sqrt 3)) with (sqrt 3 * sqrt 3) by field; rewrite Q; field; lra).
  assert (D3 : forall s, s / (sqrt 3 * sg) = sqrt 3 * s / (3 * sg)).
  { intro s. unfold Rdiv. rewrite !Rinv_mult, I3. field. lra. }
  replace ((- 2 * t + 2 * T + 2 * sqrt 3 * x - 3 * sg ^ 2) / (2 * sqrt 3 * sg)) with (- s2_arg sg (- x) (t - T)).
  2:{ unfold s2_arg. rewrite D3. replace (2 * sqrt 3 * sg) with (sqrt 3 * (2 * sg)) by ring. unfold Rdiv. rewrite !Rinv_mult, I3. 
      apply (Rmult_eq_reg_r (6 * sg)); [|lra]. field_simplify; try lra. replace (sqrt 3 ^ 2) with 3 by (simpl; rewrite Rmult_1_r, Q; reflexivity). field. }
  replace (t / (sqrt 3 * sg) + x / sg + sqrt 3 * sg / 2) with (s2_arg sg x t) by (unfold s2_arg; ring).
  replace ((2 * t - 2 * T + 2 * sqrt 3 * x + 3 * sg ^ 2) / (2 * sqrt 3 * sg)) with (s2_arg sg x (t - T)).
  2:{ unfold s2_arg. rewrite D3. replace (2 * sqrt 3 * sg) with (sqrt 3 * (2 * sg)) by ring. unfold Rdiv. rewrite !Rinv_mult, I3. 
      apply (Rmult_eq_reg_r (6 * sg)); [|lra]. field_simplify; try lra. replace (sqrt 3 ^ 2) with 3 by (simpl; rewrite Rmult_1_r, Q; reflexivity). field. }
  replace ((2 * sqrt 3 * t - 6 * x + 3 * sqrt 3 * sg ^ 2) / (6 * sg)) with (s2_arg sg (- x) t).
  2:{ unfold s2_arg. rewrite D3. field. lra. }
  rewrite (erf_odd (erf c)) by auto. replace (3 * sg ^ 2 / 4) with (3 * sg ^ 2 / 4) by ring.
  replace (sqrt 3 * x + 3 * sg ^ 2 / 4) with ((- (sqrt 3 * x) + 3 * sg ^ 2 / 4) + 2 * sqrt 3 * x) by field. rewrite (exp_plus _ (2 * sqrt 3 * x)).
  replace (sqrt 3 * - x + 3 * sg ^ 2 / 4) with (- (sqrt 3 * x) + 3 * sg ^ 2 / 4) by field. field.
Qed.

(* ------------------------------------------------------------------ spherical shell *)
Lemma shell_directions r tt x0 : 0 < r -> 0 < tt ->
  is_RInt (fun mu => ind (Rleb (r ^ 2 + tt ^ 2 - 2 * r * tt * mu) (x0 ^ 2))) (-1) 1
    (1 - Rmin 1 (Rmax (-1) (1 / 2 * (tt / r + r / tt - x0 ^ 2 / (r * tt))))).
Proof.
  intros Hr Ht. set (c := 1 / 2 * (tt / r + r / tt - x0 ^ 2 / (r * tt))).
  assert (E : 2 * r * tt * c = r ^ 2 + tt ^ 2 - x0 ^ 2) by (unfold c; field; lra). assert (P : 0 < 2 * r * tt) by nra.
  apply (int_ext_open (fun mu => ind (Rleb c mu && Rleb mu (Rmax c 1)))); [lra| |].
  - intros mu [A B]. f_equal. rewrite (Rleb_true mu (Rmax c 1)) by (pose proof (Rmax_r c 1); lra). rewrite Bool.andb_true_r.
    destruct (Rleb_spec c mu); destruct (Rleb_spec (r ^ 2 + tt ^ 2 - 2 * r * tt * mu) (x0 ^ 2)); auto; exfalso; nra.
  - eapply int_eq; [apply int_box; [lra|apply Rmax_l]|]. unfold Rmax, Rmin. repeat destruct (Rle_dec _ _); lra.
Qed.
Lemma shell_flux c r t : 0 < sx0 c -> 0 < r -> 0 <= t ->
  is_RInt (fun mu => exp (- t) / 2 * (/ (4 * PI / 3 * sx0 c ^ 3) * ind (Rleb (r ^ 2 + (t + / 10 ^ 12) ^ 2 - 2 * r * (t + / 10 ^ 12) * mu) (sx0 c ^ 2)))) (-1) 1
    (shell_IC_uncollided_solution c r t).
Proof.
  intros Hx Hr Ht. pose proof eps_pos as Ep. eapply int_eq; [apply int_scal, int_scal, shell_directions; lra|].
  unfold shell_IC_uncollided_solution. cbv zeta. rewrite Rmult_1_r. pose proof PI_RGT_0. set (m := Rmin 1 _). clearbody m. field. lra.
Qed.

(* ------------------------------------------------------------------ manufactured solution *)
Definition mms (x t : R) : R := exp (- x ^ 2 / 2) / (2 * (1 + t)).
Lemma mms_t x t : 0 <= t -> is_derive (fun s => mms x s) t (- exp (- x ^ 2 / 2) / (2 * (1 + t) ^ 2)).
Proof.
  intro Ht. unfold mms. apply (dd_ext (fun s => exp (- x ^ 2 / 2) / 2 * / (1 + s))).
  - intro s. unfold Rdiv. rewrite Rinv_mult. ring.
  - eapply dd_eq; [apply dd_scal; apply (dd_inv (fun s => 1 + s)); [apply dd_plus; [apply dd_const|apply dd_id]|lra]|]. cbv beta. field. lra.
Qed.
Lemma mms_x x t : 0 <= t -> is_derive (fun y => mms y t) x (- x * mms x t).
Proof.
  intro Ht. unfold mms. apply (dd_ext (fun y => / (2 * (1 + t)) * exp (- / 2 * y ^ 2))).
  - intro y. replace (- y ^ 2 / 2) with (- / 2 * y ^ 2) by field. unfold Rdiv. ring.
  - eapply dd_eq; [apply dd_scal; apply (dd_exp (fun y => - / 2 * y ^ 2)); apply dd_scal, (dd_sq (fun y => y)), dd_id|].
    cbv beta. replace (- x ^ 2 / 2) with (- / 2 * x ^ 2) by field. simpl. field. lra.
Qed.
Lemma mms_source_value c x t mu : 0 <= t -> Rabs x <= t + sx0 c ->
  MMS_source c x t mu / 2 = - exp (- x ^ 2 / 2) / (2 * (1 + t) ^ 2) + mu * (- x * mms x t).
Proof.
  intros Ht Hx. apply Rabs_le_iff in Hx. unfold MMS_source. rewrite !Rleb_true by lra. cbn [andb]. unfold mms.
  replace (- x ^ 2 / 2) with (- (x ^ 2 / 2)) by field. rewrite exp_Ropp. pose proof (exp_pos (x ^ 2 / 2)). field. lra.
Qed.
