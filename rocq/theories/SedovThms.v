(** The solution of the boundary-driven shock problem. *)
From Coquelicot Require Import Coquelicot.
From Verif Require Import Py PyLemmas Calc FuncModel ClosureModel ClosureThms SourceGauss SedovModel SourceThms.

Section S.
Variables (erf : R -> R).
Hypothesis Herf : erf_ok erf.

Lemma t1_der v0 x0 mu t0 s : 0 < mu -> 0 < v0 + mu ->
  is_derive (sed_t1 erf v0 x0 mu t0) s (exp (- (s + v0 * ((s - x0) / mu + t0) + 1) ^ 2 / 4)).
Proof.
  intros Hm Hv. unfold sed_t1. pose proof (sqrt_lt_R0 PI PI_RGT_0) as Hp.
  eapply dd_eq.
  - apply (is_derive_ext (fun s => sqrt PI * 2 * mu / (2 * (v0 + mu)) * erf (((v0 + mu) / (2 * mu)) * s + (- v0 * x0 + (1 + t0 * v0) * mu) / (2 * mu)))).
    + intros y. replace ((v0 * (y - x0) + (1 + y + t0 * v0) * mu) / (2 * mu)) with ((v0 + mu) / (2 * mu) * y + (- v0 * x0 + (1 + t0 * v0) * mu) / (2 * mu)) by (field; lra).
      match goal with |- ?a = ?b => change (@eq R a b) end. field. lra.
    + apply dd_scal. apply (dd_comp erf (fun s => (v0 + mu) / (2 * mu) * s + (- v0 * x0 + (1 + t0 * v0) * mu) / (2 * mu))).
      * apply (proj2 Herf).
      * apply dd_plus; [apply dd_scal; apply dd_id|apply dd_const].
  - cbv beta. replace (- ((v0 + mu) / (2 * mu) * s + (- v0 * x0 + (1 + t0 * v0) * mu) / (2 * mu)) ^ 2) with (- (s + v0 * ((s - x0) / mu + t0) + 1) ^ 2 / 4) by (field; lra).
    field. repeat split; lra.
Qed.

(** behind the shock the opacity is the Gaussian, ahead of it 1/5 *)
Definition sig_at (v y t : R) : R := exp (- (y + v * t + 1) ^ 2 / 4) * (if Rltb (y + v * t) 0 then 0 else 1) + 1 / 5 * (if Rltb (- (y + v * t)) 0 then 0 else 1).
Lemma sig_is c y t : shock_only (ofun c) -> sigma_function c y t = Ok (sig_at (o_v c) y t).
Proof.
  intros H. destruct (C89_shock_profile c y t H) as (A & B & C & _). unfold sig_at.
  destruct (Rtotal_order (y + o_v c * t) 0) as [L|[L|L]].
  - rewrite A by lra. rewrite Rltb_true, Rltb_false by lra. f_equal. ring.
  - rewrite C by lra. rewrite !Rltb_false by lra. rewrite L. replace (- (0 + 1) ^ 2 / 4) with (- 1 / 4) by field. f_equal. ring.
  - rewrite B by lra. rewrite Rltb_false, Rltb_true by lra. f_equal. ring.
Qed.
(** the optical path as a function of the end point, for a fixed time of emission *)
Definition pathF (v0 x0 mu t0 b2 x : R) : R := sed_t1 erf v0 x0 mu t0 (Rmax x b2) - sed_t1 erf v0 x0 mu t0 b2 + sed_t2 (Rmin x b2) - sed_t2 x0.
Lemma ray_sign v0 x0 mu t0 s : 0 < mu -> 0 < v0 + mu -> s + v0 * ((s - x0) / mu + t0) = (v0 + mu) / mu * (s - meets v0 x0 mu t0).
Proof. intros. unfold meets. field. lra. Qed.
Lemma path_int v0 x0 mu t0 x : 0 < mu -> 0 < v0 + mu -> x0 <= meets v0 x0 mu t0 -> x0 <= x ->
  is_RInt (fun s => sig_at v0 s ((s - x0) / mu + t0)) x0 x (pathF v0 x0 mu t0 (meets v0 x0 mu t0) x).
Proof.
  intros Hm Hv Hb Hx. set (b2 := meets v0 x0 mu t0) in *.
  assert (K : 0 < (v0 + mu) / mu) by (apply Rdiv_lt_0_compat; lra).
  assert (A : forall y, x0 <= y -> y <= b2 -> is_RInt (fun s => sig_at v0 s ((s - x0) / mu + t0)) x0 y (sed_t2 y - sed_t2 x0)).
  { intros y Hy Hyb. apply (is_RInt_ext (fun _ => 1 / 5)).
    - rewrite Rmin_left, Rmax_right by lra. intros s Hs. unfold sig_at. rewrite ray_sign by auto. fold b2.
      pose proof (Rmult_lt_0_compat _ (b2 - s) K ltac:(lra)) as Q. rewrite Rltb_true, Rltb_false by lra. match goal with |- ?a = ?b => change (@eq R a b) end. ring.
    - apply (int_eq _ _ _ _ _ (int_const (1 / 5) x0 y)). unfold sed_t2. field. }
  destruct (Rle_lt_dec x b2) as [Q|Q].
  - apply (int_eq _ _ _ _ _ (A x Hx Q)). unfold pathF. rewrite Rmax_right, Rmin_left by lra. ring.
  - apply (int_eq _ _ _ ((sed_t2 b2 - sed_t2 x0) + (sed_t1 erf v0 x0 mu t0 x - sed_t1 erf v0 x0 mu t0 b2))).
    + apply (is_RInt_Chasles (fun s => sig_at v0 s ((s - x0) / mu + t0)) x0 b2 x); [apply A; lra|].
      apply (is_RInt_ext (fun s => exp (- (s + v0 * ((s - x0) / mu + t0) + 1) ^ 2 / 4))).
      * rewrite Rmin_left, Rmax_right by lra. intros s Hs. unfold sig_at. rewrite ray_sign by auto. fold b2.
        pose proof (Rmult_lt_0_compat _ (s - b2) K ltac:(lra)) as P. rewrite Rltb_false, Rltb_true by lra. match goal with |- ?a = ?b => change (@eq R a b) end. ring.
      * apply int_ftc; [intros; now apply t1_der|]. intros z. apply cexp. apply (continuous_ext (fun s => - (1 / 4) * ((s + v0 * ((s - x0) / mu + t0) + 1) * (s + v0 * ((s - x0) / mu + t0) + 1)))).
        { intros y. match goal with |- ?a = ?b => change (@eq R a b) end. field. lra. }
        apply cmult; [apply cconst|]. 
        assert (C : continuous (fun s => s + v0 * ((s - x0) / mu + t0) + 1) z).
        { apply cplus; [|apply cconst]. apply cplus; [apply cid|]. apply cmult; [apply cconst|]. apply cplus; [|apply cconst]. apply cmult; [|apply cconst]. apply cminus; [apply cid|apply cconst]. }
        now apply cmult.
    + unfold pathF. rewrite Rmax_left, Rmin_right by lra. ring.
Qed.
Lemma emission_eq x0 mu t x s : mu <> 0 -> (s - x0) / mu + emission x0 mu t x = t - (x - s) / mu.
Proof. intros. unfold emission. field. auto. Qed.
Lemma window v0 X0 ts mu t x : 0 < mu -> 0 < v0 + mu -> 0 <= t -> - X0 <= x ->
  fake_sedov_integrand erf v0 X0 ts mu t x = Ok (exp (- mfp erf v0 (- X0) mu t x / mu) *
    (if Rltb (emission (- X0) mu t x) (- / 10 ^ 10) then 0 else 1) * (if Rltb ts (emission (- X0) mu t x) then 0 else 1)).
Proof.
  intros Hm Hv Ht Hx. assert (E : 0 < / 10 ^ 10) by (apply Rinv_0_lt_compat; apply pow_lt; lra). set (e := / 10 ^ 10) in *.
  unfold fake_sedov_integrand. fold e. rewrite !Reqb_false by lra. f_equal. unfold heaviside_scalar.
  rewrite (Rabs_pos_eq ((x - - X0) / (t + e))) by (apply Rmult_le_pos; [lra|left; apply Rinv_0_lt_compat; lra]).
  rewrite (Rabs_left1 (- X0 - x)) by lra.
  assert (A : mu - (x - - X0) / (t + e) = mu / (t + e) * (emission (- X0) mu t x + e)) by (unfold emission; field; lra).
  assert (B : - (- X0 - x) - mu * (t - ts) = mu * (ts - emission (- X0) mu t x)) by (unfold emission; field; lra).
  rewrite A, B. assert (P : 0 < mu / (t + e)) by (apply Rdiv_lt_0_compat; lra).
  set (q := emission (- X0) mu t x). f_equal; [f_equal|].
  - destruct (Rlt_le_dec q (- e)) as [L|L].
    + rewrite !Rltb_true; auto. pose proof (Rmult_lt_0_compat _ (- (q + e)) P ltac:(lra)). lra.
    + rewrite !Rltb_false; auto. apply Rmult_le_pos; lra.
  - destruct (Rlt_le_dec ts q) as [L|L].
    + rewrite !Rltb_true; auto. pose proof (Rmult_lt_0_compat _ (q - ts) Hm ltac:(lra)). lra.
    + rewrite !Rltb_false; auto. apply Rmult_le_pos; lra.
Qed.
Lemma meets_le v0 x0 mu t0 : 0 < mu -> 0 < v0 + mu -> v0 * t0 <= - x0 -> x0 <= meets v0 x0 mu t0.
Proof.
  intros Hm Hv H. apply Rminus_le. replace (x0 - meets v0 x0 mu t0) with (mu / (v0 + mu) * (x0 + v0 * t0)) by (unfold meets; field; lra).
  assert (P : 0 < mu / (v0 + mu)) by (apply Rdiv_lt_0_compat; lra). pose proof (Rmult_le_pos _ (- (x0 + v0 * t0)) (Rlt_le _ _ P) ltac:(lra)). lra.
Qed.
End S.

(** A particle found at x at time t with direction mu left the wall -X0 at time te. If the wall emitted at that time,
    and the shock had not yet reached the wall, the value is the exact attenuation along its way through the opacity of
    opacity.py; particles from outside the emission period contribute nothing. *)
Theorem C137_attenuation : forall erf oc v0 X0 ts mu t x, erf_ok erf -> shock_only (ofun oc) -> o_v oc = v0 ->
  0 < mu -> 0 < v0 + mu -> 0 <= t -> - X0 <= x -> let te := t - (x + X0) / mu in v0 * te <= X0 ->
  exists sig m, (forall s, sigma_function oc s (t - (x - s) / mu) = Ok (sig s)) /\ is_RInt sig (- X0) x m /\
   (- / 10 ^ 10 <= te <= ts -> fake_sedov_integrand erf v0 X0 ts mu t x = Ok (exp (- m / mu))) /\
   (te < - / 10 ^ 10 \/ ts < te -> fake_sedov_integrand erf v0 X0 ts mu t x = Ok 0).
Proof.
  intros erf oc v0 X0 ts mu t x He Hs Ho Hm Hv Ht Hx te Hte.
  assert (T : emission (- X0) mu t x = te) by (unfold emission, te; field; lra).
  exists (fun s => sig_at v0 s ((s - - X0) / mu + te)), (mfp erf v0 (- X0) mu t x). split; [|split].
  - intros s. rewrite sig_is, Ho by auto. rewrite <- T, emission_eq by lra. reflexivity.
  - unfold mfp. rewrite T. apply path_int; auto. apply meets_le; auto; lra.
  - rewrite window by auto. rewrite T. split.
    + intros [A B]. rewrite !Rltb_false by lra. f_equal. ring.
    + intros [A|A]; rewrite (Rltb_true _ _ A); f_equal; ring.
Qed.
Print Assumptions C137_attenuation.
Lemma pathF_der erf v0 x0 mu t0 x : erf_ok erf -> 0 < mu -> 0 < v0 + mu -> x <> meets v0 x0 mu t0 ->
  is_derive (pathF erf v0 x0 mu t0 (meets v0 x0 mu t0)) x (sig_at v0 x ((x - x0) / mu + t0)).
Proof.
  intros He Hm Hv Hne. set (b2 := meets v0 x0 mu t0) in *. assert (K : 0 < (v0 + mu) / mu) by (apply Rdiv_lt_0_compat; lra).
  unfold sig_at. rewrite ray_sign by auto. fold b2.
  destruct (Rlt_le_dec x b2) as [L|L].
  - pose proof (Rmult_lt_0_compat _ (b2 - x) K ltac:(lra)) as Q. rewrite Rltb_true, Rltb_false by lra.
    apply (is_derive_ext_loc (fun y => 1 / 5 * y + - sed_t2 x0)).
    + exists (mkposreal (b2 - x) ltac:(lra)). intros y Hy. change (Rabs (y - x) < b2 - x) in Hy. apply Rabs_def2 in Hy.
      unfold pathF. rewrite Rmax_right, Rmin_left by lra. unfold sed_t2. match goal with |- ?a = ?b => change (@eq R a b) end. field.
    + eapply dd_eq; [apply dd_plus; [apply dd_scal; apply dd_id|apply dd_const]|]. ring.
  - assert (L' : b2 < x) by lra. pose proof (Rmult_lt_0_compat _ (x - b2) K ltac:(lra)) as Q. rewrite Rltb_false, Rltb_true by lra.
    apply (is_derive_ext_loc (fun y => sed_t1 erf v0 x0 mu t0 y + (- sed_t1 erf v0 x0 mu t0 b2 + sed_t2 b2 - sed_t2 x0))).
    + exists (mkposreal (x - b2) ltac:(lra)). intros y Hy. change (Rabs (y - x) < x - b2) in Hy. apply Rabs_def2 in Hy.
      unfold pathF. rewrite Rmax_left, Rmin_right by lra. match goal with |- ?a = ?b => change (@eq R a b) end. ring.
    + eapply dd_eq; [apply dd_plus; [now apply t1_der|apply dd_const]|]. rewrite ray_sign by auto. fold b2. ring.
Qed.
(** Hence it solves the transport equation without scattering: along the way of the particle it is removed at the rate
    of the opacity (away from the shock itself, where the opacity jumps). *)
Theorem C137_transport_equation : forall erf oc v0 X0 ts mu t x sg, erf_ok erf -> shock_only (ofun oc) -> o_v oc = v0 ->
  0 < mu -> 0 < v0 + mu -> 0 < t -> - X0 < x -> x + v0 * t <> 0 -> sigma_function oc x t = Ok sg ->
  exists psi : R -> R, locally 0 (fun tau => fake_sedov_integrand erf v0 X0 ts mu (t + tau) (x + mu * tau) = Ok (psi tau)) /\
    is_derive psi 0 (- sg * psi 0).
Proof.
  intros erf oc v0 X0 ts mu t x sg He Hs Ho Hm Hv Ht Hx Hne Hsg.
  set (te := emission (- X0) mu t x).
  assert (TE : forall tau, emission (- X0) mu (t + tau) (x + mu * tau) = te) by (intros; unfold te, emission; field; lra).
  set (ind := (if Rltb te (- / 10 ^ 10) then 0 else 1) * (if Rltb ts te then 0 else 1)).
  set (F := pathF erf v0 (- X0) mu te (meets v0 (- X0) mu te)).
  exists (fun tau => ind * exp (- / mu * F (x + mu * tau))). split.
  - assert (Hx' : 0 < x + X0) by lra. exists (mkposreal (Rmin t ((x + X0) / mu)) (Rmin_pos _ _ Ht (Rdiv_lt_0_compat _ _ Hx' Hm))). intros tau H. change (Rabs (tau - 0) < Rmin t ((x + X0) / mu)) in H. rewrite Rminus_0_r in H. apply Rabs_def2 in H.
    pose proof (Rmin_l t ((x + X0) / mu)). pose proof (Rmin_r t ((x + X0) / mu)).
    assert (B : - (x + X0) <= mu * tau).
    { replace (- (x + X0)) with (mu * - ((x + X0) / mu)) by (field; lra). apply Rmult_le_compat_l; lra. }
    rewrite window by (auto; lra). rewrite TE. unfold mfp. rewrite TE. fold te. unfold ind. f_equal.
    change (sed_t1 erf v0 (- X0) mu te (Rmax (x + mu * tau) (meets v0 (- X0) mu te)) - sed_t1 erf v0 (- X0) mu te (meets v0 (- X0) mu te) + sed_t2 (Rmin (x + mu * tau) (meets v0 (- X0) mu te)) - sed_t2 (- X0)) with (F (x + mu * tau)).
    replace (- F (x + mu * tau) / mu) with (- / mu * F (x + mu * tau)) by (field; lra). ring.
  - assert (X : x + mu * 0 = x) by ring.
    assert (DF : is_derive F (x + mu * 0) sg).
    { rewrite X. rewrite sig_is in Hsg by auto. injection Hsg as <-. rewrite Ho. unfold F.
      eapply dd_eq; [apply pathF_der; auto|].
      - intros Q. apply Hne. pose proof (ray_sign v0 (- X0) mu te x Hm Hv) as Rs. rewrite <- Q in Rs.
        replace ((x - - X0) / mu + te) with t in Rs by (unfold te, emission; field; lra). rewrite Rs. ring.
      - f_equal. unfold te, emission. field. lra. }
    eapply dd_eq.
    + apply dd_scal. apply dd_exp. apply dd_scal. apply (dd_comp F (fun tau => x + mu * tau)); [exact DF|].
      apply dd_plus; [apply dd_const|apply dd_scal; apply dd_id].
    + cbv beta. field. lra.
Qed.
Print Assumptions C137_transport_equation.
(** Each value lies between 0 and 1. *)
Theorem C137_between_0_and_1 : forall erf v0 X0 ts mu t x, erf_ok erf ->
  0 < mu -> 0 < v0 + mu -> 0 <= t -> - X0 <= x -> v0 * (t - (x + X0) / mu) <= X0 ->
  exists psi, fake_sedov_integrand erf v0 X0 ts mu t x = Ok psi /\ 0 <= psi <= 1.
Proof.
  intros erf v0 X0 ts mu t x He Hm Hv Ht Hx Hte.
  assert (T : emission (- X0) mu t x = t - (x + X0) / mu) by (unfold emission; field; lra).
  rewrite window by auto. eexists. split; [reflexivity|].
  assert (P : 0 <= mfp erf v0 (- X0) mu t x).
  { unfold mfp. rewrite T. set (te := t - (x + X0) / mu) in *.
    pose proof (path_int erf He v0 (- X0) mu te x Hm Hv (meets_le v0 (- X0) mu te Hm Hv ltac:(lra)) Hx) as I.
    unfold pathF in I. apply (is_RInt_ge_0 _ _ _ _ Hx I). intros s Hs. unfold sig_at.
    pose proof (exp_pos (- (s + v0 * ((s - - X0) / mu + te) + 1) ^ 2 / 4)). destruct (Rltb _ _), (Rltb _ _); lra. }
  assert (E : 0 < exp (- mfp erf v0 (- X0) mu t x / mu) <= 1).
  { split; [apply exp_pos|]. rewrite <- exp_0. destruct (Rle_lt_or_eq_dec 0 _ P) as [Q|<-].
    - left. apply exp_increasing. pose proof (Rdiv_lt_0_compat _ _ Q Hm). unfold Rdiv in *. lra.
    - right. f_equal. field. lra. }
  destruct (Rltb _ _), (Rltb _ _); lra.
Qed.
Print Assumptions C137_between_0_and_1.
(** Particles emitted after the shock has reached the wall start behind it; for them the formula is wrong: soon after,
    it gives too little. *)
Theorem C137_after_the_shock : forall erf oc v0 X0 ts mu t x, erf_ok erf -> shock_only (ofun oc) -> o_v oc = v0 ->
  0 < mu -> 0 < v0 + mu -> 0 <= t -> - X0 <= x -> let te := t - (x + X0) / mu in X0 < v0 * te <= X0 + 1 -> 0 <= te <= ts ->
  exists sig m psi, (forall s, - X0 < s < x -> sigma_function oc s (t - (x - s) / mu) = Ok (sig s)) /\ is_RInt sig (- X0) x m /\
   fake_sedov_integrand erf v0 X0 ts mu t x = Ok psi /\ psi < exp (- m / mu).
Proof.
  intros erf oc v0 X0 ts mu t x He Hs Ho Hm Hv Ht Hx te Hte Hw.
  assert (T : emission (- X0) mu t x = te) by (unfold emission, te; field; lra).
  assert (K : 0 < (v0 + mu) / mu) by (apply Rdiv_lt_0_compat; lra).
  assert (B : meets v0 (- X0) mu te < - X0).
  { apply Rminus_lt. replace (meets v0 (- X0) mu te - - X0) with (- (mu / (v0 + mu) * (v0 * te - X0))) by (unfold meets; field; lra).
    assert (0 < mu / (v0 + mu) * (v0 * te - X0)) by (apply Rmult_lt_0_compat; [apply Rdiv_lt_0_compat|]; lra). lra. }
  set (b2 := meets v0 (- X0) mu te) in *. set (g := fun s => exp (- (s + v0 * ((s - - X0) / mu + te) + 1) ^ 2 / 4)).
  exists g, (sed_t1 erf v0 (- X0) mu te x - sed_t1 erf v0 (- X0) mu te (- X0)). eexists. split; [|split; [|split; [rewrite window by auto; reflexivity|]]].
  - intros s Hss. rewrite sig_is, Ho by auto. unfold g. f_equal. replace (t - (x - s) / mu) with ((s - - X0) / mu + te) by (unfold te; field; lra).
    unfold sig_at. rewrite ray_sign by auto. fold b2. pose proof (Rmult_lt_0_compat _ (s - b2) K ltac:(lra)) as P. rewrite Rltb_false, Rltb_true by lra. ring.
  - apply (int_ftc (sed_t1 erf v0 (- X0) mu te) g); [intros; now apply t1_der|]. intros z. unfold g. apply cexp.
    apply (continuous_ext (fun s => - (1 / 4) * ((s + v0 * ((s - - X0) / mu + te) + 1) * (s + v0 * ((s - - X0) / mu + te) + 1)))).
    { intros y. match goal with |- ?a = ?b => change (@eq R a b) end. field. lra. }
    assert (C : continuous (fun s => s + v0 * ((s - - X0) / mu + te) + 1) z).
    { apply cplus; [|apply cconst]. apply cplus; [apply cid|]. apply cmult; [apply cconst|]. apply cplus; [|apply cconst]. apply cmult; [|apply cconst]. apply cminus; [apply cid|apply cconst]. }
    apply cmult; [apply cconst|]. now apply cmult.
  - rewrite T. assert (E : 0 < / 10 ^ 10) by (apply Rinv_0_lt_compat; apply pow_lt; lra).
    rewrite !Rltb_false by lra. rewrite !Rmult_1_r. apply exp_increasing.
    unfold mfp. rewrite T. fold b2. rewrite Rmax_left, Rmin_right by lra.
    set (A := sed_t1 erf v0 (- X0) mu te).
    assert (G : 2 / 10 * (- X0 - b2) < A (- X0) - A b2).
    { destruct (MVT_gen A b2 (- X0) (fun s => g s)) as (c & Hc & Ec).
      - intros s _. unfold A, g. now apply t1_der.
      - intros s _. apply continuity_pt_filterlim. apply (ex_derive_continuous A s). eexists. unfold A. now apply t1_der.
      - rewrite Rmin_left, Rmax_right in Hc by lra. rewrite Ec. apply Rmult_lt_compat_r; [lra|]. unfold g.
        apply Rlt_le_trans with (exp (Ropp 1)).
        + rewrite exp_Ropp. apply Rmult_lt_reg_r with (exp 1); [apply exp_pos|]. rewrite Rinv_l by (apply Rgt_not_eq; apply exp_pos).
          pose proof exp_le_3. lra.
        + assert (Q : 0 <= c + v0 * ((c - - X0) / mu + te) <= 1).
          { pose proof (ray_sign v0 (- X0) mu te c Hm Hv) as R1. fold b2 in R1. split; [rewrite R1; apply Rmult_le_pos; lra|].
            assert (c + v0 * ((c - - X0) / mu + te) <= - X0 + v0 * ((- X0 - - X0) / mu + te)).
            { rewrite R1. rewrite (ray_sign v0 (- X0) mu te (- X0) Hm Hv). fold b2. apply Rmult_le_compat_l; lra. }
            replace ((- X0 - - X0) / mu) with 0 in * by (field; lra). lra. }
          set (q := c + v0 * ((c - - X0) / mu + te)) in *. assert (H : Ropp 1 <= - (q + 1) ^ 2 / 4) by nra.
          destruct (Rle_lt_or_eq_dec _ _ H) as [H'|H']; [left; now apply exp_increasing|right; now rewrite <- H']. }
    apply Rmult_lt_compat_r; [now apply Rinv_0_lt_compat|]. unfold sed_t2. fold A. lra.
Qed.
Print Assumptions C137_after_the_shock.
Definition oc1 : ocfg := {| o_t := 1; o_s := 0; oM := 0; oMs := 0; oN := 2; oquad := nil; ofun := noncon; o_v := 1 |}.
Theorem C137_after_the_shock_refuted : exists oc v0 X0 ts mu t x sig m psi, shock_only (ofun oc) /\ o_v oc = v0 /\ 0 < mu /\ 0 < v0 + mu /\ 0 < t /\ - X0 < x /\
  0 < t - (x + X0) / mu < ts /\ (forall s, - X0 < s < x -> sigma_function oc s (t - (x - s) / mu) = Ok (sig s)) /\ is_RInt sig (- X0) x m /\
  fake_sedov_integrand erf_int v0 X0 ts mu t x = Ok psi /\ psi <> exp (- m / mu).
Proof.
  destruct (C137_after_the_shock erf_int oc1 1 1 2 1 (5 / 2) 0 erf_contract_holds ltac:(repeat split) eq_refl ltac:(lra) ltac:(lra) ltac:(lra) ltac:(lra) ltac:(lra) ltac:(lra)) as (sig & m & psi & A & B & C & D).
  exists oc1, 1, 1, 2, 1, (5 / 2), 0, sig, m, psi. split; [repeat split|]. split; [reflexivity|]. repeat (split; [lra|]). split; auto. split; auto. split; auto. lra.
Qed.
Print Assumptions C137_after_the_shock_refuted.
(** The scalar flux is twice the weighted sum. It exists exactly when no direction is 0 or opposite to the shock speed:
    an odd number of symmetric directions contains 0. *)
Lemma integrand_defined erf v0 X0 ts mu t x : 0 <= t -> (exists y, fake_sedov_integrand erf v0 X0 ts mu t x = Ok y) <-> mu <> 0 /\ v0 + mu <> 0.
Proof.
  intros Ht. assert (E : 0 < / 10 ^ 10) by (apply Rinv_0_lt_compat; apply pow_lt; lra). unfold fake_sedov_integrand. rewrite (Reqb_false (t + _)) by lra.
  destruct (Reqb_spec mu 0); [split; [intros [y [=]]|intros [[] _]; auto]|].
  destruct (Reqb_spec (v0 + mu) 0); [split; [intros [y [=]]|intros [_ []]; auto]|]. split; eauto.
Qed.
Theorem C137_defined_iff : forall erf v0 X0 ts dirs x t, 0 <= t ->
  (exists phi, fake_sedov erf v0 X0 ts dirs x t = Ok phi) <-> (forall mu w, In (mu, w) dirs -> mu <> 0 /\ mu <> - v0).
Proof.
  intros erf v0 X0 ts dirs x t Ht. unfold fake_sedov, integrate_quad_sedov_source.
  induction dirs as [|[mu w] dirs IH]; cbn [map_result bind fst snd]; [split; [intros _ ? ? []|intros _; eexists; reflexivity]|].
  destruct (fake_sedov_integrand erf v0 X0 ts mu t x) as [y|e] eqn:E.
  - cbn [bind]. assert (D : mu <> 0 /\ v0 + mu <> 0) by (apply (integrand_defined erf v0 X0 ts mu t x Ht); eauto).
    split.
    + intros [phi H]. destruct (map_result _ dirs) as [ys|] eqn:F; cbn [bind] in *; [|discriminate].
      intros m u [[= <- <-]|I]; [split; lra|]. apply (proj1 IH) in I; [auto|eexists; reflexivity].
    + intros H. destruct (proj2 IH) as [phi P]. { intros m u I. apply (H m u). now right. }
      destruct (map_result _ dirs) as [ys|] eqn:F; cbn [bind] in *; [eexists; reflexivity|discriminate].
  - split; [intros [phi H]; cbn [bind] in H; discriminate|]. intros H. exfalso.
    destruct (proj2 (integrand_defined erf v0 X0 ts mu t x Ht)) as [y Y]; [|congruence]. destruct (H mu w (or_introl eq_refl)). split; [auto|lra].
Qed.
Print Assumptions C137_defined_iff.
(** It lies between 0 and twice the weight of the directions into the slab. *)
Theorem C137_scalar_flux : forall erf v0 X0 ts dirs x t, erf_ok erf -> 0 <= v0 -> 0 <= t -> - X0 <= x ->
  (forall mu w, In (mu, w) dirs -> mu <> 0 /\ mu <> - v0 /\ 0 <= w /\ (0 < mu -> v0 * (t - (x + X0) / mu) <= X0)) ->
  exists phi, fake_sedov erf v0 X0 ts dirs x t = Ok phi /\
   0 <= phi <= 2 * rsum (map (fun p => if Rltb 0 (fst p) then snd p else 0) dirs).
Proof.
  intros erf v0 X0 ts dirs x t He Hv Ht Hx H. unfold fake_sedov, integrate_quad_sedov_source.
  induction dirs as [|[mu w] dirs IH]; cbn [map_result bind fst snd map rsum fold_right]; [eexists; split; [reflexivity|lra]|].
  destruct IH as (phi & P & Q). { intros m u I. apply (H m u). now right. }
  destruct (H mu w (or_introl eq_refl)) as (N0 & N1 & W & C).
  assert (X : exists y, fake_sedov_integrand erf v0 X0 ts mu t x = Ok y /\ 0 <= y <= (if Rltb 0 mu then 1 else 0)).
  { destruct (Rlt_le_dec 0 mu) as [L|L].
    - rewrite (Rltb_true 0 mu L). apply C137_between_0_and_1; auto. lra.
    - rewrite (Rltb_false 0 mu L). assert (E : 0 < / 10 ^ 10) by (apply Rinv_0_lt_compat; apply pow_lt; lra).
      unfold fake_sedov_integrand. rewrite !Reqb_false by lra. eexists. split; [reflexivity|].
      unfold heaviside_scalar at 1 3. pose proof (Rabs_pos ((x - - X0) / (t + / 10 ^ 10))). rewrite Rltb_true by lra. rewrite Rmult_0_r, Rmult_0_l. lra. }
  destruct X as (y & Y & B). rewrite Y. cbn [bind]. destruct (map_result _ dirs) as [ys|] eqn:F; cbn [bind] in *; [|discriminate]. injection P as <-.
  eexists. split; [reflexivity|]. cbn [rsum fold_right]. fold (rsum ys). fold (rsum (map (fun p : R * R => if Rltb 0 (fst p) then snd p else 0) dirs)).
  assert (0 <= w * y <= (if Rltb 0 mu then w else 0)).
  { split; [apply Rmult_le_pos; lra|]. destruct (Rltb 0 mu); [|nra]. rewrite <- (Rmult_1_r w) at 2. apply Rmult_le_compat_l; lra. }
  lra.
Qed.
Print Assumptions C137_scalar_flux.
(** The benchmark of run_functions.py sums the same values without the factor 2: it is half the solution it is compared with. *)
Theorem C137_benchmark_is_half : forall erf v0 ts dirs x t, 0 <= v0 -> 0 < t -> -5 <= x ->
  (forall mu w, In (mu, w) dirs -> mu <> 0 /\ mu <> - v0 /\ (0 < mu -> let te := t - (x + 5) / mu in
     (te < - / 10 ^ 10 \/ 0 < te) /\ te <> ts /\ mfp erf v0 (-5) mu t x / mu <= 40)) ->
  exists b, bench_phi erf v0 ts t dirs x = Ok b /\ fake_sedov erf v0 5 ts dirs x t = Ok (2 * b).
Proof.
  intros erf v0 ts dirs x t Hv Ht Hx H. unfold bench_phi, fake_sedov, integrate_quad_sedov_source.
  induction dirs as [|[mu w] dirs IH]; cbn [map_result bind fst snd]; [eexists; split; reflexivity|].
  destruct IH as (b & P & Q). { intros m u I. apply (H m u). now right. }
  destruct (H mu w (or_introl eq_refl)) as (N0 & N1 & C). clear H.
  assert (E : 0 < / 10 ^ 10) by (apply Rinv_0_lt_compat; apply pow_lt; lra).
  assert (X : exists y, bench_sedov erf v0 ts mu t x = Ok y /\ fake_sedov_integrand erf v0 5 ts mu t x = Ok y).
  { replace (-5) with (Ropp 5) in * by lra. destruct (Rlt_le_dec 0 mu) as [L|L].
    - destruct (C L) as (A & B & D). assert (T : emission (- (5)) mu t x = t - (x + 5) / mu) by (unfold emission; field; lra).
      rewrite window by lra. rewrite T. set (te := t - (x + 5) / mu) in *. eexists. split; [|reflexivity].
      unfold bench_sedov. replace (-5) with (Ropp 5) by lra. rewrite !Reqb_false by lra. rewrite (Rltb_false 40) by auto. rewrite (Rltb_true 0 mu L). f_equal. unfold np_heaviside0.
      rewrite (Rabs_pos_eq (x - - (5))) by lra. rewrite (Rabs_left1 (- (5) - x)) by lra.
      replace (mu - (x - - (5)) / t) with (mu / t * te) by (unfold te; field; lra).
      replace (- (- (5) - x) - (t - ts) * mu) with (mu * (ts - te)) by (unfold te; field; lra).
      assert (M : 0 < mu / t) by (apply Rdiv_lt_0_compat; lra).
      f_equal; [f_equal|].
      + destruct A as [A|A].
        * rewrite (Rltb_true te) by auto. rewrite Rltb_false; auto. pose proof (Rmult_le_pos _ (- te) (Rlt_le _ _ M) ltac:(lra)). lra.
        * rewrite (Rltb_false te) by lra. rewrite Rltb_true; auto. now apply Rmult_lt_0_compat.
      + destruct (Rlt_le_dec ts te) as [Z|Z].
        * rewrite (Rltb_true ts) by auto. rewrite Rltb_false; auto. pose proof (Rmult_le_pos _ (te - ts) (Rlt_le _ _ L) ltac:(lra)). lra.
        * rewrite (Rltb_false ts) by lra. rewrite Rltb_true; auto. apply Rmult_lt_0_compat; lra.
    - exists 0. unfold bench_sedov, fake_sedov_integrand. rewrite !Reqb_false by lra. rewrite (Rltb_false 0 mu L). split; [now destruct (Rltb _ _)|].
      unfold heaviside_scalar at 1. pose proof (Rabs_pos ((x - - (5)) / (t + / 10 ^ 10))). rewrite Rltb_true by lra. f_equal. ring. }
  destruct X as (y & Y1 & Y2). rewrite Y1, Y2. cbn [bind].
  destruct (map_result _ dirs) as [ys|] eqn:F; cbn [bind] in *; [|discriminate]. injection P as <-.
  destruct (map_result (fun p => f <- fake_sedov_integrand erf v0 5 ts (fst p) t x ;; Ok (snd p * f)) dirs) as [zs|] eqn:G; cbn [bind] in *; [|discriminate].
  eexists. split; [reflexivity|]. cbn [rsum fold_right]. fold (rsum ys). fold (rsum zs). f_equal. injection Q as Q. lra.
Qed.
Print Assumptions C137_benchmark_is_half.
Definition oc0 : ocfg := {| o_t := 1; o_s := 0; oM := 0; oMs := 0; oN := 2; oquad := nil; ofun := noncon; o_v := 0 |}.
(** the shock at rest at 0, one direction, a point ahead of it: attenuation exp(-1/5 * 1); the four-point symmetric rule works, the three-point rule with direction 0 does not *)
Example C137_example : fake_sedov_integrand erf_int 0 2 10 1 3 (-1) = Ok (exp (- (1 / 5))) /\
  (exists phi, fake_sedov erf_int 0 2 10 [(-1, 1 / 2); (1, 1 / 2)] (-1) 3 = Ok phi) /\
  ~ (exists phi, fake_sedov erf_int 0 2 10 [(-1, 1 / 6); (0, 2 / 3); (1, 1 / 6)] (-1) 3 = Ok phi).
Proof.
  split; [|split].
  - destruct (C137_attenuation erf_int oc0 0 2 10 1 3 (-1) erf_contract_holds) as (sig & m & A & B & C & _); try lra; [repeat split|cbn; reflexivity|].
    rewrite C by (assert (0 < / 10 ^ 10) by (apply Rinv_0_lt_compat; apply pow_lt; lra); lra). f_equal. f_equal.
    replace m with (1 / 5); [field|]. symmetry. apply (int_uniq2 sig (- (2)) (-1)); auto.
    apply (is_RInt_ext (fun _ => 1 / 5)).
    + rewrite Rmin_left, Rmax_right by lra. intros s Hs. destruct (C89_shock_profile oc0 s (3 - (-1 - s) / 1)) as (K & _); [repeat split|].
      specialize (A s). rewrite K in A by (cbn; lra). congruence.
    + apply (int_eq _ _ _ _ _ (int_const (1 / 5) _ _)). lra.
  - apply C137_defined_iff; [lra|]. intros mu w [[= <- <-]|[[= <- <-]|[]]]; split; lra.
  - intros P. rewrite C137_defined_iff in P by lra. destruct (P 0 (2 / 3)); [right; left; reflexivity|lra].
Qed.
