(** Solutions drawn beside the results: the steady boundary-driven slab (C142), the moving Gaussian (C143) and the
    tables (C144). *)
From Coquelicot Require Import Coquelicot.
From Coq Require Import Permutation.
From Interval Require Import Tactic.
From Verif Require Import Py PyLemmas Calc FuncModel ClosureModel SourceGauss SourceThms SedovModel SteadyModel.

(** psi is the flux in direction mu which enters at the wall with value one and crosses the steady opacity sig *)
Definition enters (sig : R -> R) (wall mu : R) (psi : R -> R) (x : R) : Prop :=
  psi wall = 1 /\ forall y, wall <= y <= x -> is_derive psi y (- (sig y * psi y) / mu).
Lemma enters_exp sig F wall mu psi x : mu <> 0 -> wall <= x -> (forall y, is_derive F y (sig y)) -> enters sig wall mu psi x -> psi x = exp (- (F x - F wall) / mu).
Proof.
  intros Hm Hx HF [H1 H].
  assert (D : forall y, wall <= y <= x -> is_derive (fun y => psi y * exp (F y / mu)) y 0).
  { intros y Hy. eapply dd_eq; [apply (dd_mult psi (fun y => exp (F y / mu))); [now apply H|apply dd_exp, dd_divc, HF]|]. cbv beta. match goal with |- ?a = ?b => change (@eq R a b) end. field. auto. }
  assert (C : psi wall * exp (F wall / mu) = psi x * exp (F x / mu)).
  { destruct (Req_dec wall x) as [<-|N]; auto. apply (eq_is_derive (fun y => psi y * exp (F y / mu)) wall x); [exact D|lra]. }
  rewrite H1 in C. replace (- (F x - F wall) / mu) with (F wall / mu - F x / mu) by (field; auto). unfold Rminus. rewrite exp_plus, exp_Ropp.
  pose proof (exp_pos (F x / mu)). apply Rmult_eq_reg_r with (exp (F x / mu)); [|lra]. rewrite Rmult_assoc, Rinv_l, Rmult_1_r by lra. lra.
Qed.
Definition gauss (s y : R) : R := exp (- y ^ 2 / (2 * s ^ 2)).
Definition Fg (erf : R -> R) (s y : R) : R := sqrt (PI / 2) * s * erf (y / sqrt 2 / s).
Lemma Fg_der erf s y : erf_ok erf -> 0 < s -> is_derive (Fg erf s) y (gauss s y).
Proof.
  intros [_ H] Hs. unfold Fg. pose proof PI_RGT_0. pose proof (sqrt_lt_R0 2 ltac:(lra)) as H2. pose proof (sqrt_lt_R0 PI ltac:(lra)) as HP.
  eapply dd_eq; [apply dd_scal; apply (dd_comp erf (fun y => y / sqrt 2 / s) y); [apply H|apply dd_divc, dd_divc, dd_id]|].
  rewrite sqrt_div_alt by lra. assert (Q : (y / sqrt 2 / s) ^ 2 = y ^ 2 / (2 * s ^ 2)).
  { rewrite <- (pow2_sqrt 2) at 2 by lra. field. split; lra. }
  unfold gauss. rewrite Q. replace (- y ^ 2 / (2 * s ^ 2)) with (- (y ^ 2 / (2 * s ^ 2))) by (field; lra).
  set (e := exp _). assert (S2 : sqrt 2 * sqrt 2 = 2) by (apply sqrt_sqrt; lra). clearbody e.
  transitivity (e * (2 / (sqrt 2 * sqrt 2))); [field; repeat split; lra|]. rewrite S2. field.
Qed.
Lemma gauss_path_F erf x1 x2 s : gauss_path erf x1 x2 s = Fg erf s x2 - Fg erf s x1.
Proof. unfold gauss_path, Fg. ring. Qed.

(** For the constant opacity the curve is the flux of direction one which enters at -x0 with value one. *)
Theorem C142_constant : forall oc x0 x psi sig, f_constant (ofun oc) = true -> (forall y t, sigma_function oc y t = Ok (sig y)) -> - x0 <= x ->
  enters sig (- x0) 1 psi x -> steady_constant x0 x = psi x.
Proof.
  intros oc x0 x psi sig Hc Hs Hx He.
  assert (S1 : forall y, sig y = 1). { intros y. specialize (Hs y 0). unfold sigma_function in Hs. rewrite Hc in Hs. injection Hs as <-. ring. }
  rewrite (enters_exp sig (fun y => y) (- x0) 1 psi x) by (auto; try lra; intros y; rewrite S1; apply dd_id). unfold steady_constant. f_equal. field.
Qed.
Print Assumptions C142_constant.
(** mirror images of directions have the same weight *)
Definition mirrored (dirs : list (R * R)) : Prop := Permutation (map (fun p => (- fst p, snd p)) dirs) dirs.
(** the scalar flux of the fluxes psi of the directions to the right *)
Definition flux_right (psi : R -> R -> R) (dirs : list (R * R)) (x : R) : R := rsum (map (fun p => if Rltb 0 (fst p) then snd p * psi (fst p) x else 0) dirs).
Lemma rsum_perm l l' : Permutation l l' -> rsum l = rsum l'.
Proof. induction 1; cbn [rsum fold_right] in *; auto; unfold rsum in *; lra. Qed.
Lemma steady_mirror erf x0 dirs x : mirrored dirs ->
  steady_phi erf x0 dirs x = rsum (map (fun p => if Rltb 0 (fst p) then snd p * exp (- gauss_path erf (- x0) x (1 / 2) / fst p) else 0) dirs).
Proof.
  intros H. unfold steady_phi. set (g := fun p : R * R => if Rltb (fst p) 0 then snd p * steady_fsol erf x x0 (fst p) else 0).
  rewrite <- (rsum_perm _ _ (Permutation_map g H)), map_map. f_equal. apply map_ext. intros [m w]. unfold g, steady_fsol. cbn [fst snd].
  destruct (Rlt_dec 0 m) as [P|P].
  - rewrite !Rltb_true by lra. f_equal. f_equal. field. lra.
  - rewrite !Rltb_false by lra. reflexivity.
Qed.
(** For mirror-symmetric directions the benchmark is the scalar flux behind a Gaussian opacity of standard deviation 1/2. *)
Theorem C142_gaussian : forall erf x0 dirs x psi, erf_ok erf -> mirrored dirs -> - x0 <= x ->
  (forall mu w, In (mu, w) dirs -> 0 < mu -> enters (gauss (1 / 2)) (- x0) mu (psi mu) x) -> steady_phi erf x0 dirs x = flux_right psi dirs x.
Proof.
  intros erf x0 dirs x psi He Hm Hx H. rewrite steady_mirror by exact Hm. unfold flux_right. f_equal. apply map_ext_in. intros [m w] Hin. cbn [fst snd].
  destruct (Rlt_dec 0 m) as [P|P]; [|now rewrite !Rltb_false by lra]. rewrite !Rltb_true by lra. f_equal.
  rewrite (enters_exp (gauss (1 / 2)) (Fg erf (1 / 2)) (- x0) m (psi m) x); auto; try lra; [|intros y; apply Fg_der; auto; lra|eauto]. now rewrite gauss_path_F.
Qed.
Print Assumptions C142_gaussian.
Lemma narrow_less erf a b : erf_ok erf -> a < b -> gauss_path erf a b (1 / 2) < gauss_path erf a b 2.
Proof.
  intros He Hab. rewrite !gauss_path_F. set (H := fun y => Fg erf 2 y - Fg erf (1 / 2) y).
  assert (DH : forall y, derivable_pt_lim H y (gauss 2 y - gauss (1 / 2) y)) by (intros y; apply is_derive_Reals; apply dd_minus; apply Fg_der; auto; lra).
  assert (S : forall y, y <> 0 -> 0 < gauss 2 y - gauss (1 / 2) y).
  { intros y Hy. unfold gauss. assert (0 < y ^ 2) by (cbn; nra). enough (exp (- y ^ 2 / (2 * (1 / 2) ^ 2)) < exp (- y ^ 2 / (2 * 2 ^ 2))) by lra. apply exp_increasing. lra. }
  assert (G : forall a b, a < b -> 0 <= a \/ b <= 0 -> H a < H b).
  { intros p q Hpq Hs. destruct (MVT_cor2 H (fun y => gauss 2 y - gauss (1 / 2) y) p q Hpq) as (c & E & Hc); [intros; apply DH|].
    assert (0 < (gauss 2 c - gauss (1 / 2) c) * (q - p)) by (apply Rmult_lt_0_compat; [apply S; lra|lra]). lra. }
  assert (H a < H b) as Q.
  { destruct (Rle_dec 0 a); [apply G; lra|]. destruct (Rle_dec b 0); [apply G; lra|]. apply Rlt_trans with (H 0); apply G; lra. }
  unfold H in Q. lra.
Qed.
(** The opacity of opacity.py has standard deviation 2: the benchmark is larger than its scalar flux everywhere inside. *)
Theorem C142_too_large : forall erf oc x0 dirs x psi sig, erf_ok erf -> f_constant (ofun oc) = false -> f_gaussian (ofun oc) = true ->
  (forall y t, sigma_function oc y t = Ok (sig y)) -> mirrored dirs -> - x0 < x ->
  (forall mu w, In (mu, w) dirs -> 0 < w) -> (exists mu w, In (mu, w) dirs /\ 0 < mu) ->
  (forall mu w, In (mu, w) dirs -> 0 < mu -> enters sig (- x0) mu (psi mu) x) -> flux_right psi dirs x < steady_phi erf x0 dirs x.
Proof.
  intros erf oc x0 dirs x psi sig He Hc Hg Hs Hm Hx Hw Hex H. rewrite steady_mirror by exact Hm.
  assert (SG : forall y, sig y = gauss 2 y). { intros y. specialize (Hs y 0). unfold sigma_function in Hs. rewrite Hc, Hg in Hs. now injection Hs as <-. }
  assert (V : forall m w, In (m, w) dirs -> 0 < m -> psi m x < exp (- gauss_path erf (- x0) x (1 / 2) / m)).
  { intros m w Hin Pm. rewrite (enters_exp sig (Fg erf 2) (- x0) m (psi m) x); try lra; [|intros y; rewrite SG; apply Fg_der; auto; lra|eauto].
    rewrite <- gauss_path_F. apply exp_increasing. pose proof (narrow_less erf (- x0) x He Hx). unfold Rdiv. apply Rmult_lt_compat_r; [now apply Rinv_0_lt_compat|lra]. }
  clear H Hm. unfold flux_right.
  assert (L : forall l, (forall p, In p l -> In p dirs) ->
    rsum (map (fun p => if Rltb 0 (fst p) then snd p * psi (fst p) x else 0) l) <= rsum (map (fun p => if Rltb 0 (fst p) then snd p * exp (- gauss_path erf (- x0) x (1 / 2) / fst p) else 0) l) /\
    ((exists mu w, In (mu, w) l /\ 0 < mu) -> rsum (map (fun p => if Rltb 0 (fst p) then snd p * psi (fst p) x else 0) l) < rsum (map (fun p => if Rltb 0 (fst p) then snd p * exp (- gauss_path erf (- x0) x (1 / 2) / fst p) else 0) l))).
  { induction l as [|[m w] l IH]; intros Hl; [split; [cbn; lra|intros (? & ? & [] & _)]|]. destruct IH as [I1 I2]; [intros p Hp; apply Hl; now right|].
    cbn [map rsum fold_right fst snd]. unfold rsum in *. destruct (Rlt_dec 0 m) as [P|P].
    - rewrite !Rltb_true by lra. assert (0 < w) by (apply (Hw m w), Hl; now left). assert (w * psi m x < w * exp (- gauss_path erf (- x0) x (1 / 2) / m)) by (apply Rmult_lt_compat_l; auto; apply (V m w); [apply Hl; now left|auto]).
      split; [lra|intros _; lra].
    - rewrite !Rltb_false by lra. split; [lra|]. intros (m' & w' & [E|Hin] & P'); [injection E as -> ->; lra|]. assert (X := I2 (ex_intro _ m' (ex_intro _ w' (conj Hin P')))). lra. }
  apply (L dirs); auto.
Qed.
Print Assumptions C142_too_large.
Definition oc_gauss : ocfg := {| o_t := 1; o_s := 0; oM := 0; oMs := 0; oN := 2; oquad := nil; ofun := {| f_constant := false; f_gaussian := true; f_siewert1 := false; f_siewert2 := false; f_sedov := false |}; o_v := 0 |}.
(** two directions and weights one half, the middle of the slab *)
Example C142_example : mirrored [(-1, 1 / 2); (1, 1 / 2)] /\ (forall y t, sigma_function oc_gauss y t = Ok (gauss 2 y)) /\
  enters (gauss 2) (-5) 1 (fun y => exp (- (Fg erf_int 2 y - Fg erf_int 2 (-5)))) 0 /\
  1 / 2 * exp (- (Fg erf_int 2 0 - Fg erf_int 2 (-5))) < steady_phi erf_int 5 [(-1, 1 / 2); (1, 1 / 2)] 0.
Proof.
  assert (M : mirrored [(-1, 1 / 2); (1, 1 / 2)]).
  { unfold mirrored. cbn [map fst snd]. replace (- -1) with 1 by ring. replace (- (1)) with (-1) by ring. apply perm_swap. }
  assert (G : forall y t, sigma_function oc_gauss y t = Ok (gauss 2 y)) by reflexivity.
  assert (Hen : enters (gauss 2) (-5) 1 (fun y => exp (- (Fg erf_int 2 y - Fg erf_int 2 (-5)))) 0).
  { split; [rewrite Rminus_eq_0, Ropp_0; apply exp_0|]. intros y _. eapply dd_eq; [apply dd_exp, dd_opp, dd_minus; [apply Fg_der; [apply erf_contract_holds|lra]|apply dd_const]|]. cbv beta. match goal with |- ?a = ?b => change (@eq R a b) end. field. }
  repeat (split; [auto|]).
  pose proof (C142_too_large erf_int oc_gauss 5 [(-1, 1 / 2); (1, 1 / 2)] 0 (fun _ y => exp (- (Fg erf_int 2 y - Fg erf_int 2 (-5)))) (gauss 2) erf_contract_holds eq_refl eq_refl G M ltac:(lra)) as T.
  unfold flux_right in T. cbn [map rsum fold_right fst snd] in T. rewrite (Rltb_false 0 (-1)), (Rltb_true 0 1) in T by lra.
  enough (0 + (1 / 2 * exp (- (Fg erf_int 2 0 - Fg erf_int 2 (-5))) + 0) < steady_phi erf_int 5 [(-1, 1 / 2); (1, 1 / 2)] 0) by lra. apply T.
  - intros mu w [E|[E|[]]]; injection E as <- <-; lra.
  - exists 1, (1 / 2). split; [right; now left|lra].
  - intros mu w [E|[E|[]]] P; injection E as <- <-; [lra|]. exact Hen.
Qed.

(* ---------------------------------------------------------------- C143 *)
Definition quad_ok (quad : (R -> R) -> R -> R -> R) : Prop := forall f a b, (forall z, continuous f z) -> quad f a b = RInt f a b.
Example quad_contract_holds : quad_ok (fun f a b => RInt f a b). Proof. intros f a b _. reflexivity. Qed.
Lemma mg_cont t0 mu z : continuous (fun s => mg_sigma s ((s - -5) / mu + t0)) z.
Proof.
  unfold mg_sigma. apply cexp. apply cdivc, copp, cpow, cminus; [apply cid|]. apply cmult; [apply cconst|]. apply cplus; [|apply cconst]. apply cdivc, cminus; [apply cid|apply cconst].
Qed.
Lemma mg_window mu t x : 0 < mu -> 0 < t -> -5 <= x -> np_heaviside0 (Rabs mu - Rabs ((x - -5) / t)) = if Rltb (x + 5) (mu * t) then 1 else 0.
Proof.
  intros Hm Ht Hx. unfold np_heaviside0. rewrite (Rabs_pos_eq mu) by lra. rewrite Rabs_pos_eq by (apply Rmult_le_pos; [lra|left; now apply Rinv_0_lt_compat]).
  assert (E : t * (mu - (x - -5) / t) = mu * t - (x + 5)) by (field; lra).
  destruct (Rlt_dec (x + 5) (mu * t)) as [L|L].
  - rewrite !Rltb_true; auto. apply Rmult_lt_reg_l with t; lra.
  - rewrite !Rltb_false; auto; try lra. apply Rmult_le_reg_l with t; lra.
Qed.
(** Along a path of direction mu > 0 the value falls with the opacity at the point passed: a Gaussian of width two whose
    centre moves to the left with speed 1/4. *)
Theorem C143_transport_equation : forall quad mu t x, quad_ok quad -> 0 < mu -> 0 < t -> -5 < x -> x + 5 <> mu * t ->
  exists psi : R -> R, locally 0 (fun tau => moving_gaussian_shock quad (t + tau) (x + mu * tau) mu = Ok (psi tau)) /\ is_derive psi 0 (- exp (- (x + t / 4) ^ 2 / 8) * psi 0).
Proof.
  intros quad mu t x Hq Hm Ht Hx Hne. replace (exp (- (x + t / 4) ^ 2 / 8)) with (mg_sigma x t) by (unfold mg_sigma; f_equal; field). set (t0 := (-5 - x) / mu + t).
  set (G := fun s => mg_sigma s ((s - -5) / mu + t0)).
  set (k := if Rltb (x + 5) (mu * t) then 1 else 0).
  exists (fun tau => exp (- RInt G (-5) (x + mu * tau) / mu) * k). split.
  - assert (P : 0 < Rmin t ((x + 5) / mu)) by (apply Rmin_pos; [auto|apply Rdiv_lt_0_compat; lra]). exists (mkposreal _ P). intros tau Htau.
    unfold ball in Htau; cbn in Htau; unfold AbsRing_ball, abs, minus, plus, opp in Htau; cbn in Htau. rewrite Ropp_0, Rplus_0_r in Htau.
    pose proof (Rmin_l t ((x + 5) / mu)). pose proof (Rmin_r t ((x + 5) / mu)). apply Rabs_def2 in Htau as [T1 T2].
    assert (- ((x + 5) / mu) < tau) by lra. assert (B : - (x + 5) < mu * tau). { apply Rmult_lt_reg_l with (/ mu); [now apply Rinv_0_lt_compat|]. rewrite <- (Rmult_assoc (/ mu) mu tau), Rinv_l, Rmult_1_l by lra. unfold Rdiv in *. lra. }
    unfold moving_gaussian_shock. rewrite !Reqb_false by lra. rewrite mg_window by lra. rewrite (Rabs_pos_eq mu) by lra. f_equal. f_equal.
    + f_equal. f_equal. f_equal. rewrite Hq.
      * apply RInt_ext. intros s _. unfold G, mg_eta, t0. f_equal. field. lra.
      * intros z. unfold mg_eta. apply mg_cont.
    + unfold k. replace (x + mu * tau + 5) with (x + 5 + mu * tau) by ring. rewrite Rmult_plus_distr_l. destruct (Rlt_dec (x + 5) (mu * t)); [rewrite !Rltb_true by lra|rewrite !Rltb_false by lra]; reflexivity.
  - eapply dd_eq.
    + apply dd_scal_r. apply (dd_exp (fun tau => - RInt G (-5) (x + mu * tau) / mu)). apply dd_divc, dd_opp.
      apply (dd_comp (fun z => RInt G (-5) z) (fun tau => x + mu * tau) 0 (G x) mu).
      * replace (x + mu * 0) with x by ring. apply (is_derive_RInt G (fun z => RInt G (-5) z) (-5) x); [|apply mg_cont].
        exists (mkposreal 1 Rlt_0_1). intros z _. apply int_val. intros w. apply mg_cont.
      * eapply dd_eq; [apply dd_plus; [apply dd_const|apply dd_scal, dd_id]|]. ring.
    + unfold G at 1. replace ((x - -5) / mu + t0) with t by (unfold t0; field; lra). field. lra.
Qed.
Print Assumptions C143_transport_equation.
(** One enters at the wall, nothing is ahead of the first particles, and all values lie between. *)
Theorem C143_boundary : forall quad mu t x, quad_ok quad -> 0 < mu -> 0 < t -> -5 <= x ->
  moving_gaussian_shock quad t (-5) mu = Ok 1 /\
  exists psi, moving_gaussian_shock quad t x mu = Ok psi /\ 0 <= psi <= 1 /\ (psi = 0 <-> mu * t <= x + 5).
Proof.
  intros quad mu t x Hq Hm Ht Hx.
  assert (V : forall y, -5 <= y -> moving_gaussian_shock quad t y mu = Ok (exp (- RInt (fun s => mg_sigma s (mg_eta t y mu s)) (-5) y / mu) * (if Rltb (y + 5) (mu * t) then 1 else 0))).
  { intros y Hy. unfold moving_gaussian_shock. rewrite !Reqb_false by lra. rewrite mg_window by lra. rewrite (Rabs_pos_eq mu) by lra. rewrite Hq; [reflexivity|]. intros z. apply mg_cont. }
  split.
  - rewrite V by lra. rewrite RInt_point. rewrite Rltb_true by (assert (0 < mu * t) by (apply Rmult_lt_0_compat; auto); lra). f_equal.
    match goal with |- exp ?a * 1 = 1 => assert (Z : a = 0) by (unfold zero; cbn; field; lra); rewrite Z end. rewrite exp_0. ring.
  - eexists. split; [now apply V|].
    assert (I : 0 <= RInt (fun s => mg_sigma s (mg_eta t x mu s)) (-5) x).
    { apply RInt_ge_0; auto; [apply ex_int; intros z; apply mg_cont|]. intros z _. left. apply exp_pos. }
    set (m := RInt _ _ _) in *. clearbody m. pose proof (exp_pos (- m / mu)) as P.
    assert (exp (- m / mu) <= 1). { rewrite <- exp_0. destruct (Req_dec m 0) as [->|N]; [replace (- 0 / mu) with 0 by (field; lra); lra|]. left. apply exp_increasing. assert (0 < m / mu) by (apply Rdiv_lt_0_compat; lra). unfold Rdiv in *. lra. }
    destruct (Rlt_dec (x + 5) (mu * t)); [rewrite Rltb_true by lra|rewrite Rltb_false by lra]; (split; [lra|split; intros; lra]).
Qed.
Print Assumptions C143_boundary.
(** Directions to the left get values too, though no particle enters there. *)
Theorem C143_left_directions : forall quad mu t x, mu < 0 -> 0 < t -> -5 <= x -> x + 5 < - mu * t -> exists psi, moving_gaussian_shock quad t x mu = Ok psi /\ 0 < psi.
Proof.
  intros quad mu t x Hm Ht Hx H. unfold moving_gaussian_shock. rewrite !Reqb_false by lra. eexists. split; [reflexivity|]. apply Rmult_lt_0_compat; [apply exp_pos|].
  unfold np_heaviside0. rewrite (Rabs_left mu) by lra. rewrite Rabs_pos_eq by (apply Rmult_le_pos; [lra|left; now apply Rinv_0_lt_compat]).
  rewrite Rltb_true; [lra|]. apply Rmult_lt_reg_l with t; auto. rewrite Rmult_0_r. replace (t * (- mu - (x - -5) / t)) with (- mu * t - (x + 5)) by (field; lra). lra.
Qed.
Print Assumptions C143_left_directions.
Example C143_example : let q := fun f a b => RInt f a b in moving_gaussian_shock q 2 (-5) 1 = Ok 1 /\ moving_gaussian_shock q 2 (-3) 1 = Ok 0 /\ exists psi, moving_gaussian_shock q 2 (-4) (-1) = Ok psi /\ 0 < psi.
Proof.
  cbv zeta. split; [apply (C143_boundary _ 1 2 (-5) quad_contract_holds); lra|]. split; [|apply C143_left_directions; lra].
  destruct (C143_boundary _ 1 2 (-3) quad_contract_holds ltac:(lra) ltac:(lra) ltac:(lra)) as (_ & psi & E & _ & Z). etransitivity; [exact E|]. f_equal. apply Z. lra.
Qed.

(* ---------------------------------------------------------------- C144 *)
(** The table for the thick square source has a value at each point and is mirror symmetric at every time. *)
Theorem C144_square_table : forall t, length (oh_phi t) = length oh_xs /\ rev (oh_phi t) = oh_phi t /\ rev oh_xs = map Ropp oh_xs /\
  (t <> 1 -> t <> 5 -> forall i, nth i (oh_phi t) 0 = 0).
Proof.
  intros t. assert (X : rev oh_xs = map Ropp oh_xs) by (unfold oh_xs; cbn [map rev app]; repeat (f_equal; try lra)).
  unfold oh_phi. destruct (Req_dec t 1) as [->|N1]; [rewrite Reqb_refl; repeat split; auto; intros; lra|]. rewrite Reqb_false by auto.
  destruct (Req_dec t 5) as [->|N5]; [rewrite Reqb_refl; repeat split; auto; intros; lra|]. rewrite Reqb_false by auto.
  split; [now rewrite map_length|]. split.
  - rewrite <- map_rev, X, map_map. apply map_ext. intros; ring.
  - split; auto. intros _ _ i. unfold oh_xs. cbn [map]. do 21 (destruct i as [|i]; [cbn [nth]; ring|]). destruct i; reflexivity.
Qed.
Print Assumptions C144_square_table.
(** Where nothing from the edge of the source has arrived at time one the entries are the growth of a uniform field with
    scattering ratio 0.9, phi' = 1 - (1 - c) phi, to three digits. *)
Theorem C144_square_plateau : forall i phi, (i < 21)%nat -> Rabs (nth i oh_xs 0) <= 5 / 2 - 1 -> phi 0 = 0 ->
  (forall t, 0 <= t <= 1 -> is_derive phi t (1 - (1 - 9 / 10) * phi t)) -> Rabs (nth i (oh_phi 1) 0 - phi 1) <= 1 / 2000.
Proof.
  intros i phi Hi Hx H0 H.
  assert (E : phi 1 = 10 * (1 - exp (- (1 / 10)))).
  { assert (C : (phi 0 - 10) * exp (0 / 10) = (phi 1 - 10) * exp (1 / 10)).
    { apply (eq_is_derive (fun t => (phi t - 10) * exp (t / 10)) 0 1); [|lra]. intros t Ht.
      eapply dd_eq; [apply (dd_mult (fun t => phi t - 10) (fun t => exp (t / 10))); [apply dd_minus; [now apply H|apply dd_const]|apply dd_exp, dd_divc, dd_id]|]. change (@eq R ((1 - (1 - 9 / 10) * phi t - 0) * exp (t / 10) + (phi t - 10) * (1 / 10 * exp (t / 10))) 0). field. }
    rewrite H0 in C. replace (0 / 10) with 0 in C by field. rewrite exp_0 in C. rewrite exp_Ropp. pose proof (exp_pos (1 / 10)). apply Rmult_eq_reg_r with (exp (1 / 10)); [|lra].
    replace (10 * (1 - / exp (1 / 10)) * exp (1 / 10)) with (10 * exp (1 / 10) - 10) by (field; lra). lra. }
  rewrite E. unfold oh_phi. rewrite Reqb_refl.
  do 21 (destruct i as [|i]; [cbn [nth oh_xs map] in *; first [exfalso; unfold Rabs in Hx; destruct (Rcase_abs _); lra | interval]|]). lia.
Qed.
Print Assumptions C144_square_plateau.
(** In a slab which absorbs nothing, lit from the left by one in every direction, what leaves in mirror directions adds up
    to one; the entries for a uniform slab do, except those for mu = 0.6. *)
Theorem C144_slab_table : forall i, (i < 11)%nat -> nth i sw_mus 0 <> 6 / 10 <-> nth i sw_left_inf 0 + nth i sw_right_inf 0 = 1.
Proof.
  intros i Hi. do 11 (destruct i as [|i]; [cbn [nth sw_mus sw_left_inf sw_right_inf]; split; intros; lra|]). lia.
Qed.
Print Assumptions C144_slab_table.
Theorem C144_slab_table_refuted : exists i, (i < 11)%nat /\ nth i sw_mus 0 = 6 / 10 /\ nth i sw_left_inf 0 + nth i sw_right_inf 0 <> 1.
Proof. exists 6%nat. cbn [nth sw_mus sw_left_inf sw_right_inf]. split; [lia|]. split; lra. Qed.
Print Assumptions C144_slab_table_refuted.
Example C144_example : nth 5 (oh_phi 1) 0 = 476 / 1000 /\ nth 5 oh_xs 0 = - (5 / 2).
Proof. unfold oh_phi. rewrite Reqb_refl. cbn. split; lra. Qed.
