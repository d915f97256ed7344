(** C189: in the sphere, both errors together on moving meshes with a rate in time, and the scalar flux reported. *)
From Coquelicot Require Import Coquelicot.
From Verif Require Import Py PyLemmas Calc Legendre Cheb DGModel DGSpec DGProofs DGInt DGBalance DGFinal MatModel RhsModel RhsProofs
  SphereProofs SphereBal SphereWeak SphereThms PosDef SphMass SphMassThms SphUnif SphEnergy SphSpec SphStab SphStabThms SphExist SphExistThms StabSpec StabProofs ExistSpec ExistProofs
  ErrSpec ErrLeib ErrProofs ErrEnergy ErrApprox AngleThms SphErrSpec SphErrProj SphErrEn SphErrCons SphErrInv SphErrRate SphErrEst SphErrThms
  TimeModel TimeProofs TimeExist TimeThms TimeOrder TimeOrderThms SphFullThms TimeRate TimeRateThms SphRateThms FuncModel.
From Verif Require OutModel OutProofs FluxErrThms.
Open Scope R_scope.

(** Any consistent method on a moving mesh, steps at most d: twice the bound of [C160_order] plus a constant
    times the square of d. *)
Theorem C189_sphere : forall T c E Q psi ang em t0 t1 st lam gam h Kd sg Rr wmin alpha beta,
  consistent T -> fgeom (rflux c) = Sphere -> (2 <= fN (rflux c))%nat -> (2 <= N_ang c)%nat -> (fM (rflux c) <= 10)%nat ->
  forallb (refl_ok c) (seq 0 (N_ang c)) = true -> directions (N_ang c) (mus c) -> t0 <= t1 -> mesh_c1 (rflux c) E (fun k t => r_Dedges c t k) ->
  (forall k, (k <= fN (rflux c))%nat -> lipschitz_on (fun t => r_Dedges c t k) t0 t1) ->
  (forall s i, (s < fN (rflux c))%nat -> (i <= fM (rflux c))%nat -> lipschitz_on (fun t => Src c t (E s t) (E (S s) t) i) t0 t1) ->
  sph_data c E t0 t1 -> sph_exact c E Q psi ang em t0 t1 -> sph_sizes c E psi ang em lam gam h Kd sg Rr wmin alpha beta t0 t1 ->
  exists C d0, 0 < C /\ 0 < d0 /\ forall d hs y, 0 <= d <= d0 -> (forall h, In h hs -> 0 <= h <= d) -> t0 + total hs = t1 -> from_projection c E psi t0 y ->
  forall y', rk_run T (sphereR c st) t0 y hs y' -> vec_dist c E psi t1 y' <= 2 * sph_bound c lam gam h Kd sg Rr wmin alpha beta t0 t1 + C * d ^ 2.
Proof.
  intros T c E Q psi ang em t0 t1 st lam gam h Kd sg Rr wmin alpha beta HT Hg HN HK H10 Hok Hd Hle HM LD LS HD HX HS.
  set (V0 := fun a s j => rproj (fM (rflux c)) (fun x => psi a s x t0) (E s t0) (E (S s) t0) j).
  destruct (C136_exists c E st V0 t0 t1 Hg HN H10 Hle Hok HD) as (V & HV & HV0).
  assert (DV := bound_holds c E Q psi ang em t0 t1 st lam gam h Kd sg Rr wmin alpha beta Hg HN HK Hd Hle HM HX HS V HV HV0).
  set (B := sph_bound c lam gam h Kd sg Rr wmin alpha beta t0 t1) in *.
  assert (I1 : increasing (fN (rflux c)) (fun k => E k t1)) by exact (inc1 c E t0 t1 Hle HD).
  assert (PCt : forall a s x, (a < N_ang c)%nat -> (s < fN (rflux c))%nat -> continuous (fun y => psi a s y t1) x) by (intros; now apply (psi_cont c E Q psi ang em t0 t1 HX)).
  pose proof (gram_size_pos c E t1 HK Hd I1) as PG. set (G0 := gram_size c E t1) in *.
  destruct (C184_sphere T c E st st V t0 t1 HT Hg HN HK Hle HD LD LS HV) as (C & d0 & PC & Pd & R1).
  exists (2 * G0 * C ^ 2 + 1), d0. split; [assert (0 <= 2 * G0 * C ^ 2) by (apply Rmult_le_pos; [lra|apply pow2_ge_0]); lra|]. split; auto.
  intros d hs y Hd' Hhs Ht [Hy Hy0] y' Hrun. unfold vec_dist.
  assert (CL : forall a s j, (a < N_ang c)%nat -> (s < fN (rflux c))%nat -> (j <= fM (rflux c))%nat -> Rabs (y' (a, s, j) - V a s j t1) <= C * d).
  { intros a s j Ha Hs Hj. rewrite <- Ht. replace (C * d) with (C * (0 + d)) by ring. apply (R1 d 0 hs y y'); auto; try lra.
    intros b k i Hb Hk Hi. rewrite Hy0, HV0 by auto. unfold V0. rewrite Rminus_eq_0, Rabs_R0. lra. }
  eapply Rle_trans; [apply (sph_near c E t1 (fun a s x => psi a s x t1) HK Hd I1 PCt V (fun a s j _ => y' (a, s, j)) 1 (C * d) Rlt_0_1 CL)|]. fold G0.
  rewrite Rpow_mult_distr. assert (0 <= d ^ 2) by apply pow2_ge_0. rewrite Rinv_1. lra.
Qed.
Print Assumptions C189_sphere.

(** What main_functions.solve (217, 231-232, 242) hands to make_output at time t for a sphere; the collided part only. *)
Definition report_sph (c : rhs_cfg) (E : nat -> R -> R) (u : nat -> nat -> nat -> R) (t : R) (xs : list R) (unc : R -> R -> result R) : OutModel.out_cfg :=
  {| OutModel.ot := t; OutModel.oN_ang := N_ang c; OutModel.ows := wsa c; OutModel.oxs := xs; OutModel.ou := u; OutModel.outM := fM (rflux c);
     OutModel.oedges := map (fun k => E k t) (seq 0 (S (fN (rflux c)))); OutModel.ouncollided := false; OutModel.ogeom := Sphere; OutModel.unc := unc |}.
(** The report succeeds at every list of points, and over the volume (weight r^2) the squared distance of the function it
    samples from the scalar flux of psi is at most B. *)
Definition sph_flux_within (c : rhs_cfg) (E : nat -> R -> R) (u : nat -> nat -> nat -> R) (psi : nat -> nat -> R -> R -> R) (t B : R) : Prop :=
  exists (phi : R -> R) (I : nat -> R), (forall xs unc, OutModel.make_phi (report_sph c E u t xs unc) = Ok (map phi xs)) /\
    (forall s, (s < fN (rflux c))%nat -> is_RInt (fun x => x ^ 2 * (phi x - sumn (N_ang c) (fun a => wsa c a * psi a s x t)) ^ 2) (E s t) (E (S s) t) (I s)) /\
    sumn (fN (rflux c)) I <= B.
Lemma sph_flux_within_le c E u psi t B B' : sph_flux_within c E u psi t B -> B <= B' -> sph_flux_within c E u psi t B'.
Proof. intros (phi & I & P & Q & S) H. exists phi, I. repeat split; auto. lra. Qed.

(** the weights against the widths of the angular cells *)
Lemma weights_widths c (d : nat -> R) : (2 <= N_ang c)%nat -> directions (N_ang c) (mus c) ->
  sumn (N_ang c) (fun a => wsa c a * d a) ^ 2 <= kappa c ^ 2 / 2 * sumn (N_ang c) (fun a => awidth (N_ang c) (mus c) a * d a ^ 2).
Proof.
  intros HK Hd. set (K := N_ang c) in *. set (q := awidth K (mus c)). assert (Hq : forall a, (a < K)%nat -> 0 < q a) by (intros; now apply awidth_pos).
  set (w2 := sumn K (fun a => wsa c a ^ 2 / q a)).
  assert (Hw2 : 0 <= w2) by (apply sumn_nonneg; intros; unfold Rdiv; apply Rmult_le_pos; [apply pow2_ge_0|apply Rlt_le, Rinv_0_lt_compat; auto]).
  assert (Ek : kappa c ^ 2 / 2 = w2).
  { unfold kappa. fold K q w2. rewrite <- Rsqr_pow2, Rsqr_sqrt by lra. field. }
  rewrite Ek. set (p := sumn K (fun a => wsa c a * d a)). set (r := sumn K (fun a => q a * d a ^ 2)).
  assert (P : forall l, 0 <= r - 2 * l * p + l ^ 2 * w2).
  { intros l. replace (r - 2 * l * p + l ^ 2 * w2) with (sumn K (fun a => q a * (d a - l * (wsa c a / q a)) ^ 2)).
    - apply sumn_nonneg. intros a Ha. apply Rmult_le_pos; [left; auto|apply pow2_ge_0].
    - unfold r, p, w2. replace (sumn K (fun a => q a * d a ^ 2) - 2 * l * sumn K (fun a => wsa c a * d a)) with (sumn K (fun a => q a * d a ^ 2) + (- 2 * l) * sumn K (fun a => wsa c a * d a)) by ring.
      rewrite <- !sumn_scal, <- !sumn_plus. apply sumn_ext. intros a Ha. specialize (Hq a Ha). field. lra. }
  destruct (Req_dec w2 0) as [Z|Z].
  - destruct (Req_dec p 0) as [Zp|Zp]; [rewrite Zp, Z; lra|]. exfalso. specialize (P ((r + 1) / (2 * p))). rewrite Z in P.
    replace (r - 2 * ((r + 1) / (2 * p)) * p + ((r + 1) / (2 * p)) ^ 2 * 0) with (-1) in P by (field; auto). lra.
  - specialize (P (p / w2)). replace (r - 2 * (p / w2) * p + (p / w2) ^ 2 * w2) with (r - p ^ 2 / w2) in P by (field; auto).
    apply Rle_trans with (w2 * (p ^ 2 / w2)); [right; field; auto|]. apply Rmult_le_compat_l; lra.
Qed.

(** any coefficients *)
Theorem C189_flux : forall c E y psi t, (1 <= fN (rflux c))%nat -> (2 <= N_ang c)%nat -> (fM (rflux c) <= 12)%nat -> directions (N_ang c) (mus c) ->
  increasing (fN (rflux c)) (fun k => E k t) ->
  (forall a s x, (a < N_ang c)%nat -> (s < fN (rflux c))%nat -> continuous (fun y => psi a s y t) x) ->
  sph_flux_within c E (fun a s j => y (a, s, j)) psi t (kappa c ^ 2 / 2 * vec_dist c E psi t y).
Proof.
  intros c E y psi t HN HK H12 Hd He Cp. set (u := fun a s j => y (a, s, j)). set (N := fN (rflux c)) in *.
  set (oc := fun xs unc => report_sph c E u t xs unc). set (u0 := fun _ _ : R => Ok 0 : result R).
  assert (NE : forall k, (k <= N)%nat -> nth k (map (fun k => E k t) (seq 0 (S N))) 0 = E k t) by (intros; now apply (FluxErrThms.nth_edges (rflux c))).
  assert (Rs : OutProofs.rising (map (fun k => E k t) (seq 0 (S N)))).
  { split; [rewrite map_length, seq_length; lia|]. intros i Hi. rewrite map_length, seq_length in Hi. rewrite !NE by lia. apply He. lia. }
  assert (HM : OutModel.ogeom (oc nil u0) = Sphere -> (OutModel.outM (oc nil u0) <= 12)%nat) by (intros _; exact H12).
  assert (Same : forall xs un x, OutModel.phi_at (oc xs un) x = OutModel.phi_at (oc nil u0) x) by reflexivity.
  set (phi := fun x => match OutModel.phi_at (oc nil u0) x with Ok v => v | Err _ => 0 end).
  assert (Hphi : forall x, OutModel.phi_at (oc nil u0) x = Ok (phi x)).
  { intros x. destruct (OutProofs.phi_at_total (oc nil u0) x Rs HM) as [v V]. unfold phi. now rewrite V. }
  set (fl := fun a s x => psi_at c E (fun a s j _ => y (a, s, j)) a s t x).
  assert (Cell : forall s x, (s < N)%nat -> E s t < x <= E (S s) t -> phi x = sumn (N_ang c) (fun a => wsa c a * fl a s x)).
  { intros s x Hs Hx. unfold phi, OutModel.phi_at. cbn [oc report_sph OutModel.oN_ang OutModel.ows].
    rewrite (OutProofs.sum_result_ok _ _ (fun a => wsa c a * fl a s x)); [reflexivity|]. intros a Ha.
    rewrite (OutProofs.psi_at_cell (oc nil u0) a x s Rs HM).
    - cbn [bind]. unfold OutProofs.cell_field, fl, psi_at. cbn [oc report_sph OutModel.ogeom OutModel.outM OutModel.ou OutModel.oedges]. fold N. rewrite !NE by lia. f_equal. unfold u. ring.
    - cbn [oc report_sph OutModel.oedges]. rewrite map_length, seq_length. fold N. lia.
    - apply OutProofs.cell_index_inside; cbn [oc report_sph OutModel.oedges]; fold N; rewrite ?map_length, ?seq_length; rewrite ?NE by lia; try exact Rs; try lia; tauto.
    - cbn [oc report_sph OutModel.oedges]. fold N. rewrite !NE by lia. lra. }
  assert (Cf : forall a s x, (s < N)%nat -> continuous (fl a s) x) by (intros a s x Hs; apply sph_field_cont; exact (He s Hs)).
  assert (C2 : forall (f : R -> R) z, (forall w, continuous f w) -> continuous (fun x => x ^ 2 * f x ^ 2) z).
  { intros f z Hf. apply (cmult (fun x => x ^ 2) (fun x => f x ^ 2)); [apply (cpow (fun x => x)), cid|apply (cpow f), Hf]. }
  set (g := fun s x => x ^ 2 * sumn (N_ang c) (fun a => wsa c a * (fl a s x - psi a s x t)) ^ 2).
  assert (Cg : forall s x, (s < N)%nat -> continuous (g s) x).
  { intros s x Hs. apply (C2 (fun x => sumn (N_ang c) (fun a => wsa c a * (fl a s x - psi a s x t)))). intros w.
    assert (K : forall n, (n <= N_ang c)%nat -> continuous (fun x => sumn n (fun a => wsa c a * (fl a s x - psi a s x t))) w).
    { induction n as [|n IH]; intros Hn; cbn [sumn]; [apply cconst|]. apply cplus; [apply IH; lia|]. apply cmult; [apply cconst|]. apply cminus; [now apply Cf|now apply Cp]. }
    now apply K. }
  set (q := awidth (N_ang c) (mus c)).
  set (J := fun a s => RInt (fun x => x ^ 2 * (fl a s x - psi a s x t) ^ 2) (E s t) (E (S s) t)).
  exists phi, (fun s => RInt (g s) (E s t) (E (S s) t)). split; [|split].
  - intros xs un. unfold OutModel.make_phi. cbn [report_sph OutModel.oxs OutModel.ouncollided]. change (report_sph c E u t xs un) with (oc xs un).
    assert (K : map_result (OutModel.phi_at (oc xs un)) xs = Ok (map phi xs)).
    { generalize xs at 2 3. intros l. induction l as [|x l IH]; [reflexivity|]. cbn [map_result map]. rewrite Same, Hphi. cbn [bind]. rewrite IH. reflexivity. }
    rewrite K. reflexivity.
  - intros s Hs. assert (Hlt := He s Hs). cbv beta in Hlt.
    apply (is_RInt_ext (g s)); [|apply int_val; intros; now apply Cg].
    intros x Hx. rewrite Rmin_left, Rmax_right in Hx by lra. unfold g. rewrite (Cell s x Hs) by lra. f_equal. f_equal.
    transitivity (sumn (N_ang c) (fun a => wsa c a * fl a s x) + (-1) * sumn (N_ang c) (fun a => wsa c a * psi a s x t)); [|ring].
    rewrite <- sumn_scal, <- sumn_plus. apply sumn_ext. intros; ring.
  - fold N. unfold vec_dist, sph_dist. fold N q.
    apply Rle_trans with (sumn N (fun s => kappa c ^ 2 / 2 * sumn (N_ang c) (fun a => q a * J a s))).
    2: { right. rewrite sumn_scal. f_equal. rewrite sumn_swap. apply sumn_ext. intros a _. now rewrite sumn_scal. }
    apply sumn_le. intros s Hs. assert (Hlt := He s Hs). cbv beta in Hlt.
    apply (is_RInt_le (g s) (fun x => kappa c ^ 2 / 2 * sumn (N_ang c) (fun a => q a * (x ^ 2 * (fl a s x - psi a s x t) ^ 2))) (E s t) (E (S s) t)); [lra| | |].
    + apply int_val. intros; now apply Cg.
    + apply (int_scal (fun x => sumn (N_ang c) (fun a => q a * (x ^ 2 * (fl a s x - psi a s x t) ^ 2)))).
      apply (int_sumn (N_ang c) (fun a x => q a * (x ^ 2 * (fl a s x - psi a s x t) ^ 2))). intros a Ha. apply int_scal. apply int_val.
      intros z. apply (C2 (fun x => fl a s x - psi a s x t)). intros w. apply cminus; [now apply Cf|now apply Cp].
    + intros x _. unfold g. pose proof (weights_widths c (fun a => fl a s x - psi a s x t) HK Hd) as X. cbv beta in X. fold q in X.
      apply Rle_trans with (x ^ 2 * (kappa c ^ 2 / 2 * sumn (N_ang c) (fun a => q a * (fl a s x - psi a s x t) ^ 2))); [apply Rmult_le_compat_l; [apply pow2_ge_0|exact X]|].
      right. rewrite <- !sumn_scal. apply sumn_ext. intros; ring.
Qed.
Print Assumptions C189_flux.

(** the scalar flux reported at the end of a run of steps of at most d *)
Theorem C189_reported : forall T c E Q psi ang em t0 t1 st lam gam h Kd sg Rr wmin alpha beta,
  consistent T -> fgeom (rflux c) = Sphere -> (2 <= fN (rflux c))%nat -> (2 <= N_ang c)%nat -> (fM (rflux c) <= 10)%nat ->
  forallb (refl_ok c) (seq 0 (N_ang c)) = true -> directions (N_ang c) (mus c) -> t0 <= t1 -> mesh_c1 (rflux c) E (fun k t => r_Dedges c t k) ->
  (forall k, (k <= fN (rflux c))%nat -> lipschitz_on (fun t => r_Dedges c t k) t0 t1) ->
  (forall s i, (s < fN (rflux c))%nat -> (i <= fM (rflux c))%nat -> lipschitz_on (fun t => Src c t (E s t) (E (S s) t) i) t0 t1) ->
  sph_data c E t0 t1 -> sph_exact c E Q psi ang em t0 t1 -> sph_sizes c E psi ang em lam gam h Kd sg Rr wmin alpha beta t0 t1 ->
  exists C d0, 0 < C /\ 0 < d0 /\ forall d hs y, 0 <= d <= d0 -> (forall h, In h hs -> 0 <= h <= d) -> t0 + total hs = t1 -> from_projection c E psi t0 y ->
  forall y', rk_run T (sphereR c st) t0 y hs y' ->
  sph_flux_within c E (fun a s j => y' (a, s, j)) psi t1 (kappa c ^ 2 / 2 * (2 * sph_bound c lam gam h Kd sg Rr wmin alpha beta t0 t1 + C * d ^ 2)).
Proof.
  intros T c E Q psi ang em t0 t1 st lam gam h Kd sg Rr wmin alpha beta HT Hg HN HK H10 Hok Hd Hle HM LD LS HD HX HS.
  destruct (C189_sphere T c E Q psi ang em t0 t1 st lam gam h Kd sg Rr wmin alpha beta) as (C & d0 & PC & Pd & H); auto.
  exists C, d0. split; [exact PC|]. split; [exact Pd|]. intros d hs y Hd' Hhs Ht Hy y' Hr.
  eapply sph_flux_within_le; [apply (C189_flux c E y' psi t1); auto; try lia|].
  - exact (inc1 c E t0 t1 Hle HD).
  - intros a s x Ha Hs. now apply (psi_cont c E Q psi ang em t0 t1 HX).
  - apply Rmult_le_compat_l; [|exact (H d hs y Hd' Hhs Ht Hy y' Hr)]. assert (0 <= kappa c ^ 2) by apply pow2_ge_0. lra.
Qed.
Print Assumptions C189_reported.

(** the shrinking sphere of [C162_example] *)
Example C189_example : forall A B ss st, A * ss = 0 -> 0 <= ss <= 1 -> exists C d0, 0 < d0 /\
  let psi a s x t := hf A B ss s x (mus (hcfg ss) a) t in
  forall d hs y, 0 <= d <= d0 -> (forall h, In h hs -> 0 <= h <= d) -> 0 + total hs = 1 -> from_projection (hcfg ss) hE psi 0 y ->
  forall y', rk_run rk45 (sphereR (hcfg ss) st) 0 y hs y' ->
  sph_flux_within (hcfg ss) hE (fun a s j => y' (a, s, j)) psi 1 (exp (2 * ss) * (2 * (6 * (19 * Rabs A + Rabs B) ^ 2 + ss ^ 2 * 216 * (3 * Rabs A) ^ 2)) + C * d ^ 2).
Proof.
  intros A B ss st HA Hss.
  assert (SZ := even_sizes (hcfg ss) hE (hf A B ss) 0 1 3 0 3 6 (7 * Rabs A + Rabs B) (6 * Rabs A) 0 (le_n 2) (h_even ss)).
  destruct (C189_reported rk45 (hcfg ss) hE (fun _ _ _ => 0) _ _ _ 0 1 st 1 0 3 0 3 6 (2 / INR 2) ((2 * (7 * Rabs A + Rabs B) + 4 * (6 * Rabs A) + 3 / 2 * 0) / INR 2) (6 * Rabs A / INR 2)
    (proj2 rk45_ok) eq_refl (le_n 2) (le_n 2) ltac:(cbn; lia) (h_checks ss) (even_dirs (hcfg ss) (le_n 2) (h_even ss)) ltac:(lra) (h_mesh ss)
    ltac:(intros k Hk; exact (Lp_const 0 1 (- INR k))) ltac:(intros s i Hs Hi; exact (Lp_const 0 1 0)) (h_data ss) (h_transport A B ss HA)) as (C & d0 & PC & Pd & H); auto.
  - apply SZ; clear SZ.
    + cbn. lra.
    + intros t s Ht Hs. unfold hE. rewrite S_INR. lra.
    + intros t Ht. unfold hE. simpl. lra.
    + intros t a s x Ht Ha Hs Hx. apply h_smooth.
    + intros t s x Ht Hs Hx. pose proof (h_range s x t Ht Hs Hx) as Rx. exists (fun _ => A * (exp (- t) * x)), (fun _ => 0). intros m Hm.
      destruct (h_bound A B ss s x m t Hss Ht Rx Hm) as [B0 B1]. refine (conj _ (conj _ (conj B0 (conj B1 _)))).
      * unfold hf. auto_derive; [exact I|ring].
      * auto_derive; auto.
      * rewrite Rabs_R0. lra.
    + intros t a s Ht Ha Hs. cbn [mus hcfg scfg r_Dedges]. assert (s = 0 \/ s = 1)%nat as [-> | ->] by (cbn in Hs; lia); destruct (a =? 0)%nat; simpl; apply Rabs_le; lra.
  - exists (C / 2), d0. split; auto. intros psi d hs y Hd Hhs Ht Hy y' Hr. eapply sph_flux_within_le; [exact (H d hs y Hd Hhs Ht Hy y' Hr)|].
    right. unfold sph_bound. cbv zeta. rewrite (even_kappa (hcfg ss) (le_n 2) (h_even ss)). cbn [fM rflux hcfg sigma_s fN].
    replace (sph_eta 1 0 3) with 0 by (unfold sph_eta, Rdiv; ring). replace (0 + 2 * (1 * ss - 1) + 2 * 1) with (2 * ss) by ring. rewrite Rmax_left by lra.
    simpl (INR 2). replace (2 * ss * (1 - 0)) with (2 * ss) by ring. field.
Qed.
