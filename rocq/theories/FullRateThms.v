(** C185: both errors together on moving meshes, with a rate in time. *)
From Coquelicot Require Import Coquelicot.
From Verif Require Import Py PyLemmas Calc Legendre DGModel DGSpec DGProofs DGInt FuncLobatto StabSpec StabProofs ErrSpec ErrLeib ErrProofs ErrEnergy ErrApprox ErrThms ExistSpec ExistProofs ExistThms TimeModel TimeProofs TimeThms TimeOrder TimeOrderThms FullThms CoupErrSpec CoupErrProofs CoupErrThms TimeRate TimeRateThms MomentThms UncolThms.

(** The squared distance of the numbers computed from the exact solution of the transport equation: twice the bound of
    [C120_rate], plus a constant times the square of the longest step. *)
Theorem C185_slab : forall T c E D N_ang ws mus cc Q psi t0 t1 st h K sg,
  consistent T -> fgeom c = Slab -> (2 <= fN c)%nat -> t0 <= t1 -> mesh_c1 c E D -> (forall t, t0 <= t <= t1 -> increasing (fN c) (fun k => E k t)) ->
  (forall k, (k <= fN c)%nat -> lipschitz_on (D k) t0 t1) ->
  (forall s i, (s < fN c)%nat -> (i <= fM c)%nat -> continuous_on (pcoef E (Q s) s i) t0 t1 /\ lipschitz_on (pcoef E (Q s) s i) t0 t1) -> steady c t0 t1 ->
  exact c E D N_ang ws mus cc Q psi t0 t1 -> inflow_exact c E D N_ang mus psi t0 t1 ->
  (forall a, (a < N_ang)%nat -> 0 <= ws a) -> sumn N_ang ws = 1 -> 0 <= cc <= 1 ->
  (forall t s, t0 <= t <= t1 -> (s < fN c)%nat -> E (S s) t - E s t <= h) ->
  (forall a s t x k, (a < N_ang)%nat -> (s < fN c)%nat -> t0 <= t <= t1 -> E s t <= x <= E (S s) t -> (k <= S (fM c))%nat -> ex_derive_n (fun y => psi a s y t) k x) ->
  (forall a s t x, (a < N_ang)%nat -> (s < fN c)%nat -> t0 <= t <= t1 -> E s t <= x <= E (S s) t -> Rabs (Derive_n (fun y => psi a s y t) (S (fM c)) x) <= K) ->
  (forall a f t, (a < N_ang)%nat -> (f <= fN c)%nat -> t0 <= t <= t1 -> Rabs (mus a - D f t) <= sg) ->
  exists C d0, 0 < C /\ 0 < d0 /\ forall d hs y, 0 <= d <= d0 -> (forall h, In h hs -> 0 <= h <= d) -> t0 + total hs = t1 ->
    vector N_ang (fN c) (fM c) y -> (forall a s j, (a < N_ang)%nat -> (s < fN c)%nat -> (j <= fM c)%nat -> y (a, s, j) = pcoef E (psi a s) s j t0) ->
    forall y', rk_run T (slabR c E D N_ang ws mus cc (fun s j t => pcoef E (Q s) s j t) st) t0 y hs y' ->
    distance c E N_ang ws psi (fun a s j _ => y' (a, s, j)) t1 <= 2 * space_bound c E h K sg t0 t1 + C * d ^ 2.
Proof.
  intros T c E D N_ang ws mus cc Q psi t0 t1 st h K sg HT Hg HN Hle HM Hinc LD HS Hst HX HI Hw H1 Hc Hh Hs HK Hsg.
  assert (MO : mesh_ok c E D t0 t1) by (intros t Ht; split; [now apply Hinc|intros k Hk; apply (HM k Hk t)]).
  assert (CD : forall k, (k <= fN c)%nat -> continuous_on (D k) t0 t1) by (intros k Hk w Hw'; now apply HM).
  assert (LD' : forall k, (k <= fN c)%nat -> continuous_on (D k) t0 t1 /\ lipschitz_on (D k) t0 t1) by (intros; split; auto).
  assert (CS : forall s i, (s < fN c)%nat -> (i <= fM c)%nat -> continuous_on (pcoef E (Q s) s i) t0 t1) by (intros; now apply HS).
  destruct (C131_exists c E D N_ang ws mus cc (fun s j t => pcoef E (Q s) s j t) st (fun a s j => pcoef E (psi a s) s j t0) t0 t1) as (V & HV & H0); auto.
  set (B := space_bound c E h K sg t0 t1).
  assert (DV : distance c E N_ang ws psi V t1 <= B) by (apply (C120_rate c E D N_ang ws mus cc Q psi t0 t1 st V h K sg); auto).
  assert (NF : 0 <= INR (fN c) * INR (fM c + 1)) by (apply Rmult_le_pos; apply pos_INR).
  destruct (C184_slab T c E D N_ang ws mus cc (fun s j t => pcoef E (Q s) s j t) st st V t0 t1 HT Hg HN Hle MO LD' HS Hst HV) as (C & d0 & PC & Pd & R1).
  exists (2 * (INR (fN c) * INR (fM c + 1)) * C ^ 2 + 1), d0. split; [assert (0 <= 2 * (INR (fN c) * INR (fM c + 1)) * C ^ 2) by (apply Rmult_le_pos; [lra|apply pow2_ge_0]); lra|]. split; auto.
  intros d hs y Hd Hhs Ht Hy Hy0 y' Hrun.
  assert (CL : forall a s i, (a < N_ang)%nat -> (s < fN c)%nat -> (i <= fM c)%nat -> Rabs (y' (a, s, i) - V a s i t1) <= C * d).
  { intros a s i Ha Hs' Hi. rewrite <- Ht. replace (C * d) with (C * (0 + d)) by ring. apply (R1 d 0 hs y y'); auto; try lra.
    intros b k j Hb Hk Hj. rewrite Hy0, H0 by auto. rewrite Rminus_eq_0, Rabs_R0. lra. }
  eapply Rle_trans; [apply (distance_near c E D N_ang ws mus cc Q psi t0 t1 V (fun a s j _ => y' (a, s, j)) t1 1 HX (Hinc t1 ltac:(lra)) Hw ltac:(lra))|].
  pose proof (energy_small c N_ang ws (fun k => E k t1) (fun a s j => y' (a, s, j) - V a s j t1) (C * d) (Hinc t1 ltac:(lra)) Hw H1 CL) as EN.
  replace ((C * d) ^ 2) with (C ^ 2 * d ^ 2) in EN by ring.
  assert (0 <= d ^ 2) by (apply pow_le; lra). rewrite Rinv_1.
  replace ((2 * (INR (fN c) * INR (fM c + 1)) * C ^ 2 + 1) * d ^ 2) with (2 * (INR (fN c) * INR (fM c + 1) * (C ^ 2 * d ^ 2)) + d ^ 2) by ring.
  lra.
Qed.
Print Assumptions C185_slab.

(** the same with a material *)
Theorem C185_coupled : forall T c E D N_ang ws mus cc c_a l Q psi mat t0 t1 st ste h K sg,
  consistent T -> fgeom c = Slab -> (2 <= fN c)%nat -> t0 <= t1 -> mesh_c1 c E D -> (forall t, t0 <= t <= t1 -> increasing (fN c) (fun k => E k t)) ->
  (forall k, (k <= fN c)%nat -> lipschitz_on (D k) t0 t1) ->
  (forall s i, (s < fN c)%nat -> (i <= fM c)%nat -> continuous_on (pcoef E (Q s) s i) t0 t1 /\ lipschitz_on (pcoef E (Q s) s i) t0 t1) -> steady c t0 t1 ->
  exact_coupled c E D N_ang ws mus cc c_a l Q psi mat t0 t1 ->
  inflow_exact c E D (S N_ang) (with_mat N_ang mus 0) (with_mat N_ang psi mat) t0 t1 ->
  (forall a, (a < N_ang)%nat -> 0 <= ws a) -> sumn N_ang ws = 1 -> 0 <= c_a -> cc + c_a <= 1 -> 0 < l ->
  (forall t s, t0 <= t <= t1 -> (s < fN c)%nat -> E (S s) t - E s t <= h) ->
  (forall a s t x k, (a < S N_ang)%nat -> (s < fN c)%nat -> t0 <= t <= t1 -> E s t <= x <= E (S s) t -> (k <= S (fM c))%nat -> ex_derive_n (fun y => with_mat N_ang psi mat a s y t) k x) ->
  (forall a s t x, (a < S N_ang)%nat -> (s < fN c)%nat -> t0 <= t <= t1 -> E s t <= x <= E (S s) t -> Rabs (Derive_n (fun y => with_mat N_ang psi mat a s y t) (S (fM c)) x) <= K) ->
  (forall a f t, (a < S N_ang)%nat -> (f <= fN c)%nat -> t0 <= t <= t1 -> Rabs (with_mat N_ang mus 0 a - D f t) <= sg) ->
  exists C d0, 0 < C /\ 0 < d0 /\ forall d hs y, 0 <= d <= d0 -> (forall h, In h hs -> 0 <= h <= d) -> t0 + total hs = t1 ->
    vector (S N_ang) (fN c) (fM c) y ->
    (forall a s j, (a < S N_ang)%nat -> (s < fN c)%nat -> (j <= fM c)%nat -> y (a, s, j) = pcoef E (with_mat N_ang psi mat a s) s j t0) ->
    forall y', rk_run T (coupledR c E D N_ang ws mus cc c_a l (fun s j t => pcoef E (Q s) s j t) st ste) t0 y hs y' ->
    distance c E (S N_ang) (with_mat N_ang ws (1 / 4)) (with_mat N_ang psi mat) (fun a s j _ => y' (a, s, j)) t1 <= 2 * coupled_bound c E h K sg t0 t1 + C * d ^ 2.
Proof.
  intros T c E D N_ang ws mus cc c_a l Q psi mat t0 t1 st ste h K sg HT Hg HN Hle HM Hinc LD HS Hst HX HI Hw H1 Hca Hcc Hl Hh Hs HK Hsg.
  assert (MO : mesh_ok c E D t0 t1) by (intros t Ht; split; [now apply Hinc|intros k Hk; apply (HM k Hk t)]).
  assert (CD : forall k, (k <= fN c)%nat -> continuous_on (D k) t0 t1) by (intros k Hk w Hw'; now apply HM).
  assert (LD' : forall k, (k <= fN c)%nat -> continuous_on (D k) t0 t1 /\ lipschitz_on (D k) t0 t1) by (intros; split; auto).
  assert (CS : forall s i, (s < fN c)%nat -> (i <= fM c)%nat -> continuous_on (pcoef E (Q s) s i) t0 t1) by (intros; now apply HS).
  destruct (C131_coupled_exists c E D N_ang ws mus cc c_a l (fun s j t => pcoef E (Q s) s j t) st ste (fun a s j => pcoef E (psi a s) s j t0) (fun s j => pcoef E (mat s) s j t0) t0 t1) as (V & ee & HV & H0); auto.
  set (B := coupled_bound c E h K sg t0 t1). set (J := with_mat N_ang V ee).
  assert (DV : distance c E (S N_ang) (with_mat N_ang ws (1 / 4)) (with_mat N_ang psi mat) J t1 <= B).
  { apply (C155_rate c E D N_ang ws mus cc c_a l Q psi mat t0 t1 st ste V ee h K sg); auto. }
  assert (NF : 0 <= INR (fN c) * INR (fM c + 1)) by (apply Rmult_le_pos; apply pos_INR).
  assert (It1 := Hinc t1 ltac:(lra)).
  destruct (C184_coupled T c E D N_ang ws mus cc c_a l (fun s j t => pcoef E (Q s) s j t) st ste st ste V ee t0 t1 HT Hg HN Hle MO LD' HS Hst HV) as (C & d0 & PC & Pd & R1).
  exists (5 / 2 * (INR (fN c) * INR (fM c + 1)) * C ^ 2 + 1), d0. split; [assert (0 <= 5 / 2 * (INR (fN c) * INR (fM c + 1)) * C ^ 2) by (apply Rmult_le_pos; [lra|apply pow2_ge_0]); lra|]. split; auto.
  intros d hs y Hd Hhs Ht Hy Hy0 y' Hrun.
  assert (CL : forall a s i, (a < S N_ang)%nat -> (s < fN c)%nat -> (i <= fM c)%nat -> Rabs (y' (a, s, i) - J a s i t1) <= C * d).
  { intros a s i Ha Hs' Hi. destruct (R1 d 0 hs y y') with (s := s) (i := i) as [K1 K2]; auto; try lra.
    - intros k j Hk Hj. destruct (H0 k j) as [Z1 Z2]. split.
      + rewrite Hy0, with_mat_A, Z1 by auto. rewrite Rminus_eq_0, Rabs_R0. lra.
      + intros b Hb. rewrite Hy0, with_mat_lt, Z2 by auto. rewrite Rminus_eq_0, Rabs_R0. lra.
    - rewrite <- Ht. replace (C * d) with (C * (0 + d)) by ring. unfold J, with_mat. destruct (Nat.eqb_spec a N_ang) as [->|N]; [exact K1|apply K2; lia]. }
  eapply Rle_trans; [apply (coupled_near c E D N_ang ws mus cc c_a l Q psi mat t0 t1 HN HX Hw t1 It1 J (fun a s j _ => y' (a, s, j)) 1 ltac:(lra))|].
  pose proof (coupled_small c N_ang ws (fun k => E k t1) (fun a s j => y' (a, s, j) - J a s j t1) (C * d) It1 Hw H1 CL) as EN.
  replace ((C * d) ^ 2) with (C ^ 2 * d ^ 2) in EN by ring.
  assert (0 <= d ^ 2) by (apply pow_le; lra). rewrite Rinv_1.
  replace ((5 / 2 * (INR (fN c) * INR (fM c + 1)) * C ^ 2 + 1) * d ^ 2) with (5 / 2 * (INR (fN c) * INR (fM c + 1) * (C ^ 2 * d ^ 2)) + d ^ 2) by ring.
  lra.
Qed.
Print Assumptions C185_coupled.

(** When the source coefficients are Lipschitz in time: if the source is, in place and time. *)
Lemma pcoef_form (q : R -> R) i a b : a < b -> (forall x, continuous q x) ->
  RInt (fun x => q x * basis Slab i x a b) a b = sqrt ((2 * INR i + 1) / (b - a)) * ((b - a) / 2) * RInt (fun z => q ((b - a) / 2 * z + (a + b) / 2) * leg i z) (-1) 1.
Proof.
  intros Hlt Hq. symmetry. eapply int_uniq2; [|apply int_val; intros; apply cmult; auto; apply basis_cont; exact Hlt].
  assert (I1 : is_RInt (fun z => q ((b - a) / 2 * z + (a + b) / 2) * leg i z) (-1) 1 (RInt (fun z => q ((b - a) / 2 * z + (a + b) / 2) * leg i z) (-1) 1)).
  { apply int_val. intros z. apply cmult; [|apply leg_cont]. apply (ccomp q (fun z => (b - a) / 2 * z + (a + b) / 2)); auto. apply cplus; [apply cmult; [apply cconst|apply cid]|apply cconst]. }
  set (W := RInt (fun z => q ((b - a) / 2 * z + (a + b) / 2) * leg i z) (-1) 1) in *.
  assert (I2 := int_val (fun x => q x * basis Slab i x a b) a b ltac:(intros; apply cmult; auto; apply basis_cont; exact Hlt)).
  assert (I3 := int_affine (fun x => q x * basis Slab i x a b) ((b - a) / 2) ((a + b) / 2) (-1) 1 (RInt (fun x => q x * basis Slab i x a b) a b)).
  replace ((b - a) / 2 * -1 + (a + b) / 2) with a in I3 by field. replace ((b - a) / 2 * 1 + (a + b) / 2) with b in I3 by field. specialize (I3 I2).
  assert (I4 := int_scal _ (sqrt ((2 * INR i + 1) / (b - a)) * ((b - a) / 2)) _ _ _ I1).
  replace (sqrt ((2 * INR i + 1) / (b - a)) * ((b - a) / 2) * W) with (RInt (fun x => q x * basis Slab i x a b) a b); [exact I2|].
  eapply int_uniq2; [exact I3|]. eapply int_ext; [|exact I4]. intros z. cbv beta. cbn [basis].
  replace (refz ((b - a) / 2 * z + (a + b) / 2) a b) with z by (unfold refz; field; lra).
  ring.
Qed.
Theorem C185_source : forall c E D Q t0 t1 L s i, (s < fN c)%nat -> t0 <= t1 -> mesh_ok c E D t0 t1 -> (forall k, (k <= fN c)%nat -> lipschitz_on (D k) t0 t1) -> 0 <= L ->
  (forall x y w t, t0 <= w <= t1 -> t0 <= t <= t1 -> Rabs (Q s x w - Q s y t) <= L * (Rabs (x - y) + Rabs (w - t))) ->
  lipschitz_on (pcoef E (Q s) s i) t0 t1.
Proof.
  intros c E D Q t0 t1 L s i Hs Hle HM HD PL HQ. change (Lp t0 t1 (pcoef E (Q s) s i)).
  pose proof (E_Lp c E D t0 t1 Hle HM HD s ltac:(lia)) as Ea. pose proof (E_Lp c E D t0 t1 Hle HM HD (S s) ltac:(lia)) as Eb.
  assert (LT : forall t, t0 <= t <= t1 -> E s t < E (S s) t) by (intros t Ht; now apply HM).
  assert (CQ : forall t, t0 <= t <= t1 -> forall x, continuous (fun y => Q s y t) x).
  { intros t Ht x. apply continuity_pt_filterlim. intros e He. exists (e / (L + 1)). split; [apply Rdiv_lt_0_compat; lra|].
    intros y [_ Hy]. cbn in *. unfold R_dist in *. eapply Rle_lt_trans; [apply HQ; auto|]. rewrite Rminus_eq_0, Rabs_R0, Rplus_0_r.
    pose proof (Rabs_pos (y - x)). apply Rle_lt_trans with ((L + 1) * Rabs (y - x)); [lra|].
    apply Rlt_le_trans with ((L + 1) * (e / (L + 1))); [apply Rmult_lt_compat_l; lra|right; field; lra]. }
  assert (W1 : Lp t0 t1 (fun t => (E (S s) t - E s t) / 2)) by (apply (Lp_div t0 t1 Hle); [now apply Lp_minus|apply Lp_const|intros; lra]).
  assert (W2 : Lp t0 t1 (fun t => (E s t + E (S s) t) / 2)) by (apply (Lp_div t0 t1 Hle); [now apply Lp_plus|apply Lp_const|intros; lra]).
  set (W := fun t => RInt (fun z => Q s ((E (S s) t - E s t) / 2 * z + (E s t + E (S s) t) / 2) t * leg i z) (-1) 1).
  assert (LW : Lp t0 t1 W).
  { destruct W1 as (L1 & P1 & H1). destruct W2 as (L2 & P2 & H2). exists (2 * (L * (L1 + L2 + 1))). split; [repeat apply Rmult_le_pos; lra|].
    intros u t Hu Ht. specialize (H1 u t Hu Ht). specialize (H2 u t Hu Ht).
    assert (IW : forall v, t0 <= v <= t1 -> is_RInt (fun z => Q s ((E (S s) v - E s v) / 2 * z + (E s v + E (S s) v) / 2) v * leg i z) (-1) 1 (W v)).
    { intros v Hv. apply int_val. intros z. apply cmult; [|apply leg_cont]. apply (ccomp (fun y => Q s y v) (fun z => (E (S s) v - E s v) / 2 * z + (E s v + E (S s) v) / 2)).
      - apply cplus; [apply cmult; [apply cconst|apply cid]|apply cconst].
      - now apply CQ. }
    replace (2 * (L * (L1 + L2 + 1)) * Rabs (u - t)) with ((1 - -1) * (L * (L1 + L2 + 1) * Rabs (u - t))) by ring.
    eapply (int_abs_le _ (-1) 1); [lra| |exact (is_RInt_minus _ _ _ _ _ _ (IW u Hu) (IW t Ht))].
    intros z Hz. cbv beta. match goal with |- Rabs ?e <= _ => change e with (Q s ((E (S s) u - E s u) / 2 * z + (E s u + E (S s) u) / 2) u * leg i z - Q s ((E (S s) t - E s t) / 2 * z + (E s t + E (S s) t) / 2) t * leg i z) end.
    rewrite <- Rmult_minus_distr_r, Rabs_mult. rewrite <- (Rmult_1_r (L * (L1 + L2 + 1) * Rabs (u - t))).
    apply Rmult_le_compat; try apply Rabs_pos; [|apply leg_bound; lra].
    eapply Rle_trans; [apply HQ; auto|]. rewrite Rmult_assoc. apply Rmult_le_compat_l; auto.
    match goal with |- Rabs (?p * z + ?m - (?p' * z + ?m')) + _ <= _ => replace (p * z + m - (p' * z + m')) with ((p - p') * z + (m - m')) by ring end.
    eapply Rle_trans; [apply Rplus_le_compat_r, Rabs_triang|]. rewrite Rabs_mult.
    assert (Rabs z <= 1) by (apply Rabs_le; lra).
    match goal with |- Rabs ?p * Rabs z + _ + _ <= _ => assert (Rabs p * Rabs z <= Rabs p * 1) by (apply Rmult_le_compat_l; [apply Rabs_pos|auto]) end. lra. }
  apply (Lp_ext t0 t1 (fun t => sqrt ((2 * INR i + 1) / (E (S s) t - E s t)) * ((E (S s) t - E s t) / 2) * W t)).
  - intros t Ht. symmetry. unfold pcoef, W. apply (pcoef_form (fun x => Q s x t)); [now apply LT|now apply CQ].
  - apply (Lp_mult t0 t1 Hle); auto. apply (Lp_mult t0 t1 Hle); auto. apply (Lp_sqrt t0 t1 Hle).
    + apply (Lp_div t0 t1 Hle); [apply Lp_const|now apply Lp_minus|]. intros t Ht. specialize (LT t Ht). lra.
    + intros t Ht. specialize (LT t Ht). pose proof (pos_INR i). apply Rdiv_lt_0_compat; lra.
Qed.
Print Assumptions C185_source.

(** the wave of [C121_front] on its moving mesh, whose cells carry it exactly: with RK45 the squared distance at time 3 is at
    most a constant times the square of the longest step *)
Example C185_front : forall st, exists C d0, 0 < d0 /\ forall d hs y, 0 <= d <= d0 -> (forall h, In h hs -> 0 <= h <= d) -> 0 + total hs = 3 ->
  vector 1 2 1 y -> (forall a s j, (a < 1)%nat -> (s < 2)%nat -> (j <= 1)%nat -> y (a, s, j) = pcoef xE (xpsi a s) s j 0) ->
  forall y', rk_run rk45 (slabR xC xE xD 1 (fun _ => 1) (fun _ => 1) (1 / 2) (fun s j t => pcoef xE (xQ s) s j t) st) 0 y hs y' ->
  distance xC xE 1 (fun _ => 1) xpsi (fun a s j _ => y' (a, s, j)) 3 <= C * d ^ 2.
Proof.
  intros st.
  destruct (C185_slab rk45 xC xE xD 1 (fun _ => 1) (fun _ => 1) (1 / 2) xQ xpsi 0 3 st 4 0 1) as (C & d0 & PC & Pd & H); auto.
  - apply rk45_ok.
  - lra.
  - apply xD_mesh.
  - intros t Ht. apply xE_inc. lra.
  - intros k Hk. exact (Lp_const 0 3 (INR k)).
  - intros s i Hs Hi. split.
    2: { apply (C185_source xC xE xD xQ 0 3 1); auto; try lra.
         - intros t Ht. split; [apply xE_inc; lra|]. intros k Hk. apply (xD_mesh k Hk t).
         - intros k Hk. exact (Lp_const 0 3 (INR k)).
         - intros x y w t _ _. unfold xQ. pose proof (Rabs_pos (x - y)). pose proof (Rabs_pos (w - t)). destruct (s =? 0)%nat; [replace (2 + x - (2 + y)) with (x - y) by ring; lra|rewrite Rminus_eq_0, Rabs_R0; lra]. }
    intros t Ht. apply (ex_derive_continuous (pcoef xE (xQ s) s i)).
    destruct (leibniz (xE s) (xE (S s)) (xD s) (xD (S s)) (xQ s) (fun _ _ => if (s =? 0)%nat then 1 else 0) (fun _ _ => 0)) with (i := i) (t := t) as (I1 & I2 & _ & _ & K).
    + intros w. apply xD_mesh. lia.
    + intros w. apply xD_mesh. cbn in *. lia.
    + intros x w. unfold xQ. split; [|split; [|split]]; try apply continuity_2d_pt_const; destruct (s =? 0)%nat; try apply dd_const.
      eapply dd_eq; [apply dd_plus; [apply dd_const|apply dd_id]|]. cbv beta. match goal with |- ?a = ?b => change (@eq R a b) end. ring.
    + apply (xE_inc t ltac:(lra) s). exact Hs.
    + eexists. exact K.
  - apply C131_steady_when. right. split; [reflexivity|left; reflexivity].
  - apply x_exact.
  - apply x_inflow.
  - intros; lra.
  - cbn. ring.
  - lra.
  - intros t s Ht Hs. unfold xE. rewrite S_INR. lra.
  - intros a s t x k _ _ _ _ Hk. unfold xpsi. destruct (s =? 0)%nat.
    + apply (ex_derive_n_ext (fun y => y ^ 1)); [intros; ring|apply ex_derive_n_pow].
    + apply ex_derive_n_const.
  - intros a s t x _ _ _ _. cbn [fM xC]. replace (Derive_n (fun y => xpsi a s y t) 2 x) with 0; [rewrite Rabs_R0; lra|].
    symmetry. unfold xpsi. destruct (s =? 0)%nat.
    + change (Derive (Derive (fun y => y)) x = 0). rewrite (Derive_ext _ (fun _ => 1)) by (intros; apply Derive_id). apply Derive_const.
    + apply (Derive_n_const 1).
  - intros a f t _ Hf _. unfold xD. cbn in Hf. destruct f as [|[|[|f]]]; cbn; try lia; unfold Rabs; destruct (Rcase_abs _); lra.
  - exists C, d0. split; auto. intros d hs y Hd Hh Ht Hy Hy0 y' Hr. specialize (H d hs y Hd Hh Ht Hy Hy0 y' Hr).
    unfold space_bound in H. replace (2 * (0 * 4 ^ S (fM xC) / INR (fact (S (fM xC)))) ^ 2) with 0 in H by (unfold Rdiv; rewrite Rmult_0_l; ring). lra.
Qed.
