(** C147: the numbers the time integration produces against the exact solution of the transport equation: the two errors
    together. *)
From Coquelicot Require Import Coquelicot.
From Verif Require Import Py PyLemmas Calc Legendre DGModel DGSpec DGProofs DGInt FuncLobatto StabSpec StabProofs ErrSpec ErrLeib ErrProofs ErrEnergy ErrApprox ErrThms ExistSpec ExistProofs ExistThms TimeModel TimeProofs TimeThms TimeOrder TimeOrderThms.

Lemma distance_near c E D N_ang ws mus cc Q psi t0 t1 (V W : nat -> nat -> nat -> R -> R) t th : exact c E D N_ang ws mus cc Q psi t0 t1 -> increasing (fN c) (fun k => E k t) ->
  (forall a, (a < N_ang)%nat -> 0 <= ws a) -> 0 < th ->
  distance c E N_ang ws psi W t <= (1 + th) * distance c E N_ang ws psi V t + (1 + / th) * energy c N_ang ws (fun k => E k t) (fun a s j => W a s j t - V a s j t).
Proof.
  intros HX He Hw Hth. unfold distance, energy, normsq. rewrite <- !sumn_scal, <- sumn_plus. apply sumn_le. intros a Ha.
  match goal with |- _ <= (1 + th) * (ws a * ?x) + (1 + / th) * (ws a * ?y) => replace ((1 + th) * (ws a * x) + (1 + / th) * (ws a * y)) with (ws a * ((1 + th) * x + (1 + / th) * y)) by ring end.
  apply Rmult_le_compat_l; [auto|]. rewrite <- !sumn_scal, <- sumn_plus. apply sumn_le. intros s Hs.
  assert (Hlt := He s Hs). cbv beta in Hlt.
  assert (Cp : forall y, continuous (fun x => psi a s x t) y).
  { intros y. destruct (ex_eq _ _ _ _ _ _ _ _ _ _ _ HX a s Ha Hs) as (fx & ft & C & _). apply (c1_cont _ _ _ _ _ C). }
  set (A := E s t) in *. set (B := E (S s) t) in *.
  set (fv := fun x => field Slab (fM c) (fun j => V a s j t) A B x). set (fw := fun x => field Slab (fM c) (fun j => W a s j t) A B x).
  assert (CV : forall y, continuous fv y) by (intros; apply field_cont; auto).
  assert (CW : forall y, continuous fw y) by (intros; apply field_cont; auto).
  assert (I1 : is_RInt (fun x => (fw x - psi a s x t) ^ 2) A B (RInt (fun x => (fw x - psi a s x t) ^ 2) A B)) by (apply int_val; intros; apply cpow, cminus; auto).
  assert (I2 : is_RInt (fun x => (fw x - fv x) ^ 2) A B (RInt (fun x => field Slab (fM c) (fun j => W a s j t - V a s j t) A B x ^ 2) A B)).
  { apply (int_ext (fun x => field Slab (fM c) (fun j => W a s j t - V a s j t) A B x ^ 2)).
    - intros x. now rewrite (field_minus (fM c) (fun j => W a s j t) (fun j => V a s j t) A B x).
    - apply int_val. intros y. apply (cpow (fun x => field Slab (fM c) (fun j => W a s j t - V a s j t) A B x)), field_cont; auto. }
  assert (I3 : is_RInt (fun x => (fv x - psi a s x t) ^ 2) A B (RInt (fun x => (fv x - psi a s x t) ^ 2) A B)) by (apply int_val; intros; apply cpow, cminus; auto).
  eapply (is_RInt_le _ _ A B _ _ (Rlt_le _ _ Hlt) I1); [apply int_plus; apply int_scal; [exact I3|exact I2]|].
  intros x _. cbv beta. set (p := fv x - psi a s x t). set (q := fw x - fv x).
  replace (fw x - psi a s x t) with (p + q) by (unfold p, q; ring).
  assert (0 <= (th * p - q) ^ 2 * / th) by (apply Rmult_le_pos; [apply pow2_ge_0|left; now apply Rinv_0_lt_compat]).
  replace ((th * p - q) ^ 2 * / th) with (th * p ^ 2 - 2 * p * q + / th * q ^ 2) in H by (field; lra). nra.
Qed.
(** coefficients within e of each other *)
Lemma energy_small c N_ang ws e (u : nat -> nat -> nat -> R) d : increasing (fN c) e -> (forall a, (a < N_ang)%nat -> 0 <= ws a) -> sumn N_ang ws = 1 ->
  (forall a s j, (a < N_ang)%nat -> (s < fN c)%nat -> (j <= fM c)%nat -> Rabs (u a s j) <= d) ->
  energy c N_ang ws e u <= INR (fN c) * INR (fM c + 1) * d ^ 2.
Proof.
  intros He Hw H1 Hu. unfold energy. replace (INR (fN c) * INR (fM c + 1) * d ^ 2) with (sumn N_ang (fun a => ws a * (INR (fN c) * INR (fM c + 1) * d ^ 2))) by (rewrite sumn_scal_r, H1; ring).
  apply sumn_le. intros a Ha. apply Rmult_le_compat_l; [auto|]. rewrite normsq_coef by exact He.
  assert (K : forall n f b, (forall i, (i < n)%nat -> f i <= b) -> sumn n f <= INR n * b).
  { induction n as [|n IH]; intros f b Hf; [cbn; lra|]. rewrite S_INR. cbn [sumn]. specialize (IH f b ltac:(intros; apply Hf; lia)). specialize (Hf n ltac:(lia)). lra. }
  rewrite Rmult_assoc. apply K. intros s Hs. apply K. intros i Hi. rewrite <- pow2_abs. apply pow_incr. split; [apply Rabs_pos|apply Hu; auto; lia].
Qed.

(** the bound of [C120_rate] *)
Definition space_bound (c : flux_cfg) (E : nat -> R -> R) (h K sg t0 t1 : R) : R :=
  2 * (K * h ^ S (fM c) / INR (fact (S (fM c)))) ^ 2 * ((INR (fN c) + 1) * sg * Cend (fM c) ^ 2 * (t1 - t0) + (E (fN c) t1 - E 0%nat t1)).

(** A moving mesh, any consistent method: with steps short enough the distance of the numbers computed from the exact
    solution exceeds the bound of [C120_rate] by as little as wanted. *)
Theorem C147_moving_mesh : forall T c E D N_ang ws mus cc Q psi t0 t1 st h K sg,
  consistent T -> fgeom c = Slab -> (2 <= fN c)%nat -> t0 <= t1 -> mesh_c1 c E D -> (forall t, t0 <= t <= t1 -> increasing (fN c) (fun k => E k t)) ->
  (forall s i, (s < fN c)%nat -> (i <= fM c)%nat -> continuous_on (pcoef E (Q s) s i) t0 t1) -> steady c t0 t1 ->
  exact c E D N_ang ws mus cc Q psi t0 t1 -> inflow_exact c E D N_ang mus psi t0 t1 ->
  (forall a, (a < N_ang)%nat -> 0 <= ws a) -> sumn N_ang ws = 1 -> 0 <= cc <= 1 ->
  (forall t s, t0 <= t <= t1 -> (s < fN c)%nat -> E (S s) t - E s t <= h) ->
  (forall a s t x k, (a < N_ang)%nat -> (s < fN c)%nat -> t0 <= t <= t1 -> E s t <= x <= E (S s) t -> (k <= S (fM c))%nat -> ex_derive_n (fun y => psi a s y t) k x) ->
  (forall a s t x, (a < N_ang)%nat -> (s < fN c)%nat -> t0 <= t <= t1 -> E s t <= x <= E (S s) t -> Rabs (Derive_n (fun y => psi a s y t) (S (fM c)) x) <= K) ->
  (forall a f t, (a < N_ang)%nat -> (f <= fN c)%nat -> t0 <= t <= t1 -> Rabs (mus a - D f t) <= sg) ->
  forall eps, 0 < eps -> exists delta, 0 < delta /\ forall hs y, (forall h, In h hs -> 0 <= h <= delta) -> t0 + total hs = t1 ->
    vector N_ang (fN c) (fM c) y -> (forall a s j, (a < N_ang)%nat -> (s < fN c)%nat -> (j <= fM c)%nat -> y (a, s, j) = pcoef E (psi a s) s j t0) ->
    let F := slabR c E D N_ang ws mus cc (fun s j t => pcoef E (Q s) s j t) st in
    (exists y', rk_run T F t0 y hs y') /\
    forall y', rk_run T F t0 y hs y' -> distance c E N_ang ws psi (fun a s j _ => y' (a, s, j)) t1 <= space_bound c E h K sg t0 t1 + eps.
Proof.
  intros T c E D N_ang ws mus cc Q psi t0 t1 st h K sg HT Hg HN Hle HM Hinc HS Hst HX HI Hw H1 Hc Hh Hs HK Hsg eps He.
  assert (MO : mesh_ok c E D t0 t1) by (intros t Ht; split; [now apply Hinc|intros k Hk; apply (HM k Hk t)]).
  assert (CD : forall k, (k <= fN c)%nat -> continuous_on (D k) t0 t1) by (intros k Hk w Hw'; now apply HM).
  destruct (C131_exists c E D N_ang ws mus cc (fun s j t => pcoef E (Q s) s j t) st (fun a s j => pcoef E (psi a s) s j t0) t0 t1) as (V & HV & H0); auto.
  set (B := space_bound c E h K sg t0 t1).
  assert (DV : distance c E N_ang ws psi V t1 <= B) by (apply (C120_rate c E D N_ang ws mus cc Q psi t0 t1 st V h K sg); auto).
  assert (NF : 0 <= INR (fN c) * INR (fM c + 1)) by (apply Rmult_le_pos; apply pos_INR).
  assert (D0 : 0 <= distance c E N_ang ws psi V t1).
  { unfold distance. apply sumn_nonneg. intros a Ha. apply Rmult_le_pos; [auto|]. apply sumn_nonneg. intros s Hs'. assert (Hlt := Hinc t1 ltac:(lra) s Hs'). cbv beta in Hlt.
    apply RInt_ge_0; [lra| |intros; apply pow2_ge_0]. eexists. apply int_val. intros y. apply cpow, cminus; [apply field_cont; auto|].
    destruct (ex_eq _ _ _ _ _ _ _ _ _ _ _ HX a s Ha Hs') as (fx & ft & C & _). apply (c1_cont _ _ _ _ _ C). }
  set (th := eps / (2 * (B + 1))). assert (Th : 0 < th) by (unfold th; apply Rdiv_lt_0_compat; lra).
  set (G := (1 + / th) * (INR (fN c) * INR (fM c + 1)) + 1).
  assert (Ti : 0 < / th) by now apply Rinv_0_lt_compat.
  assert (PG : 1 <= G) by (unfold G; assert (0 <= (1 + / th) * (INR (fN c) * INR (fM c + 1))) by (apply Rmult_le_pos; lra); lra).
  set (e := sqrt (eps / (2 * G))). assert (Pe : 0 < e) by (apply sqrt_lt_R0, Rdiv_lt_0_compat; lra).
  destruct (C138_slab T c E D N_ang ws mus cc (fun s j t => pcoef E (Q s) s j t) st st V t0 t1 HT Hg HN Hle MO CD HS Hst HV e Pe) as (d1 & P1 & R1).
  destruct (proj1 (C138_runs_exist T c E D N_ang ws mus cc 0 0 (fun s j t => pcoef E (Q s) s j t) st (fun t s => st t s s) t0 t1 HT Hg HN Hle MO CD HS Hst)) as (d2 & P2 & R2).
  exists (Rmin d1 d2). split; [now apply Rmin_pos|]. intros hs y Hhs Ht Hy Hy0 F.
  split.
  { destruct (R2 hs t0 y) as (z & Hz & _); [lra|intros x Hx; specialize (Hhs x Hx); pose proof (Rmin_r d1 d2); lra|lra|]. exists z. exact Hz. }
  intros y' Hrun.
  assert (CL : forall a s i, (a < N_ang)%nat -> (s < fN c)%nat -> (i <= fM c)%nat -> Rabs (y' (a, s, i) - V a s i t1) <= e).
  { intros a s i Ha Hs' Hi. rewrite <- Ht. apply (R1 hs y y'); auto.
    - intros x Hx. specialize (Hhs x Hx). pose proof (Rmin_l d1 d2). lra.
    - lra.
    - intros b k j Hb Hk Hj. rewrite Hy0, H0 by auto. rewrite Rminus_eq_0, Rabs_R0. lra. }
  eapply Rle_trans; [apply (distance_near c E D N_ang ws mus cc Q psi t0 t1 V (fun a s j _ => y' (a, s, j)) t1 th HX (Hinc t1 ltac:(lra)) Hw Th)|].
  pose proof (energy_small c N_ang ws (fun k => E k t1) (fun a s j => y' (a, s, j) - V a s j t1) e (Hinc t1 ltac:(lra)) Hw H1 CL) as EN.
  assert (e2 : e ^ 2 = eps / (2 * G)) by (unfold e; rewrite <- Rsqr_pow2; apply Rsqr_sqrt; left; apply Rdiv_lt_0_compat; lra).
  rewrite e2 in EN.
  assert (S1 : (1 + / th) * energy c N_ang ws (fun k => E k t1) (fun a s j => y' (a, s, j) - V a s j t1) <= eps / 2).
  { apply Rle_trans with ((1 + / th) * (INR (fN c) * INR (fM c + 1) * (eps / (2 * G)))); [apply Rmult_le_compat_l; lra|].
    replace ((1 + / th) * (INR (fN c) * INR (fM c + 1) * (eps / (2 * G)))) with ((G - 1) * (eps / (2 * G))) by (unfold G; ring).
    replace (eps / 2) with (G * (eps / (2 * G))) by (field; lra). apply Rmult_le_compat_r; [left; apply Rdiv_lt_0_compat; lra|lra]. }
  assert (S2 : th * distance c E N_ang ws psi V t1 <= eps / 2).
  { apply Rle_trans with (th * (B + 1)); [apply Rmult_le_compat_l; lra|]. unfold th. right. field. lra. }
  lra.
Qed.
Print Assumptions C147_moving_mesh.

(** A mesh at rest, a source constant in time, a method of order p: twice that bound plus a multiple of the step length
    to the power 2p. *)
Theorem C147_mesh_at_rest : forall T p c E D N_ang ws mus cc Q psi t0 t1 st h K sg,
  consistent T -> order_linear T p -> fgeom c = Slab -> (2 <= fN c)%nat -> t0 <= t1 -> mesh_c1 c E D -> (forall t, t0 <= t <= t1 -> increasing (fN c) (fun k => E k t)) ->
  at_rest c D (fun s i t => pcoef E (Q s) s i t) t0 t1 -> steady c t0 t1 ->
  exact c E D N_ang ws mus cc Q psi t0 t1 -> inflow_exact c E D N_ang mus psi t0 t1 ->
  (forall a, (a < N_ang)%nat -> 0 <= ws a) -> sumn N_ang ws = 1 -> 0 <= cc <= 1 ->
  (forall t s, t0 <= t <= t1 -> (s < fN c)%nat -> E (S s) t - E s t <= h) ->
  (forall a s t x k, (a < N_ang)%nat -> (s < fN c)%nat -> t0 <= t <= t1 -> E s t <= x <= E (S s) t -> (k <= S (fM c))%nat -> ex_derive_n (fun y => psi a s y t) k x) ->
  (forall a s t x, (a < N_ang)%nat -> (s < fN c)%nat -> t0 <= t <= t1 -> E s t <= x <= E (S s) t -> Rabs (Derive_n (fun y => psi a s y t) (S (fM c)) x) <= K) ->
  (forall a f t, (a < N_ang)%nat -> (f <= fN c)%nat -> t0 <= t <= t1 -> Rabs (mus a - D f t) <= sg) ->
  exists C d0, 0 < C /\ 0 < d0 /\ forall d hs y, 0 <= d <= d0 -> (forall h, In h hs -> 0 <= h <= d) -> t0 + total hs = t1 ->
    vector N_ang (fN c) (fM c) y -> (forall a s j, (a < N_ang)%nat -> (s < fN c)%nat -> (j <= fM c)%nat -> y (a, s, j) = pcoef E (psi a s) s j t0) ->
    forall y', rk_run T (slabR c E D N_ang ws mus cc (fun s j t => pcoef E (Q s) s j t) st) t0 y hs y' ->
    distance c E N_ang ws psi (fun a s j _ => y' (a, s, j)) t1 <= 2 * space_bound c E h K sg t0 t1 + C * d ^ (2 * p).
Proof.
  intros T p c E D N_ang ws mus cc Q psi t0 t1 st h K sg HT HP Hg HN Hle HM Hinc HR Hst HX HI Hw H1 Hc Hh Hs HK Hsg.
  assert (MO : mesh_ok c E D t0 t1) by (intros t Ht; split; [now apply Hinc|intros k Hk; apply (HM k Hk t)]).
  assert (CD : forall k, (k <= fN c)%nat -> continuous_on (D k) t0 t1) by (intros k Hk w Hw'; now apply HM).
  pose proof HR as (RD & RS & R4).
  set (S0 := fun s j (_ : R) => pcoef E (Q s) s j t0).
  assert (HSx : forall V, solves c E D N_ang ws mus cc S0 st V t0 t1 -> solves c E D N_ang ws mus cc (fun s j t => pcoef E (Q s) s j t) st V t0 t1).
  { intros V HV t Ht a s i Ha Hs' Hi. specialize (HV t Ht a s i Ha Hs' Hi). unfold slab_rhs in *. cbv zeta in *. unfold S0 in HV. now rewrite (RS s i t Hs' Hi Ht). }
  destruct (C131_exists c E D N_ang ws mus cc S0 st (fun a s j => pcoef E (psi a s) s j t0) t0 t1) as (V & HV0 & H0); auto.
  { intros s i _ _ w _. apply cconst. }
  pose proof (HSx V HV0) as HV.
  set (B := space_bound c E h K sg t0 t1).
  assert (DV : distance c E N_ang ws psi V t1 <= B) by (apply (C120_rate c E D N_ang ws mus cc Q psi t0 t1 st V h K sg); auto).
  assert (NF : 0 <= INR (fN c) * INR (fM c + 1)) by (apply Rmult_le_pos; apply pos_INR).
  destruct (C146_slab T p c E D N_ang ws mus cc (fun s j t => pcoef E (Q s) s j t) st st V t0 t1 HT HP Hg HN Hle MO HR Hst HV) as (C & d0 & PC & Pd & R1).
  exists (2 * (INR (fN c) * INR (fM c + 1)) * C ^ 2 + 1), d0. split; [assert (0 <= 2 * (INR (fN c) * INR (fM c + 1)) * C ^ 2) by (apply Rmult_le_pos; [lra|apply pow2_ge_0]); lra|]. split; auto.
  intros d hs y Hd Hhs Ht Hy Hy0 y' Hrun.
  assert (CL : forall a s i, (a < N_ang)%nat -> (s < fN c)%nat -> (i <= fM c)%nat -> Rabs (y' (a, s, i) - V a s i t1) <= C * d ^ p).
  { intros a s i Ha Hs' Hi. rewrite <- Ht. replace (C * d ^ p) with (C * (0 + d ^ p)) by ring. apply (R1 d hs y y' 0); auto; try lra.
    intros b k j Hb Hk Hj. rewrite Hy0, H0 by auto. rewrite Rminus_eq_0, Rabs_R0. lra. }
  eapply Rle_trans; [apply (distance_near c E D N_ang ws mus cc Q psi t0 t1 V (fun a s j _ => y' (a, s, j)) t1 1 HX (Hinc t1 ltac:(lra)) Hw ltac:(lra))|].
  pose proof (energy_small c N_ang ws (fun k => E k t1) (fun a s j => y' (a, s, j) - V a s j t1) (C * d ^ p) (Hinc t1 ltac:(lra)) Hw H1 CL) as EN.
  replace ((C * d ^ p) ^ 2) with (C ^ 2 * d ^ (2 * p)) in EN by (rewrite Rpow_mult_distr, (Nat.mul_comm 2 p), pow_mult; ring).
  assert (0 <= d ^ (2 * p)) by (apply pow_le; lra). rewrite Rinv_1.
  replace ((2 * (INR (fN c) * INR (fM c + 1)) * C ^ 2 + 1) * d ^ (2 * p)) with (2 * (INR (fN c) * INR (fM c + 1) * (C ^ 2 * d ^ (2 * p))) + d ^ (2 * p)) by ring.
  lra.
Qed.
Print Assumptions C147_mesh_at_rest.

(** the wave of [C121_front] on its moving mesh: with RK45 and steps short enough the numbers computed up to time 3 come as close to the
    wave with its front as wanted *)
Example C147_front : forall st eps, 0 < eps -> exists delta, 0 < delta /\ forall hs y, (forall h, In h hs -> 0 <= h <= delta) -> 0 + total hs = 3 ->
  vector 1 2 1 y -> (forall a s j, (a < 1)%nat -> (s < 2)%nat -> (j <= 1)%nat -> y (a, s, j) = pcoef xE (xpsi a s) s j 0) ->
  let F := slabR xC xE xD 1 (fun _ => 1) (fun _ => 1) (1 / 2) (fun s j t => pcoef xE (xQ s) s j t) st in
  (exists y', rk_run rk45 F 0 y hs y') /\
  forall y', rk_run rk45 F 0 y hs y' -> distance xC xE 1 (fun _ => 1) xpsi (fun a s j _ => y' (a, s, j)) 3 <= eps.
Proof.
  intros st eps He.
  destruct (C147_moving_mesh rk45 xC xE xD 1 (fun _ => 1) (fun _ => 1) (1 / 2) xQ xpsi 0 3 st 4 0 1) with (eps := eps) as (d & Pd & H); auto.
  - apply rk45_ok.
  - lra.
  - apply xD_mesh.
  - intros t Ht. apply xE_inc. lra.
  - intros s i Hs Hi t Ht. apply (ex_derive_continuous (pcoef xE (xQ s) s i)).
    destruct (leibniz (xE s) (xE (S s)) (xD s) (xD (S s)) (xQ s) (fun _ _ => if (s =? 0)%nat then 1 else 0) (fun _ _ => 0)) with (i := i) (t := t) as (I1 & I2 & _ & _ & K).
    + intros w. apply xD_mesh. lia.
    + intros w. apply xD_mesh. cbn in *. lia.
    + intros x w. unfold xQ. split; [|split; [|split]]; try apply continuity_2d_pt_const; destruct (s =? 0)%nat; try apply dd_const.
      eapply dd_eq; [apply dd_plus; [apply dd_const|apply dd_id]|]. cbv beta. match goal with |- ?a = ?b => change (@eq R a b) end. ring.
    + apply (xE_inc t ltac:(lra) s). exact Hs.
    + eexists. exact K.
  - apply C131_steady_when. right. split; [reflexivity|left; reflexivity].
  - apply x_exact.
  - apply x_inflow.
  - intros; lra.
  - cbn. ring.
  - lra.
  - intros t s Ht Hs. unfold xE. rewrite S_INR. lra.
  - intros a s t x k _ _ _ _ Hk. unfold xpsi. destruct (s =? 0)%nat.
    + apply (ex_derive_n_ext (fun y => y ^ 1)); [intros; ring|apply ex_derive_n_pow].
    + apply ex_derive_n_const.
  - intros a s t x _ _ _ _. cbn [fM xC]. replace (Derive_n (fun y => xpsi a s y t) 2 x) with 0; [rewrite Rabs_R0; lra|].
    symmetry. unfold xpsi. destruct (s =? 0)%nat.
    + change (Derive (Derive (fun y => y)) x = 0). rewrite (Derive_ext _ (fun _ => 1)) by (intros; apply Derive_id). apply Derive_const.
    + apply (Derive_n_const 1).
  - intros a f t _ Hf _. unfold xD. cbn in Hf. destruct f as [|[|[|f]]]; cbn; try lia; unfold Rabs; destruct (Rcase_abs _); lra.
  - exists d. split; auto. intros hs y Hh Ht Hy Hy0 F. destruct (H hs y Hh Ht Hy Hy0) as [K1 K2]. split; [exact K1|].
    intros y' Hr. specialize (K2 y' Hr). unfold space_bound in K2. replace (2 * (0 * 4 ^ S (fM xC) / INR (fact (S (fM xC)))) ^ 2) with 0 in K2 by (unfold Rdiv; rewrite Rmult_0_l; ring). lra.
Qed.
