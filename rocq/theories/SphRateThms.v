(** In the sphere, too, the error of a Runge-Kutta method is at most proportional to the longest step. *)
From Coquelicot Require Import Coquelicot.
From Verif Require Import Py PyLemmas Calc DGModel DGSpec DGProofs StabSpec StabProofs SymSpec Picard ExistSpec ExistProofs RhsModel SphSpec SphExist SphExistThms ExistThms TimeModel TimeProofs TimeExist TimeThms TimeRate TimeRateThms SphRate SphereThms.

Theorem C184_sphere : forall T c E st st' V t0 t1, consistent T ->
  fgeom (rflux c) = Sphere -> (2 <= fN (rflux c))%nat -> (2 <= N_ang c)%nat -> t0 <= t1 -> sph_data c E t0 t1 ->
  (forall k, (k <= fN (rflux c))%nat -> lipschitz_on (fun t => r_Dedges c t k) t0 t1) ->
  (forall s i, (s < fN (rflux c))%nat -> (i <= fM (rflux c))%nat -> lipschitz_on (fun t => Src c t (E s t) (E (S s) t) i) t0 t1) ->
  sph_run c E st' V t0 t1 ->
  exists C d0, 0 <= C /\ 0 < d0 /\ forall d e hs y y', 0 <= d <= d0 -> 0 <= e -> (forall h, In h hs -> 0 <= h <= d) -> t0 + total hs <= t1 ->
    vector (N_ang c) (fN (rflux c)) (fM (rflux c)) y -> rk_run T (sphereR c st) t0 y hs y' ->
    (forall a s i, (a < N_ang c)%nat -> (s < fN (rflux c))%nat -> (i <= fM (rflux c))%nat -> Rabs (y (a, s, i) - V a s i t0) <= e) ->
    forall a s i, (a < N_ang c)%nat -> (s < fN (rflux c))%nat -> (i <= fM (rflux c))%nat -> Rabs (y' (a, s, i) - V a s i (t0 + total hs)) <= C * (e + d).
Proof.
  intros T c E st st' V t0 t1 HT Hg HN HK Hle Hd LD LS HV.
  destruct (proj1 (C136_runs_iff c E st' t0 t1 Hg HN Hle Hd) (ex_intro _ V HV)) as [H10 Hok].
  pose proof Hd as Hd'. destruct Hd as (HA & HD & HS).
  assert (HM : forall t, t0 <= t <= t1 -> sph_mesh_at c E t) by (intros t Ht; apply (HA t Ht)).
  assert (HTb : forall t, t0 <= t <= t1 -> sph_tables_at c E t) by (intros t Ht; apply (HA t Ht)).
  assert (HR : forall t, t0 <= t <= t1 -> ~ right_on (rflux c) t) by (intros t Ht; apply (HA t Ht)).
  apply (rate_gen (N_ang c) (fN (rflux c)) (fM (rflux c)) (sphereR c st) V t0 t1 T Hle HT).
  - intros a s i Ha Hs Hi. now apply (sphereR_LF c E).
  - intros a s i Ha Hs Hi. apply (LL_ext idx t0 t1 (fun t y => srhs c E t y a s i)); [|apply srhs_LL; auto; lia].
    intros t y Ht. unfold sphereR. rewrite (proj2 (active_iff _ _ _ a s i) (conj Ha (conj Hs Hi))).
    destruct (srhs_is c E t0 t1 Hg HN H10 HM HTb HR Hok (st t s) t y s Ht Hs) as (W & EW & HW). rewrite EW. symmetry. apply HW. lia.
  - intros t y [[a s] i] Q. unfold sphereR. now rewrite Q.
  - intros t a s i Ht Ha Hs Hi. unfold sphereR. rewrite (proj2 (active_iff _ _ _ a s i) (conj Ha (conj Hs Hi))).
    destruct (HV t Ht) as (_ & _ & S0). destruct (S0 s Hs) as (W & EW & DW). eapply dd_eq; [now apply DW|].
    destruct (srhs_is c E t0 t1 Hg HN H10 HM HTb HR Hok (st t s) t (fun q => trunc (N_ang c) (fN (rflux c)) (fM (rflux c)) V q t) s Ht Hs) as (W1 & E1 & H1). rewrite E1.
    destruct (srhs_is c E t0 t1 Hg HN H10 HM HTb HR Hok (st' t s) t (fun p => let '(a, s, i) := p in V a s i t) s Ht Hs) as (W2 & E2 & H2).
    cbv beta iota in E2. rewrite EW in E2. injection E2 as <-. rewrite H1, H2 by lia. apply srhs_ext; auto.
    intros l k j Hl Hk Hj. symmetry. now apply trunc_in.
Qed.
Print Assumptions C184_sphere.
(** an expanding sphere whose outer edge outruns the particles, by Euler steps *)
Example C184_example_sphere : forall st V, sph_run scfg sE st V 0 1 -> exists C d0, 0 < d0 /\ forall d hs y y', 0 <= d <= d0 -> (forall h, In h hs -> 0 <= h <= d) -> total hs <= 1 ->
  vector 2 2 0 y -> rk_run euler (sphereR scfg st) 0 y hs y' -> (forall a s, (a < 2)%nat -> (s < 2)%nat -> y (a, s, 0%nat) = V a s 0%nat 0) ->
  Rabs (y' (1, 1, 0)%nat - V 1%nat 1%nat 0%nat (total hs)) <= C * d.
Proof.
  intros st V HV.
  destruct (C184_sphere euler scfg sE st st V 0 1 (proj2 euler_ok) eq_refl (le_n 2) (le_n 2) ltac:(lra) (s_data 0 1 ltac:(lra))) as (C & d0 & _ & Pd & H); auto.
  - intros k _. exact (Lp_const 0 1 (INR k)).
  - intros s i _ _. exact (Lp_const 0 1 0).
  - exists C, d0. split; auto. intros d hs y y' Hd Hh Hs Hv Hr Hy. specialize (H d 0 hs y y' Hd (Rle_refl 0) Hh ltac:(lra) Hv Hr).
    rewrite !Rplus_0_l in H. apply (H ltac:(intros a s i Ha Hs' Hi; cbn in Ha, Hs', Hi; assert (i = 0)%nat as -> by lia; rewrite Hy by auto; rewrite Rminus_eq_0, Rabs_R0; lra) 1%nat 1%nat 0%nat); cbn; lia.
Qed.
