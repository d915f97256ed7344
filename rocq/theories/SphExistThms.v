(** C136: spherical runs exist and are determined by their start. *)
From Coq Require Import ZArith QArith Qreals.
From Coquelicot Require Import Coquelicot.
From Verif Require Import Py PyLemmas Calc DGModel DGSpec DGProofs MatModel RhsModel RhsProofs
  SpherePoly SphereProofs SphereBal SphereWeak SphereThms StabProofs PosDef SphMass SphMassThms SphSpec SphStab SphStabThms SphNum SphNumThms
  ExistSpec Picard ExistProofs ExistThms UniqueFin SphExist.
Open Scope R_scope.

(** what the equations need: mesh and tables at every time, continuous edge velocities and source, nothing entering *)
Definition sph_data (c : rhs_cfg) (E : nat -> R -> R) (t0 t1 : R) : Prop :=
  (forall t, t0 <= t <= t1 -> sph_mesh_at c E t /\ sph_tables_at c E t /\ ~ right_on (rflux c) t) /\
  (forall k, (k <= fN (rflux c))%nat -> continuous_on (fun t => r_Dedges c t k) t0 t1) /\
  (forall s i, (s < fN (rflux c))%nat -> (i <= fM (rflux c))%nat -> continuous_on (fun t => Src c t (E s t) (E (S s) t) i) t0 t1).

Theorem C136_exists : forall c E st V0 t0 t1,
  fgeom (rflux c) = Sphere -> (2 <= fN (rflux c))%nat -> (fM (rflux c) <= 10)%nat -> t0 <= t1 ->
  forallb (refl_ok c) (seq 0 (N_ang c)) = true -> sph_data c E t0 t1 ->
  exists V, sph_run c E st V t0 t1 /\ forall a s i, V a s i t0 = V0 a s i.
Proof.
  intros c E st V0 t0 t1 Hg HN H10 Hle Hok (HA & HD & HS).
  assert (HM : forall t, t0 <= t <= t1 -> sph_mesh_at c E t) by (intros t Ht; apply (HA t Ht)).
  assert (HT : forall t, t0 <= t <= t1 -> sph_tables_at c E t) by (intros t Ht; apply (HA t Ht)).
  assert (HR : forall t, t0 <= t <= t1 -> ~ right_on (rflux c) t) by (intros t Ht; apply (HA t Ht)).
  pose (F := fun t (y : nat * nat * nat -> R) p => if active (N_ang c) (fN (rflux c)) (fM (rflux c)) p then
    let '(a, s, i) := p in srhs c E t y a s i else 0).
  destruct (exists_fin (nat * nat * nat) t0 t1 Hle (actives (N_ang c) (fN (rflux c)) (fM (rflux c))) F (fun p => let '(a, s, i) := p in V0 a s i)) as (x & X0 & X).
  - intros [[a s] i] Hi. apply actives_in in Hi. unfold F. rewrite (proj2 (active_iff (N_ang c) (fN (rflux c)) (fM (rflux c)) a s i) Hi).
    destruct Hi as (Ha & Hs & Hi). apply srhs_LF; auto. lia.
  - intros [[a s] i]. destruct (active (N_ang c) (fN (rflux c)) (fM (rflux c)) (a, s, i)) eqn:Q.
    + left. apply actives_in. now apply active_iff in Q.
    + right. intros. unfold F. now rewrite Q.
  - exists (fun a s i => x (a, s, i)). split; [|intros; apply (X0 (a, s, i))].
    intros t Ht. refine (conj (HM t Ht) (conj (HT t Ht) _)). intros s Hs.
    destruct (srhs_is c E t0 t1 Hg HN H10 HM HT HR Hok (st t s) t (fun p => x p t) s Ht Hs) as (W & EW & HW).
    exists W. split; [exact EW|]. intros a j Ha Hj. eapply dd_eq; [apply (X t Ht (a, s, j))|].
    unfold F. rewrite (proj2 (active_iff (N_ang c) (fN (rflux c)) (fM (rflux c)) a s j) (conj Ha (conj Hs Hj))). symmetry. apply HW. lia.
Qed.
Print Assumptions C136_exists.

Theorem C136_unique : forall c E st st' V V' t0 t1,
  fgeom (rflux c) = Sphere -> (2 <= fN (rflux c))%nat -> (2 <= N_ang c)%nat -> t0 <= t1 -> sph_data c E t0 t1 ->
  sph_run c E st V t0 t1 -> sph_run c E st' V' t0 t1 ->
  (forall a s i, (a < N_ang c)%nat -> (s < fN (rflux c))%nat -> (i <= fM (rflux c))%nat -> V a s i t0 = V' a s i t0) ->
  forall t a s i, t0 <= t <= t1 -> (a < N_ang c)%nat -> (s < fN (rflux c))%nat -> (i <= fM (rflux c))%nat -> V a s i t = V' a s i t.
Proof.
  intros c E st st' V V' t0 t1 Hg HN HK Hle (HA & HD & HS) HV HV' H0.
  assert (HM : forall t, t0 <= t <= t1 -> sph_mesh_at c E t) by (intros t Ht; apply (HA t Ht)).
  assert (HT : forall t, t0 <= t <= t1 -> sph_tables_at c E t) by (intros t Ht; apply (HA t Ht)).
  assert (HR : forall t, t0 <= t <= t1 -> ~ right_on (rflux c) t) by (intros t Ht; apply (HA t Ht)).
  (* a run presupposes the checks *)
  assert (Hok : forallb (refl_ok c) (seq 0 (N_ang c)) = true).
  { destruct (HV t0 ltac:(lra)) as (_ & _ & S0). destruct (S0 0%nat ltac:(lia)) as (W & EW & _). unfold rhs_space in EW. rewrite Hg in EW. cbv zeta in EW.
    destruct (make_G_sphere _ _ _ _ _); [|discriminate]. cbn [bind] in EW. destruct (make_MPRIME _ _ _ _ _); [|discriminate]. cbn [bind] in EW.
    destruct (forallb (refl_ok c) (seq 0 (N_ang c))); [reflexivity|]. cbn in EW. discriminate. }
  assert (H10 : (fM (rflux c) <= 10)%nat).
  { destruct (HV t0 ltac:(lra)) as (_ & _ & S0). destruct (S0 0%nat ltac:(lia)) as (W & EW & _). apply (proj1 (C25_update_defined_iff c (st t0 0%nat) t0 (fun l k j => V l k j t0) 0%nat Hg Hok)). eauto. }
  pose (T := fun (V : nat -> nat -> nat -> R -> R) (p : nat * nat * nat) t => if active (N_ang c) (fN (rflux c)) (fM (rflux c)) p then let '(a, s, i) := p in V a s i t else 0).
  assert (TV : forall V a s i t, (a < N_ang c)%nat -> (s < fN (rflux c))%nat -> (i <= fM (rflux c))%nat -> T V (a, s, i) t = V a s i t).
  { intros U a s i t Ha Hs Hi. unfold T. now rewrite (proj2 (active_iff (N_ang c) (fN (rflux c)) (fM (rflux c)) a s i) (conj Ha (conj Hs Hi))). }
  assert (DV : forall st V, sph_run c E st V t0 t1 -> forall t p, t0 <= t <= t1 -> In p (actives (N_ang c) (fN (rflux c)) (fM (rflux c))) ->
     is_derive (T V p) t (let '(a, s, i) := p in srhs c E t (fun q => T V q t) a s i)).
  { clear - Hg HN HK Hle HM HT HR Hok H10 TV. intros st V HV t [[a s] i] Ht Hp. apply actives_in in Hp. destruct Hp as (Ha & Hs & Hi).
    apply (is_derive_ext (V a s i)); [intros w; symmetry; now apply TV|].
    destruct (HV t Ht) as (_ & _ & S0). destruct (S0 s Hs) as (W & EW & DW). eapply dd_eq; [now apply DW|].
    destruct (srhs_is c E t0 t1 Hg HN H10 HM HT HR Hok (st t s) t (fun p => let '(a, s, i) := p in V a s i t) s Ht Hs) as (W' & EW' & HW').
    cbv beta iota in EW'. rewrite EW in EW'. injection EW' as <-. rewrite HW' by lia. apply srhs_ext; auto.
    intros l k j Hl Hk Hj. symmetry. now apply TV. }
  intros t a s i Ht Ha Hs Hi. rewrite <- (TV V a s i t Ha Hs Hi), <- (TV V' a s i t Ha Hs Hi).
  apply (unique_fin (nat * nat * nat) t0 t1 (actives (N_ang c) (fN (rflux c)) (fM (rflux c))) (fun t y p => let '(a, s, i) := p in srhs c E t y a s i) (T V) (T V')); auto.
  - intros [[a' s'] i'] Hp. apply actives_in in Hp. destruct Hp as (Ha' & Hs' & Hi'). apply srhs_LF; auto. lia.
  - intros [[a' s'] i']. destruct (active (N_ang c) (fN (rflux c)) (fM (rflux c)) (a', s', i')) eqn:Q.
    + left. apply actives_in. now apply active_iff in Q.
    + right. intros. unfold T. now rewrite Q.
  - intros u p Hu Hp. apply (DV st V HV u p Hu Hp).
  - intros u p Hu Hp. apply (DV st' V' HV' u p Hu Hp).
  - intros [[a' s'] i'] Hp. apply actives_in in Hp. destruct Hp as (Ha' & Hs' & Hi'). rewrite !TV by auto. now apply H0.
  - now apply actives_in.
Qed.
Print Assumptions C136_unique.

(** exactly for orders up to 10 and directions that pass the checks *)
Theorem C136_runs_iff : forall c E st t0 t1,
  fgeom (rflux c) = Sphere -> (2 <= fN (rflux c))%nat -> t0 <= t1 -> sph_data c E t0 t1 ->
  ((exists V, sph_run c E st V t0 t1) <-> (fM (rflux c) <= 10)%nat /\ forallb (refl_ok c) (seq 0 (N_ang c)) = true).
Proof.
  intros c E st t0 t1 Hg HN Hle HA. split.
  - intros (V & HV). destruct (HV t0 ltac:(lra)) as (_ & _ & S0). destruct (S0 0%nat ltac:(lia)) as (W & EW & _).
    assert (Hok : forallb (refl_ok c) (seq 0 (N_ang c)) = true).
    { unfold rhs_space in EW. rewrite Hg in EW. cbv zeta in EW.
      destruct (make_G_sphere _ _ _ _ _); [|discriminate]. cbn [bind] in EW. destruct (make_MPRIME _ _ _ _ _); [|discriminate]. cbn [bind] in EW.
      destruct (forallb (refl_ok c) (seq 0 (N_ang c))); [reflexivity|]. cbn in EW. discriminate. }
    split; [|exact Hok]. apply (proj1 (C25_update_defined_iff c (st t0 0%nat) t0 (fun l k j => V l k j t0) 0%nat Hg Hok)). eauto.
  - intros [H10 Hok]. destruct (C136_exists c E st (fun _ _ _ => 0) t0 t1 Hg HN H10 Hle Hok HA) as (V & HV & _). eauto.
Qed.
Print Assumptions C136_runs_iff.

(** the same for the flat vector the integrator works on *)
Lemma spaces_ok c st t V k : (forall s, (s < k)%nat -> exists W, rhs_space c (fun a => st a s) t V s = Ok W) ->
  exists X, rhs_spaces c st t V k = Ok X /\ forall s, (s < k)%nat -> exists W, rhs_space c (fun a => st a s) t V s = Ok W /\ forall a i, X a s i = W a i.
Proof.
  induction k as [|k IH]; intros H; cbn [rhs_spaces]; [exists V; split; [reflexivity|intros; lia]|].
  destruct IH as (X & -> & HX). { intros; apply H; lia. }
  destruct (H k ltac:(lia)) as (W & EW). cbn [bind]. rewrite EW. cbn [bind]. eexists. split; [reflexivity|].
  intros s Hs. destruct (Nat.eq_dec s k) as [->|N].
  - exists W. split; [exact EW|]. intros. now rewrite Nat.eqb_refl.
  - destruct (HX s ltac:(lia)) as (W' & E' & H'). exists W'. split; [exact E'|]. intros. rewrite (proj2 (Nat.eqb_neq s k) N). apply H'.
Qed.
Theorem C136_vector : forall c E st y0 t0 t1,
  fgeom (rflux c) = Sphere -> (2 <= fN (rflux c))%nat -> (2 <= N_ang c)%nat -> (fM (rflux c) <= 10)%nat -> t0 <= t1 ->
  forallb (refl_ok c) (seq 0 (N_ang c)) = true -> sph_data c E t0 t1 ->
  exists y : nat -> R -> R, (forall k, y k t0 = y0 k) /\
  forall t, t0 <= t <= t1 -> exists W, rhs_call c (st t) t (fun k => y k t) = Ok W /\
   forall k, (k < N_ang c * fN (rflux c) * (fM (rflux c) + 1))%nat -> is_derive (y k) t (W k).
Proof.
  intros c E st y0 t0 t1 Hg HN HK H10 Hle Hok HA.
  set (N := fN (rflux c)) in *. set (n := (fM (rflux c) + 1)%nat). assert (Hn : (0 < n)%nat) by (unfold n; lia).
  destruct (C136_exists c E (fun t s a => st t a s) (reshape3 N n y0) t0 t1 Hg HN H10 Hle Hok HA) as (V & HV & V0).
  pose (y := fun k t => flatten3 N n (fun a s i => V a s i t) k).
  exists y. split.
  - intros k. unfold y. transitivity (flatten3 N n (reshape3 N n y0) k); [unfold flatten3; apply V0|apply flat_reshape; lia].
  - intros t Ht. pose proof HA as (HA' & _ & _).
    assert (HM : forall t, t0 <= t <= t1 -> sph_mesh_at c E t) by (intros u Hu; apply (HA' u Hu)).
    assert (HT : forall t, t0 <= t <= t1 -> sph_tables_at c E t) by (intros u Hu; apply (HA' u Hu)).
    assert (HR : forall t, t0 <= t <= t1 -> ~ right_on (rflux c) t) by (intros u Hu; apply (HA' u Hu)).
    pose (Y := fun p : nat * nat * nat => let '(a, s, i) := p in reshape3 N n (fun k => y k t) a s i).
    pose (Z := fun p : nat * nat * nat => let '(a, s, i) := p in V a s i t).
    assert (YZ : forall l k j, (l < N_ang c)%nat -> (k < fN (rflux c))%nat -> (j <= fM (rflux c))%nat -> Y (l, k, j) = Z (l, k, j)).
    { intros l k j _ Hk Hj. unfold Y, Z, y. exact (reshape_flat N n (fun a s i => V a s i t) l k j Hk ltac:(unfold n; lia)). }
    destruct (spaces_ok c (st t) t (reshape3 N n (fun k => y k t)) N) as (X & EX & HX).
    { intros s Hs. destruct (srhs_is c E t0 t1 Hg HN H10 HM HT HR Hok (fun a => st t a s) t Y s Ht Hs) as (W & EW & _). exists W. exact EW. }
    exists (flatten3 N n X). split; [unfold rhs_call; cbv zeta; fold N n; rewrite EX; reflexivity|].
    intros k Hk. set (a := (k / n / N)%nat). set (s := ((k / n) mod N)%nat). set (i := (k mod n)%nat).
    assert (Hs : (s < N)%nat) by (apply Nat.mod_upper_bound; lia). assert (Hi : (i < n)%nat) by (apply Nat.mod_upper_bound; lia).
    assert (Ha : (a < N_ang c)%nat).
    { unfold a. apply Nat.div_lt_upper_bound; [lia|]. apply Nat.div_lt_upper_bound; [lia|]. nia. }
    change (is_derive (V a s i) t (X a s i)). destruct (HX s Hs) as (W & EW & XW). rewrite XW.
    destruct (srhs_is c E t0 t1 Hg HN H10 HM HT HR Hok (fun a => st t a s) t Y s Ht Hs) as (W1 & EW1 & HW1).
    change (fun l k j => Y (l, k, j)) with (reshape3 N n (fun k => y k t)) in EW1. rewrite EW in EW1. injection EW1 as <-. rewrite HW1 by exact Hi.
    destruct (HV t Ht) as (_ & _ & S0). destruct (S0 s Hs) as (W2 & EW2 & D2).
    destruct (srhs_is c E t0 t1 Hg HN H10 HM HT HR Hok (fun a => st t a s) t Z s Ht Hs) as (W3 & EW3 & HW3).
    change (fun l k j => Z (l, k, j)) with (fun l k j => V l k j t) in EW3. cbv beta in EW2. rewrite EW2 in EW3. injection EW3 as <-.
    eapply dd_eq; [apply D2; [exact Ha|unfold n in Hi; lia]|]. rewrite HW3 by exact Hi. symmetry.
    apply srhs_ext; auto. unfold n in Hi. lia.
Qed.
Print Assumptions C136_vector.

(** a sphere at rest with linear elements and mid directions: every start has a run, over any interval; its squared norm
    decays and its number follows what leaves *)
Lemma g_data m t0 t1 : sph_data (gcfg m) gE t0 t1.
Proof.
  split; [|split].
  - intros t _. refine (conj (g_mesh m t) (conj (g_tables m t) _)). intros [X|[X _]]; discriminate.
  - intros k _ t _. apply continuous_const.
  - intros s i _ _ t _. apply continuous_const.
Qed.
Lemma g_checks : forallb (refl_ok (gcfg (mus scfg))) (seq 0 2) = true.
Proof.
  apply (refl_all_ok (gcfg (mus scfg))); cbn [N_ang mus gcfg scfg].
  - intros a Ha. assert (a = 0)%nat as -> by lia. cbn [Nat.eqb]. lra.
  - intros a Ha. assert (a = 0 \/ a = 1)%nat as [-> | ->] by lia; cbn [Nat.eqb Nat.sub]; lra.
Qed.
Example C136_example : forall V0 st t0 t1, t0 <= t1 ->
  exists V, sph_run (gcfg (mus scfg)) gE st V t0 t1 /\ (forall a s i, V a s i t0 = V0 a s i) /\
  sph_energy (gcfg (mus scfg)) gE V t1 <= exp (- 2 * (t1 - t0)) * sph_energy (gcfg (mus scfg)) gE V t0.
Proof.
  intros V0 st t0 t1 Hle. destruct (C136_exists (gcfg (mus scfg)) gE st V0 t0 t1 eq_refl (le_n 2) ltac:(cbn; lia) Hle g_checks (g_data _ t0 t1)) as (V & HV & H0).
  exists V. refine (conj HV (conj H0 _)).
  assert (Q := C134_energy_decays (gcfg (mus scfg)) gE st V t0 t1 eq_refl (le_n 2) (le_n 2) Hle). cbn [sigma_s gcfg] in Q.
  replace (- (2 * (1 - 0))) with (- 2) in Q by ring. apply Q; auto; try lra.
  - intros a Ha. cbn [N_ang gcfg mus wsa scfg] in *. assert (a = 0 \/ a = 1)%nat as [-> | ->] by lia; cbn [Nat.eqb INR]; split; field.
  - intros t Ht. apply (proj1 (g_data (mus scfg) t0 t1) t Ht).
Qed.

(** an expanding sphere whose outer edge outruns the particles, pure scattering: every start has a run and the number of
    particles does not change *)
Lemma s_data t0 t1 : 0 <= t0 -> sph_data scfg sE t0 t1.
Proof.
  intros H0. split; [|split].
  - intros t Ht. assert (LT : forall s, sE s t < sE (S s) t) by (intro s; unfold sE; rewrite S_INR; pose proof (pos_INR s); nra).
    assert (NN : forall s, 0 <= sE s t) by (intro s; unfold sE; pose proof (pos_INR s); nra).
    refine (conj _ (conj _ _)).
    + refine (conj (fun _ => eq_refl) (conj (fun k _ => LT k) (conj _ _))).
      * unfold sE. simpl. ring.
      * intros k _. unfold sE. cbn [r_Dedges scfg]. eapply dd_eq; [apply dd_scal, dd_plus; [apply dd_const|apply dd_id]|ring].
    + intros s Hs. cbn zeta. refine (conj _ (conj _ (conj _ _))); [now apply ideal_mass|now apply ideal_J|now apply ideal_L|].
      intros x i Hi. cbn in Hi. assert (i = 0)%nat as -> by lia. unfold dotv. cbn [fM rflux scfg sumn inv tabs Nat.add]. field.
      apply mass00; [apply LT|apply NN].
    + intros [X|[X _]]; discriminate.
  - intros k _ t _. apply continuous_const.
  - intros s i _ _ t _. apply continuous_const.
Qed.
Example C135_example : forall V0 st t0 t1, 0 <= t0 <= t1 ->
  exists V, sph_run scfg sE st V t0 t1 /\ (forall a s i, V a s i t0 = V0 a s i) /\
  sph_number scfg (fun _ => 1) sE V t1 = sph_number scfg (fun _ => 1) sE V t0.
Proof.
  intros V0 st t0 t1 H.
  assert (OK : forallb (refl_ok scfg) (seq 0 2) = true).
  { apply (refl_all_ok scfg); cbn [N_ang mus scfg].
    - intros a Ha. assert (a = 0)%nat as -> by lia. cbn [Nat.eqb]. lra.
    - intros a Ha. assert (a = 0 \/ a = 1)%nat as [-> | ->] by lia; cbn [Nat.eqb Nat.sub]; lra. }
  assert (AW : forall a, (a < 2)%nat -> awidth 2 (mus scfg) a = 1).
  { intros a Ha. unfold awidth, aedge. cbn [mus scfg]. assert (a = 0 \/ a = 1)%nat as [-> | ->] by lia; cbn [Nat.eqb Nat.sub]; field. }
  destruct (C136_exists scfg sE st V0 t0 t1 eq_refl (le_n 2) ltac:(cbn; lia) (proj2 H) OK (s_data t0 t1 (proj1 H))) as (V & HV & H0).
  exists V. refine (conj HV (conj H0 _)).
  assert (SQ : forall w, sph_number scfg (fun _ => 1) sE V w = sph_number scfg (awidth 2 (mus scfg)) sE V w).
  { intros w. unfold sph_number. apply sumn_ext. intros a Ha. now rewrite AW. }
  rewrite !SQ.
  assert (DR : directions 2 (mus scfg)).
  { refine (conj _ (conj _ _)); cbn [mus scfg]; [|cbn [Nat.eqb]; lra|cbn [Nat.eqb Nat.sub]; lra]. intros a Ha. assert (a = 0)%nat as -> by lia. cbn [Nat.eqb]. lra. }
  change (awidth 2 (mus scfg)) with (awidth (N_ang scfg) (mus scfg)). rewrite (C135_number scfg sE st V t0 t1 eq_refl (le_n 2) (le_n 2) DR (proj2 H)); auto.
  - cbn [sigma_s scfg]. replace (- (1 - 1) * (t1 - t0)) with 0 by ring. rewrite exp_0. ring.
  - intros a Ha. change (awidth (N_ang scfg) (mus scfg) a) with (awidth 2 (mus scfg) a). rewrite AW by exact Ha. cbn [wsa scfg]. reflexivity.
  - intros t Ht. refine (conj _ (conj _ _)).
    + intros [X|[X _]]; discriminate.
    + intros a Ha. cbn [mus scfg r_Dedges fN rflux N_ang] in *. destruct (a =? 0)%nat; simpl; lra.
    + reflexivity.
Qed.
