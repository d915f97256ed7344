(** What survives the time integration by a Runge-Kutta method. *)
From Coquelicot Require Import Coquelicot.
From Verif Require Import Py PyLemmas Calc DGModel DGSpec DGProofs StabSpec StabProofs SymSpec Picard ExistSpec ExistProofs RhsModel SphSpec SphExist SphExistThms ExistThms TimeModel TimeProofs TimeExist.

Definition idx : Type := (nat * nat * nat)%type.
(** a state vector: directions below A, cells below N, orders up to M; nothing elsewhere *)
Definition vector (A N M : nat) (y : idx -> R) : Prop := forall p, active A N M p = false -> y p = 0.
(** the right-hand sides as functions of the state vector: slab, slab coupled to a material (direction N_ang holds the
    material energy), sphere *)
Definition slabR (c : flux_cfg) (E D : nat -> R -> R) (N_ang : nat) (ws mus : nat -> R) (cc : R) (S0 : nat -> nat -> R -> R)
    (st : R -> nat -> nat -> flux_state) (t : R) (y : idx -> R) (p : idx) : R :=
  let '(a, s, i) := p in if active N_ang (fN c) (fM c) p then
    slab_rhs c (st t a s) N_ang ws mus cc t (fun k => E k t) (fun k => D k t) (fun j => S0 s j t) (fun l k j => y (l, k, j)) a s i else 0.
Definition coupledR (c : flux_cfg) (E D : nat -> R -> R) (N_ang : nat) (ws mus : nat -> R) (cc c_a l : R) (S0 : nat -> nat -> R -> R)
    (st : R -> nat -> nat -> flux_state) (ste : R -> nat -> flux_state) (t : R) (y : idx -> R) (p : idx) : R :=
  let '(a, s, i) := p in if active (S N_ang) (fN c) (fM c) p then
    if (a =? N_ang)%nat then slab_energy c (ste t s) N_ang ws c_a l t (fun k => E k t) (fun k => D k t) (fun j => y (N_ang, s, j)) (fun j => S0 s j t) (fun l k j => y (l, k, j)) (fun k j => y (N_ang, k, j)) s i
    else slab_rhs_thermal c (st t a s) N_ang ws mus cc c_a l t (fun k => E k t) (fun k => D k t) (fun j => y (N_ang, s, j)) (fun j => S0 s j t) (fun l k j => y (l, k, j)) a s i else 0.
Definition sphereR (c : rhs_cfg) (st : R -> nat -> nat -> flux_state) (t : R) (y : idx -> R) (p : idx) : R :=
  let '(a, s, i) := p in if active (N_ang c) (fN (rflux c)) (fM (rflux c)) p then
    match rhs_space c (st t s) t (fun l k j => y (l, k, j)) s with Ok W => W a i | Err _ => 0 end else 0.

Lemma LF_ext I t0 t1 f g : t0 <= t1 -> (forall t y, t0 <= t <= t1 -> f t y = g t y) -> LF I t0 t1 f -> LF I t0 t1 g.
Proof.
  intros Hle H [A (K & P & B)]. split.
  - intros x Hx t. apply (continuous_ext (fun s => f (clamp t0 t1 s) (fun j => x j s))); [|now apply A]. intros s. apply H. now apply clamp_in.
  - exists K. split; auto. intros t x y r Ht Hr Hx. rewrite <- !H by auto. now apply B.
Qed.
Lemma slabR_LF c E D N_ang ws mus cc S0 st t0 t1 a s i :
  fgeom c = Slab -> (2 <= fN c)%nat -> t0 <= t1 -> mesh_ok c E D t0 t1 ->
  (forall k, (k <= fN c)%nat -> continuous_on (D k) t0 t1) ->
  (forall s i, (s < fN c)%nat -> (i <= fM c)%nat -> continuous_on (S0 s i) t0 t1) -> steady c t0 t1 ->
  (a < N_ang)%nat -> (s < fN c)%nat -> (i <= fM c)%nat -> LF idx t0 t1 (fun t y => slabR c E D N_ang ws mus cc S0 st t y (a, s, i)).
Proof.
  intros Hg HN Hle HM HD HS Hst Ha Hs Hi. apply (LF_ext idx t0 t1 (fun t y => rhsF c E D N_ang ws mus cc t (fun j => S0 s j t) y a s i)); auto.
    + intros t y Ht. unfold slabR. rewrite (proj2 (active_iff _ _ _ a s i) (conj Ha (conj Hs Hi))). symmetry. now apply (rhsF_is c E D t0 t1 Hg HN HM).
    + apply rhsF_LF; auto. apply Cc_of; auto. now apply HS.
Qed.
Lemma coupledR_LF c E D N_ang ws mus cc c_a l S0 st ste t0 t1 a s i :
  fgeom c = Slab -> (2 <= fN c)%nat -> t0 <= t1 -> mesh_ok c E D t0 t1 ->
  (forall k, (k <= fN c)%nat -> continuous_on (D k) t0 t1) ->
  (forall s i, (s < fN c)%nat -> (i <= fM c)%nat -> continuous_on (S0 s i) t0 t1) -> steady c t0 t1 ->
  (a < S N_ang)%nat -> (s < fN c)%nat -> (i <= fM c)%nat -> LF idx t0 t1 (fun t y => coupledR c E D N_ang ws mus cc c_a l S0 st ste t y (a, s, i)).
Proof.
  intros Hg HN Hle HM HD HS Hst Ha Hs Hi. assert (C : Cc t0 t1 (S0 s i)) by (apply Cc_of; auto; now apply HS).
    apply (LF_ext idx t0 t1 (fun t y => if (a =? N_ang)%nat then enerF c E D N_ang ws c_a l t (fun j => S0 s j t) y s i else thermF c E D N_ang ws mus cc c_a l t (fun j => S0 s j t) y a s i)); auto.
    + intros t y Ht. unfold coupledR. rewrite (proj2 (active_iff _ _ _ a s i) (conj Ha (conj Hs Hi))). symmetry.
      destruct (a =? N_ang)%nat; [now apply (enerF_is c E D t0 t1 Hg HN HM)|now apply (thermF_is c E D t0 t1 Hg HN HM)].
    + destruct (a =? N_ang)%nat; [now apply enerF_LF|now apply thermF_LF].
Qed.
Lemma sphereR_LF c E st t0 t1 a s i :
  fgeom (rflux c) = Sphere -> (2 <= fN (rflux c))%nat -> (2 <= N_ang c)%nat -> t0 <= t1 -> sph_data c E t0 t1 -> (fM (rflux c) <= 10)%nat -> forallb (refl_ok c) (seq 0 (N_ang c)) = true ->
  (a < N_ang c)%nat -> (s < fN (rflux c))%nat -> (i <= fM (rflux c))%nat -> LF idx t0 t1 (fun t y => sphereR c st t y (a, s, i)).
Proof.
  intros Hg HN HK Hle Hd H10 Hok Ha Hs Hi. destruct Hd as (HA & HD & HS).
  assert (HM : forall t, t0 <= t <= t1 -> sph_mesh_at c E t) by (intros t Ht; apply (HA t Ht)).
  assert (HTb : forall t, t0 <= t <= t1 -> sph_tables_at c E t) by (intros t Ht; apply (HA t Ht)).
  assert (HR : forall t, t0 <= t <= t1 -> ~ right_on (rflux c) t) by (intros t Ht; apply (HA t Ht)).
  apply (LF_ext idx t0 t1 (fun t y => srhs c E t y a s i)); auto.
    + intros t y Ht. unfold sphereR. rewrite (proj2 (active_iff _ _ _ a s i) (conj Ha (conj Hs Hi))).
      destruct (srhs_is c E t0 t1 Hg HN H10 HM HTb HR Hok (st t s) t y s Ht Hs) as (W & EW & HW). rewrite EW. symmetry. apply HW. lia.
    + apply srhs_LF; auto. lia.
Qed.
Lemma conv_gen A N M (F : R -> (idx -> R) -> idx -> R) V t0 t1 T : t0 <= t1 -> consistent T ->
  (forall a s i, (a < A)%nat -> (s < N)%nat -> (i <= M)%nat -> LF idx t0 t1 (fun t y => F t y (a, s, i))) ->
  (forall t y p, active A N M p = false -> F t y p = 0) ->
  (forall t a s i, t0 <= t <= t1 -> (a < A)%nat -> (s < N)%nat -> (i <= M)%nat -> is_derive (V a s i) t (F t (fun q => trunc A N M V q t) (a, s, i))) ->
  forall eps, 0 < eps -> exists delta, 0 < delta /\ forall hs y y', (forall h, In h hs -> 0 <= h <= delta) -> t0 + total hs <= t1 ->
    vector A N M y -> rk_run T F t0 y hs y' ->
    (forall a s i, (a < A)%nat -> (s < N)%nat -> (i <= M)%nat -> Rabs (y (a, s, i) - V a s i t0) <= delta) ->
    forall a s i, (a < A)%nat -> (s < N)%nat -> (i <= M)%nat -> Rabs (y' (a, s, i) - V a s i (t0 + total hs)) <= eps.
Proof.
  intros Hle HT HL H0 HV eps He.
  destruct (rk_converges idx t0 t1 Hle (actives A N M) F) with (x := trunc A N M V) (T := T) (eps := eps) as (d & Pd & H); auto.
  - intros [[a s] i] Hp. apply actives_in in Hp. destruct Hp as (Ha & Hs & Hi). now apply HL.
  - intros [[a s] i]. destruct (active A N M (a, s, i)) eqn:Q; [left; apply actives_in; now apply active_iff in Q|right; intros; now apply H0].
  - intros t [[a s] i] Ht. destruct (active A N M (a, s, i)) eqn:Q.
    + apply active_iff in Q. destruct Q as (Ha & Hs & Hi). apply (is_derive_ext (V a s i)); [intros; symmetry; now apply trunc_in|]. now apply HV.
    + rewrite H0 by auto. apply (is_derive_ext (fun _ => 0)); [intros; unfold trunc; now rewrite Q|apply dd_const].
  - exists d. split; auto. intros hs y y' Hh Hs Hv Hr Hy a s i Ha Hs' Hi. rewrite <- (trunc_in A N M V a s i) by auto. apply (H hs y y'); auto.
    intros [[a' s'] i']. destruct (active A N M (a', s', i')) eqn:Q.
    + apply active_iff in Q. destruct Q as (Ha' & Hs'' & Hi'). rewrite trunc_in by auto. now apply Hy.
    + rewrite Hv by auto. unfold trunc. rewrite Q, Rminus_0_r, Rabs_R0. lra.
Qed.
(** Every Runge-Kutta method converges: with steps short enough, however they are chosen, and a start close enough the
    result is as close as desired to the trajectory, at every time. *)
Theorem C138_slab : forall T c E D N_ang ws mus cc S0 st st' V t0 t1, consistent T ->
  fgeom c = Slab -> (2 <= fN c)%nat -> t0 <= t1 -> mesh_ok c E D t0 t1 ->
  (forall k, (k <= fN c)%nat -> continuous_on (D k) t0 t1) ->
  (forall s i, (s < fN c)%nat -> (i <= fM c)%nat -> continuous_on (S0 s i) t0 t1) -> steady c t0 t1 ->
  solves c E D N_ang ws mus cc S0 st' V t0 t1 ->
  forall eps, 0 < eps -> exists delta, 0 < delta /\ forall hs y y', (forall h, In h hs -> 0 <= h <= delta) -> t0 + total hs <= t1 ->
    vector N_ang (fN c) (fM c) y -> rk_run T (slabR c E D N_ang ws mus cc S0 st) t0 y hs y' ->
    (forall a s i, (a < N_ang)%nat -> (s < fN c)%nat -> (i <= fM c)%nat -> Rabs (y (a, s, i) - V a s i t0) <= delta) ->
    forall a s i, (a < N_ang)%nat -> (s < fN c)%nat -> (i <= fM c)%nat -> Rabs (y' (a, s, i) - V a s i (t0 + total hs)) <= eps.
Proof.
  intros T c E D N_ang ws mus cc S0 st st' V t0 t1 HT Hg HN Hle HM HD HS Hst HV.
  apply (conv_gen N_ang (fN c) (fM c) (slabR c E D N_ang ws mus cc S0 st) V t0 t1 T Hle HT).
  - intros a s i Ha Hs Hi. now apply slabR_LF.
  - intros t y [[a s] i] Q. unfold slabR. now rewrite Q.
  - intros t a s i Ht Ha Hs Hi. eapply dd_eq; [now apply HV|]. unfold slabR. rewrite (proj2 (active_iff _ _ _ a s i) (conj Ha (conj Hs Hi))).
    rewrite (rhsF_is c E D t0 t1 Hg HN HM (st t a s) N_ang ws mus cc t (fun j => S0 s j t) (fun q => trunc N_ang (fN c) (fM c) V q t) a s i Ht Hs).
    rewrite <- (rhsF_same c E D HN N_ang ws mus cc t (fun j => S0 s j t) (fun p => let '(a, s, i) := p in V a s i t)); auto.
    + apply (rhsF_is c E D t0 t1 Hg HN HM (st' t a s) N_ang ws mus cc t (fun j => S0 s j t) (fun p => let '(a, s, i) := p in V a s i t)); auto.
    + intros l k j Hl Hk Hj. symmetry. now apply trunc_in.
Qed.
Print Assumptions C138_slab.
Theorem C138_coupled : forall T c E D N_ang ws mus cc c_a l S0 st ste st' ste' V ee t0 t1, consistent T ->
  fgeom c = Slab -> (2 <= fN c)%nat -> t0 <= t1 -> mesh_ok c E D t0 t1 ->
  (forall k, (k <= fN c)%nat -> continuous_on (D k) t0 t1) ->
  (forall s i, (s < fN c)%nat -> (i <= fM c)%nat -> continuous_on (S0 s i) t0 t1) -> steady c t0 t1 ->
  solves_thermal c E D N_ang ws mus cc c_a l ee S0 st' ste' V ee t0 t1 ->
  forall eps, 0 < eps -> exists delta, 0 < delta /\ forall hs y y', (forall h, In h hs -> 0 <= h <= delta) -> t0 + total hs <= t1 ->
    vector (S N_ang) (fN c) (fM c) y -> rk_run T (coupledR c E D N_ang ws mus cc c_a l S0 st ste) t0 y hs y' ->
    (forall s i, (s < fN c)%nat -> (i <= fM c)%nat -> Rabs (y (N_ang, s, i) - ee s i t0) <= delta /\ forall a, (a < N_ang)%nat -> Rabs (y (a, s, i) - V a s i t0) <= delta) ->
    forall s i, (s < fN c)%nat -> (i <= fM c)%nat -> Rabs (y' (N_ang, s, i) - ee s i (t0 + total hs)) <= eps /\ forall a, (a < N_ang)%nat -> Rabs (y' (a, s, i) - V a s i (t0 + total hs)) <= eps.
Proof.
  intros T c E D N_ang ws mus cc c_a l S0 st ste st' ste' V ee t0 t1 HT Hg HN Hle HM HD HS Hst HV eps He.
  pose (J := fun a s i => if (a =? N_ang)%nat then ee s i else V a s i).
  destruct (conv_gen (S N_ang) (fN c) (fM c) (coupledR c E D N_ang ws mus cc c_a l S0 st ste) J t0 t1 T Hle HT) with (eps := eps) as (d & Pd & H); auto.
  - intros a s i Ha Hs Hi. now apply coupledR_LF.
  - intros t y [[a s] i] Q. unfold coupledR. now rewrite Q.
  - intros t a s i Ht Ha Hs Hi. unfold coupledR. rewrite (proj2 (active_iff _ _ _ a s i) (conj Ha (conj Hs Hi))).
    pose (Y := fun p : idx => let '(a, s, i) := p in J a s i t).
    assert (SM : same c (S N_ang) Y (fun q => trunc (S N_ang) (fN c) (fM c) J q t)) by (intros l0 k j Hl Hk Hj; symmetry; now apply trunc_in).
    destruct (HV t Ht s i Hs Hi) as [D1 D2].
    assert (YE : (fun j => Y (N_ang, s, j)) = (fun j => ee s j t)) by (unfold Y, J; rewrite Nat.eqb_refl; reflexivity).
    assert (JV : forall l0 k j, (l0 < N_ang)%nat -> V l0 k j t = Y (l0, k, j)) by (intros l0 k j Hl; unfold Y, J; destruct (Nat.eqb_spec l0 N_ang); [lia|reflexivity]).
    unfold J at 1. destruct (Nat.eqb_spec a N_ang) as [->|Na].
    + eapply dd_eq; [exact D2|].
      rewrite (enerF_is c E D t0 t1 Hg HN HM (ste t s) N_ang ws c_a l t (fun j => S0 s j t) (fun q => trunc (S N_ang) (fN c) (fM c) J q t) s i) by auto.
      rewrite <- (enerF_same c E D HN N_ang ws c_a l t (fun j => S0 s j t) Y) by auto.
      rewrite <- (enerF_is c E D t0 t1 Hg HN HM (ste' t s) N_ang ws c_a l t (fun j => S0 s j t) Y s i) by auto. rewrite YE.
      unfold slab_energy. cbv zeta.
      replace (make_P N_ang ws (fun l0 j => Y (l0, s, j)) i) with (make_P N_ang ws (fun l0 j => V l0 s j t) i).
      2: { unfold make_P. apply sumn_ext. intros l0 Hl. cbv beta. now rewrite (JV l0 s i Hl). }
      replace (fun k j => Y (N_ang, k, j)) with (fun k j => ee k j t) by (unfold Y, J; rewrite Nat.eqb_refl; reflexivity). cbv beta. rewrite ?YE. reflexivity.
    + eapply dd_eq; [apply D1; lia|].
      rewrite (thermF_is c E D t0 t1 Hg HN HM (st t a s) N_ang ws mus cc c_a l t (fun j => S0 s j t) (fun q => trunc (S N_ang) (fN c) (fM c) J q t) a s i) by auto.
      rewrite <- (thermF_same c E D HN N_ang ws mus cc c_a l t (fun j => S0 s j t) Y) by (auto; lia).
      rewrite <- (thermF_is c E D t0 t1 Hg HN HM (st' t a s) N_ang ws mus cc c_a l t (fun j => S0 s j t) Y a s i) by auto. rewrite YE.
      unfold slab_rhs_thermal. cbv zeta.
      replace (make_P N_ang ws (fun l0 j => Y (l0, s, j)) i) with (make_P N_ang ws (fun l0 j => V l0 s j t) i).
      2: { unfold make_P. apply sumn_ext. intros l0 Hl. cbv beta. now rewrite (JV l0 s i Hl). }
      replace (fun k j => Y (a, k, j)) with (fun k j => V a k j t) by (unfold Y, J; rewrite (proj2 (Nat.eqb_neq a N_ang) Na); reflexivity).
      unfold Y, J. rewrite (proj2 (Nat.eqb_neq a N_ang) Na). reflexivity.
  - exists d. split; auto. intros hs y y' Hh Hs Hv Hr Hy s i Hs' Hi.
    assert (K : forall a, (a < S N_ang)%nat -> Rabs (y' (a, s, i) - J a s i (t0 + total hs)) <= eps).
    { intros a Ha. apply (H hs y y'); auto. intros a' s' i' Ha' Hs'' Hi'. destruct (Hy s' i' Hs'' Hi') as [A B]. unfold J. destruct (Nat.eqb_spec a' N_ang) as [->|N]; [auto|apply B; lia]. }
    split; [specialize (K N_ang ltac:(lia)); unfold J in K; now rewrite Nat.eqb_refl in K|].
    intros a Ha. specialize (K a ltac:(lia)). unfold J in K. now rewrite (proj2 (Nat.eqb_neq a N_ang) ltac:(lia)) in K.
Qed.
Print Assumptions C138_coupled.
Theorem C138_sphere : forall T c E st st' V t0 t1, consistent T ->
  fgeom (rflux c) = Sphere -> (2 <= fN (rflux c))%nat -> (2 <= N_ang c)%nat -> t0 <= t1 -> sph_data c E t0 t1 ->
  sph_run c E st' V t0 t1 ->
  forall eps, 0 < eps -> exists delta, 0 < delta /\ forall hs y y', (forall h, In h hs -> 0 <= h <= delta) -> t0 + total hs <= t1 ->
    vector (N_ang c) (fN (rflux c)) (fM (rflux c)) y -> rk_run T (sphereR c st) t0 y hs y' ->
    (forall a s i, (a < N_ang c)%nat -> (s < fN (rflux c))%nat -> (i <= fM (rflux c))%nat -> Rabs (y (a, s, i) - V a s i t0) <= delta) ->
    forall a s i, (a < N_ang c)%nat -> (s < fN (rflux c))%nat -> (i <= fM (rflux c))%nat -> Rabs (y' (a, s, i) - V a s i (t0 + total hs)) <= eps.
Proof.
  intros T c E st st' V t0 t1 HT Hg HN HK Hle Hd HV.
  destruct (proj1 (C136_runs_iff c E st' t0 t1 Hg HN Hle Hd) (ex_intro _ V HV)) as [H10 Hok].
  pose proof Hd as Hd'. destruct Hd as (HA & HD & HS).
  assert (HM : forall t, t0 <= t <= t1 -> sph_mesh_at c E t) by (intros t Ht; apply (HA t Ht)).
  assert (HTb : forall t, t0 <= t <= t1 -> sph_tables_at c E t) by (intros t Ht; apply (HA t Ht)).
  assert (HR : forall t, t0 <= t <= t1 -> ~ right_on (rflux c) t) by (intros t Ht; apply (HA t Ht)).
  apply (conv_gen (N_ang c) (fN (rflux c)) (fM (rflux c)) (sphereR c st) V t0 t1 T Hle HT).
  - intros a s i Ha Hs Hi. now apply (sphereR_LF c E).
  - intros t y [[a s] i] Q. unfold sphereR. now rewrite Q.
  - intros t a s i Ht Ha Hs Hi. unfold sphereR. rewrite (proj2 (active_iff _ _ _ a s i) (conj Ha (conj Hs Hi))).
    destruct (HV t Ht) as (_ & _ & S0). destruct (S0 s Hs) as (W & EW & DW). eapply dd_eq; [now apply DW|].
    destruct (srhs_is c E t0 t1 Hg HN H10 HM HTb HR Hok (st t s) t (fun q => trunc (N_ang c) (fN (rflux c)) (fM (rflux c)) V q t) s Ht Hs) as (W1 & E1 & H1). rewrite E1.
    destruct (srhs_is c E t0 t1 Hg HN H10 HM HTb HR Hok (st' t s) t (fun p => let '(a, s, i) := p in V a s i t) s Ht Hs) as (W2 & E2 & H2).
    cbv beta iota in E2. rewrite EW in E2. injection E2 as <-. rewrite H1, H2 by lia. apply srhs_ext; auto.
    intros l k j Hl Hk Hj. symmetry. now apply trunc_in.
Qed.
Print Assumptions C138_sphere.
(** Short steps of any method, implicit ones too, exist and have one result. *)
Definition runs_exist (T : tableau) (F : R -> (idx -> R) -> idx -> R) (t0 t1 : R) : Prop :=
  exists delta, 0 < delta /\ forall hs t y, t0 <= t -> (forall h, In h hs -> 0 <= h <= delta) -> t + total hs <= t1 ->
  exists y', rk_run T F t y hs y' /\ forall y'', rk_run T F t y hs y'' -> forall p, y'' p = y' p.
Lemma runs_gen T A N M F t0 t1 : consistent T -> 
  (forall a s i, (a < A)%nat -> (s < N)%nat -> (i <= M)%nat -> LF idx t0 t1 (fun t y => F t y (a, s, i))) ->
  (forall t y p, active A N M p = false -> F t y p = 0) -> runs_exist T F t0 t1.
Proof.
  intros [_ HT] HL H0. apply (rk_exists_run idx t0 t1 (actives A N M) F); auto.
  - intros [[a s] i] Hp. apply actives_in in Hp. destruct Hp as (Ha & Hs & Hi). now apply HL.
  - intros [[a s] i]. destruct (active A N M (a, s, i)) eqn:Q; [left; apply actives_in; now apply active_iff in Q|right; intros; now apply H0].
Qed.
Theorem C138_runs_exist : forall T c E D N_ang ws mus cc c_a l S0 st ste t0 t1, consistent T ->
  fgeom c = Slab -> (2 <= fN c)%nat -> t0 <= t1 -> mesh_ok c E D t0 t1 ->
  (forall k, (k <= fN c)%nat -> continuous_on (D k) t0 t1) ->
  (forall s i, (s < fN c)%nat -> (i <= fM c)%nat -> continuous_on (S0 s i) t0 t1) -> steady c t0 t1 ->
  runs_exist T (slabR c E D N_ang ws mus cc S0 st) t0 t1 /\ runs_exist T (coupledR c E D N_ang ws mus cc c_a l S0 st ste) t0 t1.
Proof.
  intros T c E D N_ang ws mus cc c_a l S0 st ste t0 t1 HT Hg HN Hle HM HD HS Hst. split.
  - apply (runs_gen T N_ang (fN c) (fM c)); auto; [intros; now apply slabR_LF|intros t y [[a s] i] Q; unfold slabR; now rewrite Q].
  - apply (runs_gen T (S N_ang) (fN c) (fM c)); auto; [intros; now apply coupledR_LF|intros t y [[a s] i] Q; unfold coupledR; now rewrite Q].
Qed.
Print Assumptions C138_runs_exist.
Theorem C138_sphere_runs_exist : forall T c E st t0 t1, consistent T ->
  fgeom (rflux c) = Sphere -> (2 <= fN (rflux c))%nat -> (2 <= N_ang c)%nat -> t0 <= t1 -> sph_data c E t0 t1 -> (fM (rflux c) <= 10)%nat -> forallb (refl_ok c) (seq 0 (N_ang c)) = true ->
  runs_exist T (sphereR c st) t0 t1.
Proof.
  intros T c E st t0 t1 HT Hg HN HK Hle Hd H10 Hok.
  apply (runs_gen T (N_ang c) (fN (rflux c)) (fM (rflux c))); auto; [intros; now apply (sphereR_LF c E)|intros t y [[a s] i] Q; unfold sphereR; now rewrite Q].
Qed.
Print Assumptions C138_sphere_runs_exist.
(** Steps of an explicit method always exist, and the three explicit methods here are consistent. *)
Theorem C138_explicit_runs : forall T (F : R -> (idx -> R) -> idx -> R) t y hs, explicit T -> exists y', rk_run T F t y hs y'.
Proof. intros T F t y hs H. now apply explicit_run. Qed.
Print Assumptions C138_explicit_runs.
Lemma euler_ok : explicit euler /\ consistent euler.
Proof. split; [intros i j _ _; reflexivity|split; [cbn; lra|intros; cbn; lra]]. Qed.
Example rk45_ok : explicit rk45 /\ consistent rk45.
Proof.
  split.
  - intros i j Hi Hj. cbn in Hi, Hj. unfold rk45. cbn [rA]. do 6 (destruct i as [|i]; [do 6 (destruct j as [|j]; [try lia; reflexivity|]); lia|]). lia.
  - split; [unfold rk45; cbn; field|]. intros i Hi. cbn in Hi. do 6 (destruct i as [|i]; [unfold rk45; cbn; lra|]). lia.
Qed.
(** Together with the existence of the trajectory: from any start, the numbers an explicit method produces in finer and
    finer steps have a limit, the trajectory of the equations, uniformly over the interval. *)
Theorem C138_limit : forall T c E D N_ang ws mus cc S0 st y t0 t1, explicit T -> consistent T ->
  fgeom c = Slab -> (2 <= fN c)%nat -> t0 <= t1 -> mesh_ok c E D t0 t1 ->
  (forall k, (k <= fN c)%nat -> continuous_on (D k) t0 t1) ->
  (forall s i, (s < fN c)%nat -> (i <= fM c)%nat -> continuous_on (S0 s i) t0 t1) -> steady c t0 t1 -> vector N_ang (fN c) (fM c) y ->
  exists V, solves c E D N_ang ws mus cc S0 st V t0 t1 /\ (forall a s i, V a s i t0 = y (a, s, i)) /\
  forall eps, 0 < eps -> exists delta, 0 < delta /\ forall hs, (forall h, In h hs -> 0 <= h <= delta) -> t0 + total hs <= t1 ->
    (exists y', rk_run T (slabR c E D N_ang ws mus cc S0 st) t0 y hs y') /\
    forall y', rk_run T (slabR c E D N_ang ws mus cc S0 st) t0 y hs y' ->
      forall a s i, (a < N_ang)%nat -> (s < fN c)%nat -> (i <= fM c)%nat -> Rabs (y' (a, s, i) - V a s i (t0 + total hs)) <= eps.
Proof.
  intros T c E D N_ang ws mus cc S0 st y t0 t1 HX HT Hg HN Hle HM HD HS Hst Hy.
  destruct (C131_exists c E D N_ang ws mus cc S0 st (fun a s i => y (a, s, i)) t0 t1) as (V & HV & H0); auto.
  exists V. split; auto. split; auto. intros eps He.
  destruct (C138_slab T c E D N_ang ws mus cc S0 st st V t0 t1 HT Hg HN Hle HM HD HS Hst HV eps He) as (d & Pd & H).
  exists d. split; auto. intros hs Hh Hs. split; [now apply explicit_run|]. intros y' Hr. apply (H hs y y'); auto.
  intros a s i _ _ _. rewrite H0, Rminus_eq_0, Rabs_R0. lra.
Qed.
Print Assumptions C138_limit.
(** the growing mesh with a source at its left end, started from nothing, by the method of 'RK45' *)
Example C138_example : exists V, forall eps, 0 < eps -> exists delta, 0 < delta /\ forall hs, (forall h, In h hs -> 0 <= h <= delta) -> total hs <= 1 ->
  exists y', rk_run rk45 (slabR wC (fun k t => INR k * (1 + t)) (fun k _ => INR k) 2 (fun _ => 1 / 2) (fun a => if (a =? 0)%nat then -1 else 1) 1
    (fun _ _ t => t) (fun _ _ _ => {| sh := 0; shp := 0; shm := 0 |})) 0 (fun _ => 0) hs y' /\ Rabs (y' (1, 0, 0)%nat - V (total hs)) <= eps.
Proof.
  destruct (C138_limit rk45 wC (fun k t => INR k * (1 + t)) (fun k _ => INR k) 2 (fun _ => 1 / 2) (fun a => if (a =? 0)%nat then -1 else 1) 1
    (fun _ _ t => t) (fun _ _ _ => {| sh := 0; shp := 0; shm := 0 |}) (fun _ => 0) 0 1) as (V & _ & _ & H); try apply rk45_ok; try reflexivity; try (intros p _; reflexivity); try (cbn; lia); try lra.
  - intros t Ht. split.
    + intros k Hk. rewrite S_INR. assert (0 < 1 + t) by lra. lra.
    + intros k Hk. eapply dd_eq; [apply (dd_scal (fun t => 1 + t)); apply dd_plus; [apply dd_const|apply dd_id]|]. ring.
  - intros k Hk t Ht. apply cconst.
  - intros s i Hs Hi t Ht. apply cid.
  - apply C131_steady_when. right. split; [reflexivity|]. right. right. left. cbn. lra.
  - exists (V 1 0 0)%nat. intros eps He. destruct (H eps He) as (d & Pd & Hd). exists d. split; auto. intros hs Hh Hs.
    destruct (Hd hs Hh ltac:(lra)) as [[y' Hr] Hc]. exists y'. split; auto. specialize (Hc y' Hr 1 0 0)%nat. rewrite Rplus_0_l in Hc. apply Hc; cbn; lia.
Qed.
