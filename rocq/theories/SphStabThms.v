(** C134: the square norm of spherical runs. *)
From Coq Require Import ZArith QArith Qreals.
From Coquelicot Require Import Coquelicot.
From Verif Require Import Py PyLemmas Calc Legendre Cheb DGModel DGSpec DGProofs DGInt DGBalance MatModel RhsModel RhsProofs
  SpherePoly SphereProofs SphereBal SphereWeak SphereThms StabProofs PosDef SphMass SphMassThms SphUnif SphUnifThms SphEnergy SphSpec SphStab.
Open Scope R_scope.

(** The rate of the squared norm: minus the squared jumps at the faces and the outflow, each times the speed relative to the
    moving face, plus the angular term, which vanishes for directions in the middles of their angular cells, plus collisions
    and source. *)
Theorem C134_energy_identity : forall c t E V st,
  fgeom (rflux c) = Sphere -> (2 <= fN (rflux c))%nat -> (2 <= N_ang c)%nat -> directions (N_ang c) (mus c) ->
  sph_mesh_at c E t -> sph_tables_at c E t -> sph_solves_at c st V t -> ~ right_on (rflux c) t ->
  is_derive (sph_energy c E V) t
   (sumn (N_ang c) (fun a => awidth (N_ang c) (mus c) a * sumn (fN (rflux c)) (fun s =>
      - E (S s) t ^ 2 * Rabs (mus c a - r_Dedges c t (S s)) * (psi_at c E V a s t (E (S s) t) - outside c E V a s t) ^ 2
      + 2 * ((aedge (N_ang c) (mus c) a + aedge (N_ang c) (mus c) (S a)) / 2 - mus c a) * RInt (fun x => x * psi_at c E V a s t x ^ 2) (E s t) (E (S s) t)
      + 2 * sigma_s c * RInt (fun x => x ^ 2 * psi_at c E V a s t x * sumn (N_ang c) (fun l => wsa c l * psi_at c E V l s t x)) (E s t) (E (S s) t)
      - 2 * RInt (fun x => x ^ 2 * psi_at c E V a s t x ^ 2) (E s t) (E (S s) t)
      + sigma_s c * sumn (fM (rflux c) + 1) (fun i => V a s i t * Src c t (E s t) (E (S s) t) i)))).
Proof. intros c t E V st Hg HN HK Hd HM HT HS HR. exact (sphere_energy c t E V st Hg HN HK Hd HM HT HS HR). Qed.
Print Assumptions C134_energy_identity.

Lemma widths_sum N x : (2 <= N)%nat -> sumn N (awidth N x) = 2.
Proof. intros HN. unfold awidth. rewrite sumn_telescope. unfold aedge. rewrite Nat.eqb_refl. destruct (Nat.eqb_spec N 0); [lia|]. simpl. lra. Qed.
Lemma cs_weights N (w p : nat -> R) : (forall l, (l < N)%nat -> 0 <= w l) -> sumn N w = 2 -> sumn N (fun l => w l * p l) ^ 2 <= 2 * sumn N (fun l => w l * p l ^ 2).
Proof.
  intros Hw H2. set (m := sumn N (fun l => w l * p l) / 2).
  assert (Q : 0 <= sumn N (fun l => w l * (p l - m) ^ 2)) by (apply sumn_nonneg; intros; apply Rmult_le_pos; [auto|apply pow2_ge_0]).
  rewrite (sumn_ext N _ (fun l => (w l * p l ^ 2 + (- 2 * m) * (w l * p l)) + m ^ 2 * w l)) in Q by (intros; ring).
  rewrite !sumn_plus, !sumn_scal, H2 in Q. unfold m in Q. nra.
Qed.

Lemma energy_rate_le c t E V st :
  fgeom (rflux c) = Sphere -> (2 <= fN (rflux c))%nat -> (2 <= N_ang c)%nat -> directions (N_ang c) (mus c) ->
  sph_mesh_at c E t -> sph_tables_at c E t -> sph_solves_at c st V t -> ~ right_on (rflux c) t ->
  (forall a, (a < N_ang c)%nat -> (aedge (N_ang c) (mus c) a + aedge (N_ang c) (mus c) (S a)) / 2 <= mus c a) ->
  (forall l, (l < N_ang c)%nat -> wsa c l = awidth (N_ang c) (mus c) l / 2) -> 0 <= sigma_s c ->
  (forall s i, (s < fN (rflux c))%nat -> (i <= fM (rflux c))%nat -> Src c t (E s t) (E (S s) t) i = 0) ->
  exists d : R, is_derive (sph_energy c E V) t d /\ d <= - (2 * (1 - sigma_s c)) * sph_energy c E V t.
Proof.
  intros Hg HN HK Hd HM HT HS HR Ho Hw Hsg Hsrc. eexists. split; [eapply C134_energy_identity; eauto|].
  set (K := N_ang c). set (N := fN (rflux c)). set (x := mus c).
  pose (P := psi_at c E V). pose (DW := awidth K x).
  assert (PW : forall a, (a < K)%nat -> 0 < DW a) by (intros; now apply awidth_pos).
  assert (Hab : forall s, (s < N)%nat -> E s t < E (S s) t) by (intros s Hs; exact (proj1 (proj2 HM) s Hs)).
  assert (H0 : forall s, (s <= N)%nat -> 0 <= E s t).
  { intros s Hs. induction s as [|s IH]; [rewrite (proj1 (proj2 (proj2 HM))); lra|]. specialize (IH ltac:(lia)). specialize (Hab s ltac:(lia)). lra. }
  assert (CP : forall a s y, (s < N)%nat -> continuous (P a s t) y) by (intros; unfold P, psi_at; apply sph_field_cont; auto).
  assert (C1 : forall a s, (s < N)%nat -> forall y, continuous (fun x => x * P a s t x ^ 2) y) by (intros; apply cmult; [apply cid|apply cpow; auto]).
  assert (C2 : forall a s, (s < N)%nat -> forall y, continuous (fun x => x ^ 2 * P a s t x ^ 2) y) by (intros; apply cmult; [apply cpow, cid|apply cpow; auto]).
  assert (CS : forall (w : nat -> R) s, (s < N)%nat -> forall y, continuous (fun x => sumn K (fun l => w l * P l s t x)) y).
  { intros w s Hs y. clear - CP Hs. induction K as [|k IH]; cbn [sumn]; [apply cconst|]. apply cplus; [apply IH|]. apply cmult; [apply cconst|auto]. }
  assert (C3 : forall a s, (s < N)%nat -> forall y, continuous (fun x => x ^ 2 * P a s t x * sumn K (fun l => wsa c l * P l s t x)) y).
  { intros. apply cmult; [apply cmult; [apply cpow, cid|auto]|now apply CS]. }
  assert (T1 : forall a s, (a < K)%nat -> (s < N)%nat -> - E (S s) t ^ 2 * Rabs (mus c a - r_Dedges c t (S s)) * (P a s t (E (S s) t) - outside c E V a s t) ^ 2
      + 2 * ((aedge K x a + aedge K x (S a)) / 2 - mus c a) * RInt (fun x => x * P a s t x ^ 2) (E s t) (E (S s) t) <= 0).
  { intros a s Ha Hs. assert (J : 0 <= E (S s) t ^ 2 * Rabs (mus c a - r_Dedges c t (S s)) * (P a s t (E (S s) t) - outside c E V a s t) ^ 2).
    { apply Rmult_le_pos; [apply Rmult_le_pos; [apply pow2_ge_0|apply Rabs_pos]|apply pow2_ge_0]. }
    assert (I : 0 <= RInt (fun x => x * P a s t x ^ 2) (E s t) (E (S s) t)).
    { apply RInt_ge_0; [left; auto|apply ex_int; now apply C1|]. intros y Hy. apply Rmult_le_pos; [|apply pow2_ge_0]. specialize (H0 s ltac:(lia)). lra. }
    specialize (Ho a Ha). fold K in Ho. fold x in Ho. unfold x in *. nra. }
  assert (SC : forall s, (s < N)%nat -> sumn K (fun a => DW a * RInt (fun x => x ^ 2 * P a s t x * sumn K (fun l => wsa c l * P l s t x)) (E s t) (E (S s) t))
      <= sumn K (fun a => DW a * RInt (fun x => x ^ 2 * P a s t x ^ 2) (E s t) (E (S s) t))).
  { intros s Hs.
    assert (I1 : is_RInt (fun x => sumn K (fun a => DW a * (x ^ 2 * P a s t x * sumn K (fun l => wsa c l * P l s t x)))) (E s t) (E (S s) t)
       (sumn K (fun a => DW a * RInt (fun x => x ^ 2 * P a s t x * sumn K (fun l => wsa c l * P l s t x)) (E s t) (E (S s) t)))).
    { apply int_sumn. intros a _. apply int_scal, int_val. now apply C3. }
    assert (I2 : is_RInt (fun x => sumn K (fun a => DW a * (x ^ 2 * P a s t x ^ 2))) (E s t) (E (S s) t) (sumn K (fun a => DW a * RInt (fun x => x ^ 2 * P a s t x ^ 2) (E s t) (E (S s) t)))).
    { apply int_sumn. intros a _. apply int_scal, int_val. now apply C2. }
    apply (is_RInt_le _ _ _ _ _ _ (Rlt_le _ _ (Hab s Hs)) I1 I2). intros y Hy.
    rewrite (sumn_ext K _ (fun a => y ^ 2 * sumn K (fun l => wsa c l * P l s t y) * (DW a * P a s t y))) by (intros; ring).
    rewrite (sumn_ext K (fun a => DW a * (y ^ 2 * P a s t y ^ 2)) (fun a => y ^ 2 * (DW a * P a s t y ^ 2))) by (intros; ring).
    rewrite !sumn_scal.
    replace (sumn K (fun l => wsa c l * P l s t y)) with (1 / 2 * sumn K (fun l => DW l * P l s t y)).
    2: { rewrite <- sumn_scal. apply sumn_ext. intros l Hl. rewrite Hw by auto. unfold DW, K, x. field. }
    pose proof (cs_weights K DW (fun l => P l s t y) (fun l Hl => Rlt_le _ _ (PW l Hl)) (widths_sum K x HK)) as Q. cbv beta in Q.
    pose proof (pow2_ge_0 y). nra. }
  change (sph_energy c E V t) with (sumn K (fun a => DW a * sumn N (fun s => RInt (fun x => x ^ 2 * P a s t x ^ 2) (E s t) (E (S s) t)))).
  assert (SW : forall f : nat -> nat -> R, sumn K (fun a => DW a * sumn N (fun s => f a s)) = sumn N (fun s => sumn K (fun a => DW a * f a s))).
  { intros f. rewrite (sumn_ext K _ (fun a => sumn N (fun s => DW a * f a s))) by (intros; now rewrite <- sumn_scal). apply sumn_swap. }
  fold DW. rewrite (SW (fun a s => RInt (fun x => x ^ 2 * P a s t x ^ 2) (E s t) (E (S s) t))).
  eapply Rle_trans; [right; exact (SW (fun a s => - E (S s) t ^ 2 * Rabs (mus c a - r_Dedges c t (S s)) * (psi_at c E V a s t (E (S s) t) - outside c E V a s t) ^ 2
      + 2 * ((aedge (N_ang c) (mus c) a + aedge (N_ang c) (mus c) (S a)) / 2 - mus c a) * RInt (fun x => x * psi_at c E V a s t x ^ 2) (E s t) (E (S s) t)
      + 2 * sigma_s c * RInt (fun x => x ^ 2 * psi_at c E V a s t x * sumn (N_ang c) (fun l => wsa c l * psi_at c E V l s t x)) (E s t) (E (S s) t)
      - 2 * RInt (fun x => x ^ 2 * psi_at c E V a s t x ^ 2) (E s t) (E (S s) t)
      + sigma_s c * sumn (fM (rflux c) + 1) (fun i => V a s i t * Src c t (E s t) (E (S s) t) i)))|].
  rewrite <- sumn_scal. apply sumn_le. intros s Hs. specialize (SC s Hs).
  set (A := sumn K (fun a => DW a * RInt (fun x => x ^ 2 * P a s t x * sumn K (fun l => wsa c l * P l s t x)) (E s t) (E (S s) t))) in *.
  set (B := sumn K (fun a => DW a * RInt (fun x => x ^ 2 * P a s t x ^ 2) (E s t) (E (S s) t))) in *.
  apply (Rle_trans _ (2 * sigma_s c * A - 2 * B)); [|nra].
  unfold A, B. rewrite <- !sumn_scal, <- sumn_minus. apply sumn_le. intros a Ha.
  assert (Z : sumn (fM (rflux c) + 1) (fun i => V a s i t * Src c t (E s t) (E (S s) t) i) = 0).
  { apply sumn_zero. intros i Hi. rewrite Hsrc by (auto; lia). ring. }
  rewrite Z. specialize (T1 a s Ha Hs). specialize (PW a Ha). fold P. fold K. fold x.
  unfold x in T1 |- *. unfold K in T1 |- *.
  revert T1. generalize (- E (S s) t ^ 2 * Rabs (mus c a - r_Dedges c t (S s)) * (P a s t (E (S s) t) - outside c E V a s t) ^ 2).
  generalize (2 * ((aedge (N_ang c) (mus c) a + aedge (N_ang c) (mus c) (S a)) / 2 - mus c a) * RInt (fun x => x * P a s t x ^ 2) (E s t) (E (S s) t)).
  generalize (RInt (fun x => x ^ 2 * P a s t x * sumn (N_ang c) (fun l => wsa c l * P l s t x)) (E s t) (E (S s) t)).
  generalize (RInt (fun x => x ^ 2 * P a s t x ^ 2) (E s t) (E (S s) t)). intros q1 q2 q3 q4 T1.
  apply (Rle_trans _ (DW a * (0 + 2 * sigma_s c * q2 - 2 * q1 + 0))); [apply Rmult_le_compat_l; lra|right; ring].
Qed.

(** Directions in the middles of their angular cells, scattering weights half the widths, no source, nothing entering:
    the squared norm decays like exp (-2 (1 - sigma_s) t), whatever the motion of the mesh and the order. *)
Theorem C134_energy_decays : forall c E st V t0 t1,
  fgeom (rflux c) = Sphere -> (2 <= fN (rflux c))%nat -> (2 <= N_ang c)%nat -> t0 <= t1 ->
  (forall a, (a < N_ang c)%nat -> mus c a = -1 + (2 * INR a + 1) / INR (N_ang c) /\ wsa c a = 1 / INR (N_ang c)) -> 0 <= sigma_s c ->
  (forall t s i, t0 <= t <= t1 -> (s < fN (rflux c))%nat -> (i <= fM (rflux c))%nat -> Src c t (E s t) (E (S s) t) i = 0) ->
  (forall t, t0 <= t <= t1 -> ~ right_on (rflux c) t) ->
  sph_run c E st V t0 t1 ->
  sph_energy c E V t1 <= exp (- (2 * (1 - sigma_s c)) * (t1 - t0)) * sph_energy c E V t0.
Proof.
  intros c E st V t0 t1 Hg HN HK Hle Hdw Hsg Hsrc HR Hrun.
  assert (PK : 0 < INR (N_ang c)) by (apply lt_0_INR; lia).
  assert (Hd : directions (N_ang c) (mus c)).
  { refine (conj _ (conj _ _)).
    - intros a Ha. rewrite (proj1 (Hdw a ltac:(lia))), (proj1 (Hdw (S a) Ha)). rewrite S_INR.
      apply Rplus_lt_compat_l. apply Rmult_lt_compat_r; [apply Rinv_0_lt_compat; auto|lra].
    - rewrite (proj1 (Hdw 0%nat ltac:(lia))). simpl (INR 0).
      assert (0 < (2 * 0 + 1) / INR (N_ang c)) by (apply Rdiv_lt_0_compat; lra). lra.
    - rewrite (proj1 (Hdw (N_ang c - 1)%nat ltac:(lia))). rewrite minus_INR by lia. simpl (INR 1).
      apply Rplus_le_reg_l with 1. replace (1 + (-1 + (2 * (INR (N_ang c) - 1) + 1) / INR (N_ang c))) with (2 - 1 / INR (N_ang c)) by (field; lra).
      assert (0 < 1 / INR (N_ang c)) by (apply Rdiv_lt_0_compat; lra). lra. }
  assert (Hmid : forall a, (a < N_ang c)%nat -> mus c a = (aedge (N_ang c) (mus c) a + aedge (N_ang c) (mus c) (S a)) / 2).
  { apply (midpoints_only (N_ang c) (mus c) HK Hd). intros a Ha. apply (Hdw a Ha). }
  assert (Hw : forall a, (a <= N_ang c)%nat -> aedge (N_ang c) (mus c) a = -1 + 2 * INR a / INR (N_ang c)).
  { intros a Ha. unfold aedge. destruct (Nat.eqb_spec a 0) as [->|N0]; [simpl; field; lra|].
    destruct (Nat.eqb_spec a (N_ang c)) as [->|N1]; [field; lra|].
    rewrite (proj1 (Hdw a ltac:(lia))), (proj1 (Hdw (a - 1)%nat ltac:(lia))), minus_INR by lia. simpl (INR 1). field. lra. }
  apply (decay (sph_energy c E V) (2 * (1 - sigma_s c)) t0 t1 Hle). intros t Ht. destruct (Hrun t Ht) as (HM & HT & HS).
  apply (energy_rate_le c t E V (st t)); auto.
  - intros a Ha. right. symmetry. auto.
  - intros l Hl. rewrite (proj2 (Hdw l Hl)). unfold awidth. rewrite !Hw by lia. rewrite S_INR. field. lra.
Qed.
Print Assumptions C134_energy_decays.

(** the premise on the directions cannot be dropped: two Gauss directions, linear elements, a sphere of radius 1/10 filled
    with 1/10 - r in the inward direction, no scattering, no source, nothing entering, mesh at rest: the squared norm grows *)
Definition gE (k : nat) (w : R) : R := INR k / 20.
Definition gcfg (m : nat -> R) : rhs_cfg := {|
  rflux := {| fgeom := Sphere; fM := 1; fN := 2; src4 := false; boundary_source := false; uncollided_on := false;
              ft0 := 1; bon_left := false; bon_right := false; strength := 0; fquad := nil |};
  N_ang := 2; mus := m; wsa := fun _ => 1 / 2; sigma_s := 0; sigma_t := 1;
  r_edges := fun w k => gE k w; r_Dedges := fun _ _ => 0; tabs := ideal; inv := ginv 2; Src := fun _ _ _ _ => 0 |}.
Definition gv (a s j : nat) : R :=
  if (a =? 0)%nat then match j with O => (1 / 10 - (2 * INR s + 1) / 40) * sqrt (PI * (1 / 20)) | _ => - (1 / 40) * (sqrt (PI * (1 / 20)) / sqrt 2) end else 0.
Lemma gE_w s w : gE (S s) w - gE s w = 1 / 20.
Proof. unfold gE. rewrite S_INR. field. Qed.
Lemma gE_lt s w : gE s w < gE (S s) w.
Proof. pose proof (gE_w s w). lra. Qed.
Lemma g_field a s x w : field Sphere 1 (gv a s) (gE s w) (gE (S s) w) x = if (a =? 0)%nat then 1 / 10 - x else 0.
Proof.
  unfold field. cbn [sumn Nat.add]. unfold gv. destruct (a =? 0)%nat; [|ring].
  unfold basis. rewrite gE_w. cbn [Nat.eqb]. rewrite cheb_0, cheb_1. unfold refz. rewrite gE_w. pose proof PI_RGT_0.
  assert (P : 0 < PI * (1 / 20)) by lra. rewrite !sqrt_div_alt by auto. rewrite sqrt_1.
  assert (Q : 0 < sqrt (PI * (1 / 20))) by (apply sqrt_lt_R0; auto). assert (Q2 : 0 < sqrt 2) by (apply sqrt_lt_R0; lra).
  unfold gE. rewrite S_INR. field. split; lra.
Qed.
Lemma g_mesh m t : sph_mesh_at (gcfg m) gE t.
Proof.
  refine (conj (fun _ => eq_refl) (conj (fun k _ => gE_lt k t) (conj _ _))).
  - unfold gE. simpl. field.
  - intros k _. exact (dd_const (INR k / 20) t).
Qed.
Lemma g_tables m t : sph_tables_at (gcfg m) gE t.
Proof.
  intros s Hs. cbn zeta. assert (H : 0 <= gE s t < gE (S s) t) by (split; [unfold gE; pose proof (pos_INR s); lra|apply gE_lt]).
  assert (M1 : mass_exact ideal (1 + 1) (gE s t) (gE (S s) t)) by (apply ideal_mass; apply H).
  refine (conj M1 (conj _ (conj _ _))); [apply ideal_J; apply H|apply ideal_L; apply H|].
  intros x i Hi. apply ginv_right; [|exact Hi]. apply (mass_pdef ideal 1); tauto.
Qed.
Lemma g_runs m : m 1%nat = - m 0%nat -> m 0%nat < m 1%nat -> forall v s, exists W, rhs_space (gcfg m) (fun _ => st0) 0 v s = Ok W.
Proof.
  intros H1 H2 v s. apply C25_update_defined_iff; [reflexivity| |cbn; lia]. apply (refl_all_ok (gcfg m)); cbn [N_ang mus gcfg].
  - intros a Ha. assert (a = 0)%nat as -> by lia. auto.
  - intros a Ha. assert (a = 0 \/ a = 1)%nat as [-> | ->] by lia; cbn [Nat.sub]; lra.
Qed.
Lemma g_traj m : m 1%nat = - m 0%nat -> m 0%nat < m 1%nat -> exists V, sph_solves_at (gcfg m) (fun _ _ => st0) V 0 /\ forall a s j, V a s j 0 = gv a s j.
Proof.
  intros H1 H2. destruct (g_runs m H1 H2 gv 0) as (W0 & E0). destruct (g_runs m H1 H2 gv 1) as (W1 & E1).
  pose (W := fun s => match s with O => W0 | _ => W1 end).
  pose (V := fun (a s j : nat) (w : R) => gv a s j + W s a j * w).
  assert (EV : (fun l k j => V l k j 0) = gv).
  { do 3 (apply FunctionalExtensionality.functional_extensionality; intro). unfold V. ring. }
  exists V. split.
  - intros s Hs. exists (W s). rewrite EV. split.
    + cbn in Hs. assert (s = 0 \/ s = 1)%nat as [-> | ->] by lia; [exact E0|exact E1].
    + intros a j _ _. unfold V. eapply dd_eq; [apply dd_plus; [apply dd_const|apply dd_scal, dd_id]|ring].
  - intros a s j. unfold V. ring.
Qed.
Lemma g_int1 p q : is_RInt (fun x => x * (1 / 10 - x) ^ 2) p q ((q ^ 2 / 200 - q ^ 3 / 15 + q ^ 4 / 4) - (p ^ 2 / 200 - p ^ 3 / 15 + p ^ 4 / 4)).
Proof.
  apply (int_ftc (fun x => x ^ 2 / 200 - x ^ 3 / 15 + x ^ 4 / 4)).
  - intros x. auto_derive; [auto|]. field.
  - intros x. apply cmult; [apply cid|apply cpow, cminus; [apply cconst|apply cid]].
Qed.
Lemma g_int2 p q : is_RInt (fun x => x ^ 2 * (1 / 10 - x) ^ 2) p q ((q ^ 3 / 300 - q ^ 4 / 20 + q ^ 5 / 5) - (p ^ 3 / 300 - p ^ 4 / 20 + p ^ 5 / 5)).
Proof.
  apply (int_ftc (fun x => x ^ 3 / 300 - x ^ 4 / 20 + x ^ 5 / 5)).
  - intros x. auto_derive; [auto|]. field.
  - intros x. apply cmult; [apply cpow, cid|apply cpow, cminus; [apply cconst|apply cid]].
Qed.
Lemma g_psi m V a s x : (forall a s j, V a s j 0 = gv a s j) -> psi_at (gcfg m) gE V a s 0 x = if (a =? 0)%nat then 1 / 10 - x else 0.
Proof. intros H. rewrite <- (g_field a s x 0). unfold psi_at, field. cbn [rflux gcfg fM]. apply sumn_ext. intros. now rewrite H. Qed.
Theorem C134_gauss_directions_grow_refuted : exists c E V st d,
  fgeom (rflux c) = Sphere /\ (2 <= fN (rflux c))%nat /\ N_ang c = 2%nat /\ (forall l, (l < 2)%nat -> mus c l ^ 2 = 1 / 3 /\ wsa c l = 1 / 2) /\
  directions 2 (mus c) /\ sigma_s c = 0 /\ (forall a b i, Src c 0 a b i = 0) /\ (forall k, r_Dedges c 0 k = 0) /\
  sph_mesh_at c E 0 /\ sph_tables_at c E 0 /\ sph_solves_at c st V 0 /\ ~ right_on (rflux c) 0 /\
  is_derive (sph_energy c E V) 0 d /\ 0 < d.
Proof.
  destruct g2_dir as [Hd B]. assert (G1 : g2 1%nat = - g2 0%nat) by (unfold g2; cbn [Nat.eqb]; lra). assert (G2 : g2 0%nat < g2 1%nat) by (unfold g2; cbn [Nat.eqb]; lra).
  destruct (g_traj g2 G1 G2) as (V & HS & HV).
  assert (HR : ~ right_on (rflux (gcfg g2)) 0) by (intros [X|[X _]]; discriminate).
  pose proof (C134_energy_identity (gcfg g2) 0 gE V (fun _ _ => st0) eq_refl (le_n 2) (le_n 2) Hd (g_mesh g2 0) (g_tables g2 0) HS HR) as K.
  exists (gcfg g2), gE, V, (fun _ _ => st0). eexists.
  refine (conj eq_refl (conj (le_n 2) (conj eq_refl (conj _ (conj Hd (conj eq_refl (conj (fun _ _ _ => eq_refl) (conj (fun _ => eq_refl)
    (conj (g_mesh g2 0) (conj (g_tables g2 0) (conj HS (conj HR (conj K _))))))))))))).
  - intros l _. split; [|reflexivity]. cbn [gcfg mus]. unfold g2. pose proof (sqrt_sqrt 3 ltac:(lra)) as S3.
    assert (0 < sqrt 3) by (apply sqrt_lt_R0; lra).
    destruct (l =? 0)%nat; (transitivity (1 / (sqrt 3 * sqrt 3)); [field; lra|rewrite S3; reflexivity]).
  - cbn [N_ang gcfg fN rflux sumn mus r_Dedges sigma_s wsa Src fM Nat.add].
    assert (O : forall a s, outside (gcfg g2) gE V a s 0 = if (S s =? 2)%nat then 0 else if (a =? 0)%nat then 1 / 10 - gE (S s) 0 else 0).
    { intros a s. unfold outside. cbn [fN rflux gcfg]. destruct (S s =? 2)%nat; auto. apply (g_psi g2); auto. }
    assert (I1 : forall s, RInt (fun x => x * psi_at (gcfg g2) gE V 0 s 0 x ^ 2) (gE s 0) (gE (S s) 0)
       = (gE (S s) 0 ^ 2 / 200 - gE (S s) 0 ^ 3 / 15 + gE (S s) 0 ^ 4 / 4) - (gE s 0 ^ 2 / 200 - gE s 0 ^ 3 / 15 + gE s 0 ^ 4 / 4)).
    { intros s. apply int_uniq. eapply int_ext; [|apply g_int1]. intros x. cbv beta. rewrite (g_psi g2 V 0 s x HV). reflexivity. }
    assert (I2 : forall s, RInt (fun x => x ^ 2 * psi_at (gcfg g2) gE V 0 s 0 x ^ 2) (gE s 0) (gE (S s) 0)
       = (gE (S s) 0 ^ 3 / 300 - gE (S s) 0 ^ 4 / 20 + gE (S s) 0 ^ 5 / 5) - (gE s 0 ^ 3 / 300 - gE s 0 ^ 4 / 20 + gE s 0 ^ 5 / 5)).
    { intros s. apply int_uniq. eapply int_ext; [|apply g_int2]. intros x. cbv beta. rewrite (g_psi g2 V 0 s x HV). reflexivity. }
    assert (I3 : forall s, RInt (fun x => x * psi_at (gcfg g2) gE V 1 s 0 x ^ 2) (gE s 0) (gE (S s) 0) = 0).
    { intros s. apply int_uniq. eapply int_ext; [|apply (int_eq (fun _ => 0) _ _ _ _ (int_const 0 _ _)); ring]. intros x. cbv beta. rewrite (g_psi g2 V 1 s x HV). cbn [Nat.eqb]. ring. }
    assert (I4 : forall s, RInt (fun x => x ^ 2 * psi_at (gcfg g2) gE V 1 s 0 x ^ 2) (gE s 0) (gE (S s) 0) = 0).
    { intros s. apply int_uniq. eapply int_ext; [|apply (int_eq (fun _ => 0) _ _ _ _ (int_const 0 _ _)); ring]. intros x. cbv beta. rewrite (g_psi g2 V 1 s x HV). cbn [Nat.eqb]. ring. }
    rewrite !O, !(g_psi g2 V _ _ _ HV), !I1, !I2, !I3, !I4. cbn [Nat.eqb].
    unfold awidth, aedge. cbn [Nat.eqb Nat.sub]. unfold gE. cbn [INR]. 
    assert (Q : 1 / 14 < 1 / sqrt 3 - 1 / 2).
    { pose proof (sqrt_sqrt 3 ltac:(lra)) as S3. assert (S3p : 0 < sqrt 3) by (apply sqrt_lt_R0; lra). assert (S3u : sqrt 3 < 7 / 4) by nra.
      assert (4 / 7 < 1 / sqrt 3); [|lra]. apply Rmult_lt_reg_r with (sqrt 3); [auto|]. replace (1 / sqrt 3 * sqrt 3) with 1 by (field; lra). lra. }
    unfold g2. cbn [Nat.eqb]. revert Q. generalize (1 / sqrt 3). intros q Q.
    set (Z1 := RInt _ _ _). set (Z2 := RInt _ _ _). set (Z3 := RInt _ _ _). set (Z4 := RInt _ _ _).
    clearbody Z1 Z2 Z3 Z4. field_simplify. lra.
Qed.
Print Assumptions C134_gauss_directions_grow_refuted.
(** a run to which the decay applies exists; see C136 for runs in general *)
Example C134_example : exists V, sph_solves_at (gcfg (mus scfg)) (fun _ _ => st0) V 0 /\ (forall a s j, V a s j 0 = gv a s j) /\
  sph_mesh_at (gcfg (mus scfg)) gE 0 /\ sph_tables_at (gcfg (mus scfg)) gE 0 /\ ~ right_on (rflux (gcfg (mus scfg))) 0.
Proof.
  destruct (g_traj (mus scfg)) as (V & HS & HV); [cbn [mus scfg Nat.eqb]; lra|cbn [mus scfg Nat.eqb]; lra|].
  exists V. refine (conj HS (conj HV (conj (g_mesh _ 0) (conj (g_tables _ 0) _)))). intros [X|[X _]]; discriminate.
Qed.
