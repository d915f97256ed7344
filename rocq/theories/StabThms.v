(** C103, C104: the L2 norm of the slab solution on a moving mesh. *)
From Coquelicot Require Import Coquelicot.
From Verif Require Import Py PyLemmas Calc Legendre DGModel DGSpec DGProofs DGInt DGBalance StabSpec StabProofs.

(* ---------------------------------------------------------------- C103 *)
(** Without a source and with nothing entering, the weighted squared norm changes at exactly this rate: minus the
    squared jumps at all faces, each times the speed relative to the moving face, minus twice the norm, plus the
    scattering gain. *)
Theorem C103_energy_balance : forall c E D N_ang ws mus cc st V t0 t1 t,
  fgeom c = Slab -> (2 <= fN c)%nat -> mesh_ok c E D t0 t1 -> t0 <= t <= t1 -> ~ left_on c t -> ~ right_on c t ->
  solves c E D N_ang ws mus cc (fun _ _ _ => 0) st V t0 t1 ->
  is_derive (fun w => energy c N_ang ws (fun k => E k w) (fun a s j => V a s j w)) t
   (- sumn N_ang (fun a => ws a * sumn (S (fN c)) (fun f => Rabs (mus a - D f t) *
         (side_r c (fun k => E k t) (fun s j => V a s j t) f - side_l c (fun k => E k t) (fun s j => V a s j t) f) ^ 2))
    - 2 * energy c N_ang ws (fun k => E k t) (fun a s j => V a s j t)
    + 2 * cc * normsq c (fun k => E k t) (fun s j => sumn N_ang (fun a => ws a * V a s j t))).
Proof.
  intros c E D N_ang ws mus cc st V t0 t1 t Hg HN HM Ht L R0 HS. destruct (HM t Ht) as [He HD].
  apply (energy_balance c t E (fun k => D k t) Hg HN He HD L R0 N_ang ws mus cc (st t) V (HS t Ht)).
Qed.
Print Assumptions C103_energy_balance.
(** Hence it decays, for every mesh motion, every number of cells and moments and every quadrature with nonnegative
    weights of sum one. *)
Theorem C103_energy_decays : forall c E D N_ang ws mus cc st V t0 t1,
  fgeom c = Slab -> (2 <= fN c)%nat -> t0 <= t1 -> mesh_ok c E D t0 t1 ->
  (forall t, t0 <= t <= t1 -> ~ left_on c t /\ ~ right_on c t) ->
  (forall a, (a < N_ang)%nat -> 0 <= ws a) -> sumn N_ang ws = 1 -> 0 <= cc ->
  solves c E D N_ang ws mus cc (fun _ _ _ => 0) st V t0 t1 ->
  energy c N_ang ws (fun k => E k t1) (fun a s j => V a s j t1) <=
  exp (- (2 * (1 - cc)) * (t1 - t0)) * energy c N_ang ws (fun k => E k t0) (fun a s j => V a s j t0).
Proof.
  intros c E D N_ang ws mus cc st V t0 t1 Hg HN Hle HM HB Hw H1 Hc HS.
  apply (decay (fun w => energy c N_ang ws (fun k => E k w) (fun a s j => V a s j w)) (2 * (1 - cc)) t0 t1 Hle).
  intros t Ht. destruct (HM t Ht) as [He HD]. destruct (HB t Ht) as [L R0].
  destruct (energy_rate c t E (fun k => D k t) Hg HN He HD L R0 N_ang ws mus cc (st t) V (HS t Ht) Hw H1 Hc) as (d & Hd & Hn).
  exists d. split; [exact Hd|]. unfold energy. replace (- (2 * (1 - cc))) with (- 2 * (1 - cc)) by ring. exact Hn.
Qed.
Print Assumptions C103_energy_decays.
Corollary C103_energy_never_grows : forall c E D N_ang ws mus cc st V t0 t1,
  fgeom c = Slab -> (2 <= fN c)%nat -> t0 <= t1 -> mesh_ok c E D t0 t1 ->
  (forall t, t0 <= t <= t1 -> ~ left_on c t /\ ~ right_on c t) ->
  (forall a, (a < N_ang)%nat -> 0 <= ws a) -> sumn N_ang ws = 1 -> 0 <= cc <= 1 ->
  solves c E D N_ang ws mus cc (fun _ _ _ => 0) st V t0 t1 ->
  energy c N_ang ws (fun k => E k t1) (fun a s j => V a s j t1) <= energy c N_ang ws (fun k => E k t0) (fun a s j => V a s j t0).
Proof.
  intros c E D N_ang ws mus cc st V t0 t1 Hg HN Hle HM HB Hw H1 Hc HS.
  pose proof (C103_energy_decays c E D N_ang ws mus cc st V t0 t1 Hg HN Hle HM HB Hw H1 (proj1 Hc) HS) as K.
  assert (P : 0 <= energy c N_ang ws (fun k => E k t0) (fun a s j => V a s j t0)).
  { apply sumn_nonneg. intros a Ha. apply Rmult_le_pos; [auto|]. apply normsq_nonneg. apply HM. lra. }
  assert (exp (- (2 * (1 - cc)) * (t1 - t0)) <= 1).
  { apply (Rle_trans _ (exp 0)); [|rewrite exp_0; lra]. destruct (Req_dec (- (2 * (1 - cc)) * (t1 - t0)) 0) as [->|N]; [lra|]. left. apply exp_increasing. nra. }
  nra.
Qed.
Print Assumptions C103_energy_never_grows.

(** a trajectory: two unit cells, constants, direction 1, scattering ratio 1/2, only the right cell filled *)
Definition sC : flux_cfg := {| fgeom := Slab; fM := 0; fN := 2; src4 := false; boundary_source := false;
  uncollided_on := false; ft0 := 1; bon_left := false; bon_right := false; strength := 0; fquad := nil |}.
Definition sE (k : nat) (w : R) : R := INR k.
Definition sV (a s i : nat) (t : R) : R := if (s =? 1)%nat then exp (- (3 / 2) * t) else 0.
Definition s0 : flux_state := {| sh := 0; shp := 0; shm := 0 |}.
Lemma sE_incr t : increasing 2 (fun k => sE k t).
Proof. intros k _. unfold sE. rewrite S_INR. lra. Qed.
Example C103_example_mesh t0 t1 : mesh_ok sC sE (fun _ _ => 0) t0 t1.
Proof. intros t _. split; [apply sE_incr|]. intros k _. exact (dd_const (INR k) t). Qed.
Lemma basis0 t s x : (s < 2)%nat -> basis Slab 0 x (sE s t) (sE (S s) t) = 1.
Proof.
  intros _. unfold basis, sE. rewrite S_INR. cbn [leg INR]. replace ((2 * 0 + 1) / (INR s + 1 - INR s)) with 1 by (field; lra). rewrite sqrt_1, leg_0. ring.
Qed.
Example C103_example t0 t1 : solves sC sE (fun _ _ => 0) 1 (fun _ => 1) (fun _ => 1) (1 / 2) (fun _ _ _ => 0) (fun _ _ _ => s0) sV t0 t1.
Proof.
  intros t Ht a s i Ha Hs Hi. assert (a = 0%nat) as -> by lia. cbn in Hi. assert (i = 0%nat) as -> by lia. cbn in Hs.
  unfold slab_rhs. cbv zeta.
  destruct (LU_formula sC t (fun k => sE k t) (fun _ => 0) (fun k j => sV 0 k j t) 1 (fun _ => 0) ltac:(cbn; lia) (sE_incr t) s0 s 0%nat Hs) as (vl & vr & F1 & F2 & ->).
  assert (P : 0 <= 1 - 0) by lra.
  pose proof (face_fun sC t (fun k => sE k t) (fun _ => 0) (fun k j => sV 0 k j t) 1 (fun _ => 0) ltac:(cbn; lia) (sE_incr t)) as FF.
  assert (vr = sV 0 s 0 t) as ->.
  { rewrite (FF _ _ _ F2 (face_from_left sC t (fun k => sE k t) (fun _ => 0) (fun k j => sV 0 k j t) 1 (fun _ => 0) s P Hs)).
    unfold field. cbn [fgeom fM sC]. cbn [sumn Nat.add]. rewrite basis0 by auto. ring. }
  assert (vl = 0) as ->.
  { destruct s as [|[|s]]; [| |lia].
    - apply (FF _ _ _ F1). apply face_in_l; [exact P|]. apply il_vac; [|reflexivity]. intros [X|[X _]]; discriminate.
    - rewrite (FF _ _ _ F1 (face_from_left sC t (fun k => sE k t) (fun _ => 0) (fun k j => sV 0 k j t) 1 (fun _ => 0) 0 P ltac:(cbn; lia))).
      unfold field, sV. cbn [fgeom fM sC]. cbn [sumn Nat.add Nat.eqb]. ring. }
  rewrite !basis0 by exact Hs. unfold dotv, make_P, G_slab, L_slab, L_const. cbn [fM sC Nat.add sumn wt fgeom Nat.eqb Nat.ltb Nat.leb].
  destruct s as [|[|s]]; [| |lia]; unfold sV; cbn [Nat.eqb].
  - eapply dd_eq; [apply dd_const|]. unfold sE. cbn [INR Nat.add]. field.
  - eapply dd_eq; [apply (dd_exp (fun z => - (3 / 2) * z)), (dd_scal (fun z => z)), dd_id|]. cbv beta. unfold sE. cbn [INR Nat.add]. cbn [andb]. field.
Qed.
(** its squared norm is exp (-3t): below the bound exp (-t) *)
Example C103_example_energy t : energy sC 1 (fun _ => 1) (fun k => sE k t) (fun a s j => sV a s j t) = exp (- 3 * t).
Proof.
  unfold energy. cbn [sumn]. rewrite normsq_coef by apply sE_incr. unfold sV. cbn [fN fM sC Nat.add sumn Nat.eqb].
  replace (- 3 * t) with (- (3 / 2) * t + - (3 / 2) * t) by field. rewrite exp_plus. ring.
Qed.

(* ---------------------------------------------------------------- C104 *)
(** Two trajectories with the same source, the same boundary data and the same mesh motion: their distance decays. *)
Theorem C104_distance_decays : forall c E D N_ang ws mus cc S0 st st' V W t0 t1,
  fgeom c = Slab -> (2 <= fN c)%nat -> t0 <= t1 -> mesh_ok c E D t0 t1 ->
  (forall a, (a < N_ang)%nat -> 0 <= ws a) -> sumn N_ang ws = 1 -> 0 <= cc ->
  solves c E D N_ang ws mus cc S0 st V t0 t1 -> solves c E D N_ang ws mus cc S0 st' W t0 t1 ->
  energy c N_ang ws (fun k => E k t1) (fun a s j => V a s j t1 - W a s j t1) <=
  exp (- (2 * (1 - cc)) * (t1 - t0)) * energy c N_ang ws (fun k => E k t0) (fun a s j => V a s j t0 - W a s j t0).
Proof.
  intros c E D N_ang ws mus cc S0 st st' V W t0 t1 Hg HN Hle HM Hw H1 Hc HV HW.
  apply (C103_energy_decays (closed c) E D N_ang ws mus cc st (fun a s j w => V a s j w - W a s j w) t0 t1 Hg HN Hle HM); auto.
  - intros t _. split; [apply closed_l|apply closed_r].
  - intros t Ht a s i Ha Hs Hi. eapply dd_eq; [apply (dd_minus (V a s i) (W a s i)); [apply (HV t Ht)|apply (HW t Ht)]; auto|].
    destruct (HM t Ht) as [He _]. apply rhs_minus; auto.
Qed.
Print Assumptions C104_distance_decays.
(** In particular the coefficients at a later time are determined by those at the first. *)
Theorem C104_unique : forall c E D N_ang ws mus cc S0 st st' V W t0 t1,
  fgeom c = Slab -> (2 <= fN c)%nat -> t0 <= t1 -> mesh_ok c E D t0 t1 ->
  (forall a, (a < N_ang)%nat -> 0 < ws a) -> sumn N_ang ws = 1 -> 0 <= cc ->
  solves c E D N_ang ws mus cc S0 st V t0 t1 -> solves c E D N_ang ws mus cc S0 st' W t0 t1 ->
  (forall a s i, (a < N_ang)%nat -> (s < fN c)%nat -> (i <= fM c)%nat -> V a s i t0 = W a s i t0) ->
  forall a s i, (a < N_ang)%nat -> (s < fN c)%nat -> (i <= fM c)%nat -> V a s i t1 = W a s i t1.
Proof.
  intros c E D N_ang ws mus cc S0 st st' V W t0 t1 Hg HN Hle HM Hw H1 Hc HV HW H0 a s i Ha Hs Hi.
  assert (Hw' : forall a, (a < N_ang)%nat -> 0 <= ws a) by (intros; left; auto).
  pose proof (C104_distance_decays c E D N_ang ws mus cc S0 st st' V W t0 t1 Hg HN Hle HM Hw' H1 Hc HV HW) as K.
  destruct (HM t0 ltac:(lra)) as [I0 _]. destruct (HM t1 ltac:(lra)) as [I1 _].
  replace (energy c N_ang ws (fun k => E k t0) (fun a s j => V a s j t0 - W a s j t0)) with 0 in K.
  2: { symmetry. apply sumn_zero. intros b Hb. rewrite normsq_coef by auto. rewrite sumn_zero; [ring|]. intros k Hk. apply sumn_zero. intros j Hj.
       rewrite H0 by (auto; lia). ring. }
  rewrite Rmult_0_r in K.
  assert (N1 : forall b, (b < N_ang)%nat -> 0 <= ws b * normsq c (fun k => E k t1) (fun s j => V b s j t1 - W b s j t1)).
  { intros b Hb. apply Rmult_le_pos; [auto|]. now apply normsq_nonneg. }
  assert (Z : ws a * normsq c (fun k => E k t1) (fun s j => V a s j t1 - W a s j t1) = 0) by (apply (sumn_zero_inv N_ang _ N1 K a Ha)).
  apply Rmult_integral in Z. destruct Z as [Z|Z]; [specialize (Hw a Ha); lra|].
  rewrite normsq_coef in Z by auto.
  assert (Zs := sumn_zero_inv (fN c) (fun s => sumn (fM c + 1) (fun i => (V a s i t1 - W a s i t1) ^ 2))
     ltac:(intros; apply sumn_nonneg; intros; apply pow2_ge_0) ltac:(lra) s Hs). cbv beta in Zs.
  assert (Zi := sumn_zero_inv (fM c + 1) (fun i => (V a s i t1 - W a s i t1) ^ 2) ltac:(intros; apply pow2_ge_0) ltac:(lra) i ltac:(lia)). cbv beta in Zi.
  nra.
Qed.
Print Assumptions C104_unique.
(** the trajectory of [C103_example] and the zero trajectory solve the same problem; their distance is exp (-3t) *)
Example C104_example t0 t1 : solves sC sE (fun _ _ => 0) 1 (fun _ => 1) (fun _ => 1) (1 / 2) (fun _ _ _ => 0) (fun _ _ _ => s0) sV t0 t1 /\
  sumn 1 (fun _ => 1) = 1 /\ fgeom sC = Slab /\ (2 <= fN sC)%nat /\ mesh_ok sC sE (fun _ _ => 0) t0 t1.
Proof. split; [apply C103_example|]. split; [cbn; ring|]. split; [reflexivity|]. split; [cbn; lia|apply C103_example_mesh]. Qed.
