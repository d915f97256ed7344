(** C126, C127, C128: dependence on the source, particle numbers on meshes that follow the particles, and the decay of
    the coupled radiation and material energies. *)
From Coquelicot Require Import Coquelicot.
From Verif Require Import Py PyLemmas Calc Legendre Cheb DGModel DGSpec DGProofs DGInt DGBalance DGFinal StabSpec StabProofs StabThms SymSpec DepProofs.

(* ---------------------------------------------------------------- C126 *)
(** Two trajectories with the same mesh, quadrature and boundary data whose sources differ by at most s in norm: their
    distance grows by at most half of s per unit of time. *)
Theorem C126_source_dependence : forall c E D N_ang ws mus cc S1 S2 st st' V W t0 t1 s,
  fgeom c = Slab -> (2 <= fN c)%nat -> t0 <= t1 -> mesh_ok c E D t0 t1 ->
  (forall a, (a < N_ang)%nat -> 0 <= ws a) -> sumn N_ang ws = 1 -> 0 <= cc <= 1 ->
  solves c E D N_ang ws mus cc S1 st V t0 t1 -> solves c E D N_ang ws mus cc S2 st' W t0 t1 ->
  (forall t, t0 <= t <= t1 -> sqrt (normsq c (fun k => E k t) (fun k j => S1 k j t - S2 k j t)) <= s) ->
  sqrt (energy c N_ang ws (fun k => E k t1) (fun a s j => V a s j t1 - W a s j t1)) <=
  sqrt (energy c N_ang ws (fun k => E k t0) (fun a s j => V a s j t0 - W a s j t0)) + (t1 - t0) * (s / 2).
Proof.
  intros c E D N_ang ws mus cc S1 S2 st st' V W t0 t1 s Hg HN Hle HM Hw H1 Hc HV HW Hs.
  assert (Ps : 0 <= s) by (apply (Rle_trans _ _ _ (sqrt_pos _) (Hs t0 ltac:(lra)))).
  set (F := fun w => energy c N_ang ws (fun k => E k w) (fun a s j => V a s j w - W a s j w)).
  assert (F0 : forall t, t0 <= t <= t1 -> 0 <= F t).
  { intros t Ht. apply sumn_nonneg. intros a Ha. apply Rmult_le_pos; [auto|]. apply normsq_nonneg. apply HM. exact Ht. }
  change (sqrt (F t1) <= sqrt (F t0) + (t1 - t0) * (s / 2)).
  assert (X : forall k, 0 < k -> sqrt (F t1) <= sqrt (F t0) + (t1 - t0) * ((s + k) / 2)).
  { intros k Hk. apply (sqrt_growth F (s + k) t0 t1 Hle); [lra|exact F0|]. intros t Ht. destruct (HM t Ht) as [I K].
    destruct (source_rate (closed c) t E (fun k => D k t) Hg HN I K (closed_l c t) (closed_r c t) N_ang ws mus cc (st t)
       (fun a s j w => V a s j w - W a s j w) (fun k j => S1 k j t - S2 k j t)) as (r & Hr & Hn); auto; [|lra|].
    { intros a q i Ha Hq Hi. eapply dd_eq; [apply (dd_minus (V a q i) (W a q i)); [apply (HV t Ht)|apply (HW t Ht)]; auto|].
      rewrite (rhs_source (closed c) t E (fun k => D k t) N_ang ws mus cc (st t) (fun a s j w => V a s j w - W a s j w) (fun k j => S1 k j t - S2 k j t) a q i).
      rewrite (rhs_source c t E (fun k => D k t) N_ang ws mus cc (st t) V (fun k j => S1 k j t) a q i).
      rewrite (rhs_source c t E (fun k => D k t) N_ang ws mus cc (st' t) W (fun k j => S2 k j t) a q i).
      rewrite <- (rhs_minus c t (fun k => E k t) (fun k => D k t) Hg HN I (st t a q) (st' t a q) N_ang ws mus cc (fun _ => 0) (fun l k j => V l k j t) (fun l k j => W l k j t) a q i Hq). ring. }
    exists r. split; [exact Hr|]. intros G HG HFG.
    pose proof (source_bound (closed c) t E I N_ang ws (fun a s j w => V a s j w - W a s j w) (fun k j => S1 k j t - S2 k j t) Hw H1 (s + k) G ltac:(lra) HG) as B.
    assert (N0 : 0 <= normsq c (fun k => E k t) (fun k j => S1 k j t - S2 k j t)) by now apply normsq_nonneg.
    specialize (Hs t Ht). assert (NS : normsq c (fun k => E k t) (fun k j => S1 k j t - S2 k j t) <= (s + k) ^ 2).
    { rewrite <- (pow2_sqrt (normsq c (fun k => E k t) (fun k j => S1 k j t - S2 k j t))) by exact N0. apply pow_incr. split; [apply sqrt_pos|lra]. }
    specialize (B NS HFG). pose proof (F0 t Ht) as FT. unfold F in FT.
    change (energy (closed c) N_ang ws (fun k => E k t) (fun a s j => V a s j t - W a s j t)) with (energy c N_ang ws (fun k => E k t) (fun a s j => V a s j t - W a s j t)) in Hn.
    cbv beta in B, Hn. nra. }
  apply Rnot_lt_le. intros C. destruct (Req_dec t0 t1) as [<-|Nt].
  - specialize (X 1 ltac:(lra)). lra.
  - set (g := sqrt (F t1) - (sqrt (F t0) + (t1 - t0) * (s / 2))). assert (0 < g) by (unfold g; lra).
    specialize (X (g / (t1 - t0)) ltac:(apply Rdiv_lt_0_compat; lra)).
    replace ((t1 - t0) * ((s + g / (t1 - t0)) / 2)) with ((t1 - t0) * (s / 2) + g / 2) in X by (field; lra). unfold g in *. lra.
Qed.
Print Assumptions C126_source_dependence.
(** the update of the mesh of [C103_example] when only the right cell is filled *)
Definition rV (v : R) (a s i : nat) : R := if (s =? 1)%nat then v else 0.
Lemma right_cell_faces t v s : (s < 2)%nat -> exists vl vr, face sC t (fun k => sE k t) (fun _ => 0) (rV v 0) 1 (fun _ => 0) s vl /\ face sC t (fun k => sE k t) (fun _ => 0) (rV v 0) 1 (fun _ => 0) (S s) vr /\ vl = 0 /\ vr = rV v 0 s 0.
Proof.
  intros Hs. assert (P : 0 <= 1 - 0) by lra. exists 0, (rV v 0 s 0%nat). split; [|split; [|split; reflexivity]].
  - destruct s as [|[|s]]; [| |lia].
    + apply face_in_l; [exact P|]. apply il_vac; [|reflexivity]. intros [X|[X _]]; discriminate.
    + assert (Z : field (fgeom sC) (fM sC) (rV v 0 0%nat) (sE 0 t) (sE 1 t) (sE 1 t) = 0).
      * unfold field, rV. cbn [fgeom fM sC sumn Nat.add Nat.eqb]. ring.
      * pose proof (face_from_left sC t (fun k => sE k t) (fun _ => 0) (rV v 0) 1 (fun _ => 0) 0 P ltac:(cbn; lia)) as Y. cbv beta in Y. rewrite Z in Y. exact Y.
  - replace (rV v 0 s 0%nat) with (field (fgeom sC) (fM sC) (rV v 0 s) (sE s t) (sE (S s) t) (sE (S s) t)).
    + apply (face_from_left sC t (fun k => sE k t) (fun _ => 0) (rV v 0) 1 (fun _ => 0) s P). exact Hs.
    + unfold field. cbn [fgeom fM sC sumn Nat.add]. rewrite basis0 by auto. ring.
Qed.
Lemma right_cell t v s cc S0 : (s < 2)%nat ->
  slab_rhs sC s0 1 (fun _ => 1) (fun _ => 1) cc t (fun k => sE k t) (fun _ => 0) S0 (rV v) 0 s 0 = (if (s =? 1)%nat then - (2 - cc) * v else 0) + 1 / 2 * S0 0%nat.
Proof.
  intros Hs. unfold slab_rhs. cbv zeta.
  destruct (LU_formula sC t (fun k => sE k t) (fun _ => 0) (rV v 0) 1 (fun _ => 0) ltac:(cbn; lia) (sE_incr t) s0 s 0%nat Hs) as (vl & vr & F1 & F2 & ->).
  destruct (right_cell_faces t v s Hs) as (xl & xr & G1 & G2 & Exl & Exr).
  pose proof (face_fun sC t (fun k => sE k t) (fun _ => 0) (rV v 0) 1 (fun _ => 0) ltac:(cbn; lia) (sE_incr t)) as FF.
  rewrite (FF _ _ _ F1 G1), (FF _ _ _ F2 G2), Exl, Exr.
  rewrite !basis0 by exact Hs. unfold dotv, make_P, G_slab, L_slab, L_const. cbn [fM sC Nat.add sumn wt fgeom Nat.eqb Nat.ltb Nat.leb].
  destruct s as [|[|s]]; [| |lia]; unfold rV; cbn [Nat.eqb]; unfold sE; cbn [INR Nat.add andb]; field.
Qed.
(** Started at one with the source 3 the right cell keeps its value; without it the value decays like exp (-3t/2). The bound
    on the distance, 3t/2, has the right slope at the start. *)
Example C126_example_steady t0 t1 : solves sC sE (fun _ _ => 0) 1 (fun _ => 1) (fun _ => 1) (1 / 2) (fun s _ _ => if (s =? 1)%nat then 3 else 0) (fun _ _ _ => s0) (fun a s i _ => rV 1 a s i) t0 t1.
Proof.
  intros t Ht a s i Ha Hs Hi. assert (a = 0%nat) as -> by lia. cbn in Hi. assert (i = 0%nat) as -> by lia. cbn in Hs.
  eapply dd_eq; [apply dd_const|]. symmetry. etransitivity; [apply right_cell; exact Hs|]. destruct (s =? 1)%nat; field.
Qed.
Example C126_example t : 0 <= t ->
  sqrt (energy sC 1 (fun _ => 1) (fun k => sE k t) (fun a s j => rV 1 a s j - sV a s j t)) <= 3 / 2 * t /\
  energy sC 1 (fun _ => 1) (fun k => sE k t) (fun a s j => rV 1 a s j - sV a s j t) = (1 - exp (- (3 / 2) * t)) ^ 2.
Proof.
  intros Ht. split.
  - assert (Z : energy sC 1 (fun _ => 1) (fun k => sE k 0) (fun a s j => rV 1 a s j - sV a s j 0) = 0).
    { unfold energy. cbn [sumn]. rewrite normsq_coef by apply sE_incr. unfold sV, rV. cbn [fN fM sC Nat.add sumn Nat.eqb]. rewrite Rmult_0_r, exp_0. ring. }
    assert (X := C126_source_dependence sC sE (fun _ _ => 0) 1 (fun _ => 1) (fun _ => 1) (1 / 2) (fun s _ _ => if (s =? 1)%nat then 3 else 0) (fun _ _ _ => 0) (fun _ _ _ => s0) (fun _ _ _ => s0)
      (fun a s i _ => rV 1 a s i) sV 0 t 3 eq_refl ltac:(cbn; lia) Ht (C103_example_mesh 0 t) ltac:(intros; lra) ltac:(cbn; ring) ltac:(lra) (C126_example_steady 0 t) (C103_example 0 t)).
    cbv beta in X. rewrite Z, sqrt_0 in X. replace (3 / 2 * t) with (0 + (t - 0) * (3 / 2)) by ring. apply X.
    intros w _. rewrite normsq_coef by apply sE_incr. cbn [fN fM sC Nat.add sumn Nat.eqb].
    replace (0 + (0 + (0 - 0) ^ 2) + (0 + (3 - 0) ^ 2)) with (3 ^ 2) by ring. rewrite sqrt_pow2; lra.
  - unfold energy. cbn [sumn]. rewrite normsq_coef by apply sE_incr. unfold sV, rV. cbn [fN fM sC Nat.add sumn Nat.eqb]. ring.
Qed.

(* ---------------------------------------------------------------- C127 *)
(** the number of particles in the mesh, all directions *)
Definition number (c : flux_cfg) (E : nat -> R -> R) (N_ang : nat) (ws : nat -> R) (V : nat -> nat -> nat -> R -> R) (t : R) : R :=
  sumn N_ang (fun a => ws a * sumn (fN c) (fun s => content c E (V a s) s t)).
(** The outer edges move at least as fast as the particles. *)
Definition outruns (c : flux_cfg) (D : nat -> R -> R) (N_ang : nat) (mus : nat -> R) (t : R) : Prop :=
  forall a, (a < N_ang)%nat -> D 0%nat t <= mus a <= D (fN c) t.
(** Then, with nothing coming in from outside, no particle leaves: the number changes by removal, scattering and the
    source alone. *)
Theorem C127_no_leak : forall c E D N_ang ws mus cc S0 st V t0 t1 t,
  fgeom c = Slab -> (2 <= fN c)%nat -> mesh_ok c E D t0 t1 -> t0 <= t <= t1 -> ~ left_on c t -> ~ right_on c t -> outruns c D N_ang mus t ->
  sumn N_ang ws = 1 -> solves c E D N_ang ws mus cc S0 st V t0 t1 ->
  is_derive (number c E N_ang ws V) t
    (- (1 - cc) * number c E N_ang ws V t + 1 / 2 * sumn (fN c) (fun s => RInt (field Slab (fM c) (fun j => S0 s j t) (E s t) (E (S s) t)) (E s t) (E (S s) t))).
Proof.
  intros c E D N_ang ws mus cc S0 st V t0 t1 t Hg HN HM Ht Vl Vr HO H1 HS. destruct (HM t Ht) as [I K].
  set (n := fun a => sumn (fN c) (fun s => content c E (V a s) s t)).
  set (Q := sumn (fN c) (fun s => RInt (field Slab (fM c) (fun j => S0 s j t) (E s t) (E (S s) t)) (E s t) (E (S s) t))).
  assert (X : forall a, (a < N_ang)%nat -> is_derive (fun w => sumn (fN c) (fun s => content c E (V a s) s w)) t (- n a + cc * number c E N_ang ws V t + 1 / 2 * Q)).
  { intros a Ha. destruct (HO a Ha) as [O1 O2].
    assert (F0 : face c t (fun k => E k t) (fun k => D k t) (fun k j => V a k j t) (mus a) (fun _ => 0) 0 0).
    { apply face_in_l; [lra|]. now apply il_vac. }
    assert (FN : exists vN, face c t (fun k => E k t) (fun k => D k t) (fun k j => V a k j t) (mus a) (fun _ => 0) (fN c) vN /\ (mus a - D (fN c) t) * vN = 0).
    { destruct (Req_dec (mus a) (D (fN c) t)) as [Q0|Q0].
      - destruct (fN c) as [|q] eqn:EN; [lia|]. eexists. split; [apply (face_from_left c t (fun k => E k t) (fun k => D k t) (fun k j => V a k j t) (mus a) (fun _ => 0) q); [lra|lia]|]. rewrite Q0. ring.
      - exists 0. split; [|ring]. apply (face_in_r c); [lra|]. now apply ir_vac. }
    destruct FN as (vN & FN & ZN).
    eapply dd_eq; [apply (balance_total c t E (fun k => D k t) Hg HN I K N_ang ws mus (st t a) cc (fun s j => S0 s j t) V a 0 vN); auto; intros s Hs; apply (HS t Ht a s 0%nat Ha Hs); lia|].
    rewrite ZN, Rmult_0_r. rewrite !sumn_plus, !sumn_scal. unfold number.
    replace (sumn (fN c) (fun s => - content c E (V a s) s t)) with (- n a).
    2: { unfold n. rewrite <- (Rmult_1_l (sumn _ _)), Ropp_mult_distr_l, <- sumn_scal. apply sumn_ext. intros; ring. }
    replace (sumn N_ang (fun l => ws l * sumn (fN c) (fun s => content c E (V l s) s t))) with (sumn (fN c) (fun s => sumn N_ang (fun l => ws l * content c E (V l s) s t))).
    2: { rewrite sumn_swap. apply sumn_ext. intros; apply sumn_scal. }
    unfold Q, scontent. ring. }
  unfold number at 1. eapply dd_eq; [apply (dd_sumn N_ang (fun a w => ws a * sumn (fN c) (fun s => content c E (V a s) s w))); intros a Ha; apply dd_scal, X; exact Ha|].
  transitivity (- number c E N_ang ws V t + (cc * number c E N_ang ws V t + 1 / 2 * Q) * sumn N_ang ws); [|rewrite H1; ring].
  unfold number at 2. rewrite <- (Rmult_1_l (sumn N_ang (fun a => ws a * sumn _ _))), Ropp_mult_distr_l, <- !sumn_scal, <- sumn_plus. apply sumn_ext. intros a Ha. unfold n. ring.
Qed.
Print Assumptions C127_no_leak.
(** Without a source the number is known at all times. *)
Theorem C127_number : forall c E D N_ang ws mus cc st V t0 t1,
  fgeom c = Slab -> (2 <= fN c)%nat -> t0 <= t1 -> mesh_ok c E D t0 t1 ->
  (forall t, t0 <= t <= t1 -> ~ left_on c t /\ ~ right_on c t /\ outruns c D N_ang mus t) ->
  sumn N_ang ws = 1 -> solves c E D N_ang ws mus cc (fun _ _ _ => 0) st V t0 t1 ->
  number c E N_ang ws V t1 = exp (- (1 - cc) * (t1 - t0)) * number c E N_ang ws V t0.
Proof.
  intros c E D N_ang ws mus cc st V t0 t1 Hg HN Hle HM HB H1 HS.
  assert (X : forall t, t0 <= t <= t1 -> is_derive (number c E N_ang ws V) t (- (1 - cc) * number c E N_ang ws V t)).
  { intros t Ht. destruct (HB t Ht) as (L & R0 & O). eapply dd_eq; [apply (C127_no_leak c E D N_ang ws mus cc (fun _ _ _ => 0) st V t0 t1 t Hg HN HM Ht L R0 O H1 HS)|].
    rewrite sumn_zero; [ring|]. intros s Hs. rewrite (RInt_ext _ (fun _ => 0)); [rewrite RInt_const; unfold scal; cbn; unfold mult; cbn; ring|]. intros x _. unfold field. apply sumn_zero. intros; ring. }
  apply Rle_antisym.
  - apply (decay (number c E N_ang ws V) (1 - cc) t0 t1 Hle). intros t Ht. eexists. split; [apply X; exact Ht|]. lra.
  - assert (Y := decay (fun w => - number c E N_ang ws V w) (1 - cc) t0 t1 Hle). cbv beta in Y.
    assert (Y' : - number c E N_ang ws V t1 <= exp (- (1 - cc) * (t1 - t0)) * - number c E N_ang ws V t0); [|lra].
    apply Y. intros t Ht. eexists. split; [apply dd_opp, X; exact Ht|]. lra.
Qed.
Print Assumptions C127_number.
(** In a purely scattering medium it never changes. *)
Corollary C127_conserved : forall c E D N_ang ws mus st V t0 t1,
  fgeom c = Slab -> (2 <= fN c)%nat -> t0 <= t1 -> mesh_ok c E D t0 t1 ->
  (forall t, t0 <= t <= t1 -> ~ left_on c t /\ ~ right_on c t /\ outruns c D N_ang mus t) ->
  sumn N_ang ws = 1 -> solves c E D N_ang ws mus 1 (fun _ _ _ => 0) st V t0 t1 ->
  number c E N_ang ws V t1 = number c E N_ang ws V t0.
Proof.
  intros c E D N_ang ws mus st V t0 t1 Hg HN Hle HM HB H1 HS. rewrite (C127_number c E D N_ang ws mus 1 st V t0 t1 Hg HN Hle HM HB H1 HS).
  replace (- (1 - 1) * (t1 - t0)) with 0 by ring. rewrite exp_0. ring.
Qed.
Print Assumptions C127_conserved.
(** one direction, pure scattering, an expanding mesh: everything in the right cell, whose outer edge moves with the
    particles *)
Definition gE (k : nat) (w : R) : R := match k with 0%nat => - (1 + w) | 1%nat => 0 | _ => 1 + w end.
Definition gD (k : nat) (w : R) : R := match k with 0%nat => - 1 | 1%nat => 0 | _ => 1 end.
Definition gV (a s i : nat) (w : R) : R := if (s =? 1)%nat then / sqrt (1 + w) else 0.
Lemma gE_incr w : 0 <= w -> increasing 2 (fun k => gE k w).
Proof. intros Hw k Hk. destruct k as [|[|k]]; [| |lia]; unfold gE; lra. Qed.
Example C127_example_mesh t0 t1 : 0 <= t0 -> mesh_ok sC gE gD t0 t1 /\ forall t, outruns sC gD 1 (fun _ => 1) t.
Proof.
  intros H0. split.
  - intros t Ht. split; [apply gE_incr; lra|]. intros k _. destruct k as [|[|k]]; unfold gE, gD.
    + eapply dd_eq; [apply (dd_opp (fun z => 1 + z)), dd_plus; [apply dd_const|apply dd_id]|]. ring.
    + apply dd_const.
    + eapply dd_eq; [apply dd_plus; [apply dd_const|apply dd_id]|]. ring.
  - intros t a _. unfold gD. cbn. lra.
Qed.
Example C127_example t0 t1 : 0 <= t0 -> solves sC gE gD 1 (fun _ => 1) (fun _ => 1) 1 (fun _ _ _ => 0) (fun _ _ _ => s0) gV t0 t1.
Proof.
  intros H0 t Ht a s i Ha Hs Hi. assert (a = 0%nat) as -> by lia. cbn in Hi. assert (i = 0%nat) as -> by lia. cbn in Hs.
  assert (I := gE_incr t ltac:(lra)). assert (Pt : 0 < 1 + t) by lra. assert (Qt := sqrt_lt_R0 _ Pt).
  unfold slab_rhs. cbv zeta.
  destruct (LU_formula sC t (fun k => gE k t) (fun k => gD k t) (fun k j => gV 0 k j t) 1 (fun _ => 0) ltac:(cbn; lia) I s0 s 0%nat Hs) as (vl & vr & F1 & F2 & ->).
  pose proof (face_fun sC t (fun k => gE k t) (fun k => gD k t) (fun k j => gV 0 k j t) 1 (fun _ => 0) ltac:(cbn; lia) I) as FF.
  assert (Z : field Slab 0 (fun j => gV 0 0 j t) (gE 0 t) (gE 1 t) (gE 1 t) = 0) by (unfold field, gV; cbn [sumn Nat.add Nat.eqb]; ring).
  assert (L1 : face sC t (fun k => gE k t) (fun k => gD k t) (fun k j => gV 0 k j t) 1 (fun _ => 0) 1 0).
  { pose proof (face_from_left sC t (fun k => gE k t) (fun k => gD k t) (fun k j => gV 0 k j t) 1 (fun _ => 0) 0 ltac:(unfold gD; lra) ltac:(cbn; lia)) as Y.
    cbn [fgeom fM sC] in Y. rewrite Z in Y. exact Y. }
  unfold dotv, make_P, G_slab, L_slab, L_const. cbn [fM sC Nat.add sumn wt fgeom Nat.eqb Nat.ltb Nat.leb andb].
  destruct s as [|[|s]]; [| |lia].
  - assert (vl = 0) as ->.
    { apply (FF _ _ _ F1). apply face_in_l; [unfold gD; lra|]. apply il_vac; [|reflexivity]. intros [X|[X _]]; discriminate. }
    rewrite (FF _ _ _ F2 L1). unfold gV; cbn [Nat.eqb]. eapply dd_eq; [apply dd_const|]. unfold gE; cbn [Nat.add]. field. lra.
  - rewrite (FF _ _ _ F1 L1). unfold gV; cbn [Nat.eqb].
    eapply dd_eq; [apply (dd_inv (fun z => sqrt (1 + z))); [apply (dd_sqrt (fun z => 1 + z)); [apply dd_plus; [apply dd_const|apply dd_id]|exact Pt]|lra]|].
    unfold gE, gD. cbn [Nat.add]. replace (1 - 1) with 0 by ring. cbn [INR].
    replace (1 + t) with (sqrt (1 + t) * sqrt (1 + t)) at 4 by (apply sqrt_sqrt; lra). field. lra.
Qed.

(* ---------------------------------------------------------------- C128 *)
(** With the emission of the Su-Olson closure (emission = material energy), no source and nothing entering, the squared
    norm of the radiation plus a quarter of that of the material energy changes at exactly this rate: the jumps at the
    faces, the deviation from isotropy, the deviation from albedo one and the deviation from equilibrium all lower it. *)
Theorem C128_coupled_balance : forall c E D N_ang ws mus cc c_a l st ste V ee t0 t1 t,
  fgeom c = Slab -> (2 <= fN c)%nat -> mesh_ok c E D t0 t1 -> t0 <= t <= t1 -> ~ left_on c t -> ~ right_on c t -> 0 < l ->
  solves_thermal c E D N_ang ws mus cc c_a l ee (fun _ _ _ => 0) st ste V ee t0 t1 ->
  let e k := E k t in
  let mean s j := sumn N_ang (fun a => ws a * V a s j t) in
  let jumps u mul := sumn (S (fN c)) (fun f => Rabs (mul - D f t) * (side_r c e u f - side_l c e u f) ^ 2) in
  is_derive (fun w => energy c N_ang ws (fun k => E k w) (fun a s j => V a s j w) + 1 / 4 * normsq c (fun k => E k w) (fun s j => ee s j w)) t
   (- sumn N_ang (fun a => ws a * jumps (fun s j => V a s j t) (mus a)) - 1 / 4 * jumps (fun s j => ee s j t) 0
    - 2 / l * (energy c N_ang ws e (fun a s j => V a s j t) - normsq c e mean)
    - 2 * (1 - cc - c_a) / l * normsq c e mean
    - 2 * c_a / l * normsq c e (fun s j => mean s j - ee s j t / 2)).
Proof.
  intros c E D N_ang ws mus cc c_a l st ste V ee t0 t1 t Hg HN HM Ht Vl Vr Hl HS. destruct (HM t Ht) as [I K]. cbv zeta.
  apply (coupled_balance c t E (fun k => D k t) Hg HN I K Vl Vr N_ang ws mus cc c_a l (st t) (ste t) V ee); auto.
  - intros a s i Ha Hs Hi. apply (HS t Ht s i Hs Hi). exact Ha.
  - intros s i Hs Hi. apply (HS t Ht s i Hs Hi).
Qed.
Print Assumptions C128_coupled_balance.
(** Hence it never grows when scattering and absorption together remove no less than they return. *)
Theorem C128_coupled_decay : forall c E D N_ang ws mus cc c_a l st ste V ee t0 t1,
  fgeom c = Slab -> (2 <= fN c)%nat -> t0 <= t1 -> mesh_ok c E D t0 t1 ->
  (forall t, t0 <= t <= t1 -> ~ left_on c t /\ ~ right_on c t) ->
  (forall a, (a < N_ang)%nat -> 0 <= ws a) -> sumn N_ang ws = 1 -> 0 <= c_a -> cc + c_a <= 1 -> 0 < l ->
  solves_thermal c E D N_ang ws mus cc c_a l ee (fun _ _ _ => 0) st ste V ee t0 t1 ->
  energy c N_ang ws (fun k => E k t1) (fun a s j => V a s j t1) + 1 / 4 * normsq c (fun k => E k t1) (fun s j => ee s j t1) <=
  energy c N_ang ws (fun k => E k t0) (fun a s j => V a s j t0) + 1 / 4 * normsq c (fun k => E k t0) (fun s j => ee s j t0).
Proof.
  intros c E D N_ang ws mus cc c_a l st ste V ee t0 t1 Hg HN Hle HM HB Hw H1 Ha Hc Hl HS.
  assert (X := decay (fun w => energy c N_ang ws (fun k => E k w) (fun a s j => V a s j w) + 1 / 4 * normsq c (fun k => E k w) (fun s j => ee s j w)) 0 t0 t1 Hle).
  cbv beta in X. replace (- 0 * (t1 - t0)) with 0 in X by ring. rewrite exp_0, Rmult_1_l in X. apply X. clear X.
  intros t Ht. destruct (HB t Ht) as [L R0]. destruct (HM t Ht) as [I _].
  eexists. split; [apply (C128_coupled_balance c E D N_ang ws mus cc c_a l st ste V ee t0 t1 t Hg HN HM Ht L R0 Hl HS)|].
  rewrite Ropp_0, Rmult_0_l.
  assert (JP : forall u mul, 0 <= sumn (S (fN c)) (fun f => Rabs (mul - D f t) * (side_r c (fun k => E k t) u f - side_l c (fun k => E k t) u f) ^ 2)).
  { intros u mul. apply sumn_nonneg. intros f _. apply Rmult_le_pos; [apply Rabs_pos|apply pow2_ge_0]. }
  assert (JS : 0 <= sumn N_ang (fun a => ws a * sumn (S (fN c)) (fun f => Rabs (mus a - D f t) * (side_r c (fun k => E k t) (fun s j => V a s j t) f - side_l c (fun k => E k t) (fun s j => V a s j t) f) ^ 2))).
  { apply sumn_nonneg. intros a Hb. apply Rmult_le_pos; [auto|apply JP]. }
  assert (MN := mean_norm c t E I N_ang ws V Hw H1). fold (energy c N_ang ws (fun k => E k t) (fun a s j => V a s j t)) in MN.
  assert (N1 := normsq_nonneg c (fun k => E k t) (fun s j => sumn N_ang (fun a => ws a * V a s j t)) I).
  assert (N2 := normsq_nonneg c (fun k => E k t) (fun s j => sumn N_ang (fun a => ws a * V a s j t) - ee s j t / 2) I).
  specialize (JP (fun s j => ee s j t) 0).
  assert (P1 : 0 <= 2 / l) by (apply Rlt_le, Rdiv_lt_0_compat; lra).
  assert (P2 : 0 <= 2 * (1 - cc - c_a) / l) by (apply Rmult_le_pos; [lra|left; now apply Rinv_0_lt_compat]).
  assert (P3 : 0 <= 2 * c_a / l) by (apply Rmult_le_pos; [lra|left; now apply Rinv_0_lt_compat]).

  assert (Q1 := Rmult_le_pos _ _ P1 (proj1 (Rminus_le_0 _ _) MN)). assert (Q2 := Rmult_le_pos _ _ P2 N1). assert (Q3 := Rmult_le_pos _ _ P3 N2). lra.
Qed.
Print Assumptions C128_coupled_decay.
(** Two solutions with the same source and boundary data: their distance never grows, so the initial values determine
    both fields. *)
Theorem C128_coupled_distance : forall c E D N_ang ws mus cc c_a l S0 st ste st' ste' V ee W ff t0 t1,
  fgeom c = Slab -> (2 <= fN c)%nat -> t0 <= t1 -> mesh_ok c E D t0 t1 ->
  (forall a, (a < N_ang)%nat -> 0 <= ws a) -> sumn N_ang ws = 1 -> 0 <= c_a -> cc + c_a <= 1 -> 0 < l ->
  solves_thermal c E D N_ang ws mus cc c_a l ee S0 st ste V ee t0 t1 -> solves_thermal c E D N_ang ws mus cc c_a l ff S0 st' ste' W ff t0 t1 ->
  energy c N_ang ws (fun k => E k t1) (fun a s j => V a s j t1 - W a s j t1) + 1 / 4 * normsq c (fun k => E k t1) (fun s j => ee s j t1 - ff s j t1) <=
  energy c N_ang ws (fun k => E k t0) (fun a s j => V a s j t0 - W a s j t0) + 1 / 4 * normsq c (fun k => E k t0) (fun s j => ee s j t0 - ff s j t0).
Proof.
  intros c E D N_ang ws mus cc c_a l S0 st ste st' ste' V ee W ff t0 t1 Hg HN Hle HM Hw H1 Ha Hc Hl HV HW.
  apply (C128_coupled_decay (closed c) E D N_ang ws mus cc c_a l st ste (fun a s j w => V a s j w - W a s j w) (fun s j w => ee s j w - ff s j w) t0 t1 Hg HN Hle HM); auto.
  - intros t _. split; [apply closed_l|apply closed_r].
  - intros t Ht s i Hs Hi. destruct (HM t Ht) as [I _]. destruct (HV t Ht s i Hs Hi) as [X1 X2]. destruct (HW t Ht s i Hs Hi) as [Y1 Y2]. split.
    + intros a Hb. eapply dd_eq; [apply (dd_minus (V a s i) (W a s i)); [apply X1|apply Y1]; auto|]. apply thermal_minus; auto; lra.
    + eapply dd_eq; [apply (dd_minus (ee s i) (ff s i)); [apply X2|apply Y2]|]. apply (energy_minus c t (fun k => E k t) (fun k => D k t) Hg HN I); auto; lra.
Qed.
Print Assumptions C128_coupled_distance.
Theorem C128_coupled_unique : forall c E D N_ang ws mus cc c_a l S0 st ste st' ste' V ee W ff t0 t1,
  fgeom c = Slab -> (2 <= fN c)%nat -> t0 <= t1 -> mesh_ok c E D t0 t1 ->
  (forall a, (a < N_ang)%nat -> 0 < ws a) -> sumn N_ang ws = 1 -> 0 <= c_a -> cc + c_a <= 1 -> 0 < l ->
  solves_thermal c E D N_ang ws mus cc c_a l ee S0 st ste V ee t0 t1 -> solves_thermal c E D N_ang ws mus cc c_a l ff S0 st' ste' W ff t0 t1 ->
  (forall s i, (s < fN c)%nat -> (i <= fM c)%nat -> ee s i t0 = ff s i t0 /\ forall a, (a < N_ang)%nat -> V a s i t0 = W a s i t0) ->
  forall s i, (s < fN c)%nat -> (i <= fM c)%nat -> ee s i t1 = ff s i t1 /\ forall a, (a < N_ang)%nat -> V a s i t1 = W a s i t1.
Proof.
  intros c E D N_ang ws mus cc c_a l S0 st ste st' ste' V ee W ff t0 t1 Hg HN Hle HM Hw H1 Hca Hc Hl HV HW H0 s i Hs Hi.
  assert (Hw' : forall a, (a < N_ang)%nat -> 0 <= ws a) by (intros; left; auto).
  pose proof (C128_coupled_distance c E D N_ang ws mus cc c_a l S0 st ste st' ste' V ee W ff t0 t1 Hg HN Hle HM Hw' H1 Hca Hc Hl HV HW) as K.
  destruct (HM t0 ltac:(lra)) as [I0 _]. destruct (HM t1 ltac:(lra)) as [I1 _].
  assert (NZ : forall x : nat -> nat -> R, (forall s i, (s < fN c)%nat -> (i <= fM c)%nat -> x s i = 0) -> normsq c (fun k => E k t0) x = 0).
  { intros x Hx. rewrite normsq_coef by auto. apply sumn_zero. intros k Hk. apply sumn_zero. intros j Hj. rewrite Hx by (auto; lia). ring. }
  rewrite (NZ (fun s j => ee s j t0 - ff s j t0)) in K by (intros k j Hk Hj; rewrite (proj1 (H0 k j Hk Hj)); ring).
  replace (energy c N_ang ws (fun k => E k t0) (fun a s j => V a s j t0 - W a s j t0)) with 0 in K.
  2: { symmetry. apply sumn_zero. intros b Hb. rewrite (NZ (fun s j => V b s j t0 - W b s j t0)); [ring|]. intros k j Hk Hj. rewrite (proj2 (H0 k j Hk Hj) b Hb). ring. }
  assert (N1 : forall b, (b < N_ang)%nat -> 0 <= ws b * normsq c (fun k => E k t1) (fun s j => V b s j t1 - W b s j t1)).
  { intros b Hb. apply Rmult_le_pos; [auto|]. now apply normsq_nonneg. }
  assert (N2 := normsq_nonneg c (fun k => E k t1) (fun s j => ee s j t1 - ff s j t1) I1).
  assert (N3 : 0 <= energy c N_ang ws (fun k => E k t1) (fun a s j => V a s j t1 - W a s j t1)) by (apply sumn_nonneg; auto).
  assert (ZI : forall x : nat -> nat -> R, normsq c (fun k => E k t1) x = 0 -> x s i = 0).
  { intros x Hx. rewrite normsq_coef in Hx by auto.
    assert (Zs := sumn_zero_inv (fN c) (fun s => sumn (fM c + 1) (fun i => x s i ^ 2)) ltac:(intros; apply sumn_nonneg; intros; apply pow2_ge_0) ltac:(lra) s Hs). cbv beta in Zs.
    assert (Zi := sumn_zero_inv (fM c + 1) (fun i => x s i ^ 2) ltac:(intros; apply pow2_ge_0) ltac:(lra) i ltac:(lia)). cbv beta in Zi. nra. }
  split.
  - assert (Z := ZI (fun s j => ee s j t1 - ff s j t1) ltac:(lra)). cbv beta in Z. lra.
  - intros a Ha.
    assert (Z : ws a * normsq c (fun k => E k t1) (fun s j => V a s j t1 - W a s j t1) = 0) by (apply (sumn_zero_inv N_ang _ N1 ltac:(unfold energy in *; lra) a Ha)).
    apply Rmult_integral in Z. destruct Z as [Z|Z]; [specialize (Hw a Ha); lra|]. apply ZI in Z. cbv beta in Z. lra.
Qed.
Print Assumptions C128_coupled_unique.
(** a trajectory: radiation and material of the right cell decay together, like exp (-t/4), the material six times as
    large *)
Example C128_example t0 t1 : solves_thermal sC sE (fun _ _ => 0) 1 (fun _ => 1) (fun _ => 1) (5 / 8) (3 / 8) 1
  (fun s _ t => if (s =? 1)%nat then 6 * exp (- (1 / 4) * t) else 0) (fun _ _ _ => 0) (fun _ _ _ => s0) (fun _ _ => s0)
  (fun a s i t => rV (exp (- (1 / 4) * t)) a s i) (fun s _ t => if (s =? 1)%nat then 6 * exp (- (1 / 4) * t) else 0) t0 t1.
Proof.
  intros t Ht s i Hs Hi. cbn in Hi. assert (i = 0%nat) as -> by lia. cbn in Hs.
  assert (DE : is_derive (fun w => exp (- (1 / 4) * w)) t (- (1 / 4) * exp (- (1 / 4) * t))).
  { eapply dd_eq; [apply (dd_exp (fun z => - (1 / 4) * z)), (dd_scal (fun z => z)), dd_id|]. ring. }
  split.
  - intros a Ha. assert (a = 0%nat) as -> by lia. set (v := exp (- (1 / 4) * t)) in *.
    assert (R1 : slab_rhs_thermal sC s0 1 (fun _ => 1) (fun _ => 1) (5 / 8) (3 / 8) 1 t (fun k => sE k t) (fun _ => 0) (fun j => if (s =? 1)%nat then 6 * v else 0) (fun _ => 0) (rV v) 0 s 0 =
      slab_rhs sC s0 1 (fun _ => 1) (fun _ => 1) (5 / 8) t (fun k => sE k t) (fun _ => 0) (fun _ => 0) (rV v) 0 s 0 + 3 / 8 * (1 / 2) * (if (s =? 1)%nat then 6 * v else 0)).
    { unfold slab_rhs_thermal, slab_rhs. cbv zeta. cbn [Nat.eqb uncollided_on sC]. field. }

    eapply dd_eq; [|symmetry; etransitivity; [exact R1|rewrite right_cell by exact Hs; reflexivity]].
    unfold rV. destruct (s =? 1)%nat; [|eapply dd_eq; [apply dd_const|field]]. eapply dd_eq; [exact DE|]. fold v. field.
  - unfold slab_energy. cbv zeta.
    destruct (LU_formula sC t (fun k => sE k t) (fun _ => 0) (fun k j => if (k =? 1)%nat then 6 * exp (- (1 / 4) * t) else 0) 0 (fun _ => 0) ltac:(cbn; lia) (sE_incr t) s0 s 0%nat Hs) as (vl & vr & _ & _ & ->).
    unfold dotv, make_P, G_slab, rV. cbn [fM sC uncollided_on Nat.add sumn wt fgeom Nat.eqb Nat.ltb Nat.leb].
    destruct (s =? 1)%nat.
    + eapply dd_eq; [apply (dd_scal (fun w => exp (- (1 / 4) * w))); exact DE|]. unfold sE. rewrite Nat.add_1_r, S_INR. field. lra.
    + eapply dd_eq; [apply dd_const|]. unfold sE. rewrite Nat.add_1_r, S_INR. field. lra.
Qed.
