(** C122: the piecewise-constant slab scheme preserves order on moving meshes, the piecewise-linear one does not. *)
From Coquelicot Require Import Coquelicot.
From Verif Require Import Py PyLemmas Calc Legendre Cheb DGModel DGSpec DGProofs DGInt DGBalance DGFinal StabSpec StabProofs StabThms ErrSpec PosProofs.

(** the computed angular flux in direction a at the point x of cell s *)
Definition value (c : flux_cfg) (E : nat -> R -> R) (V : nat -> nat -> nat -> R -> R) (a s : nat) (x t : R) : R :=
  field Slab (fM c) (fun j => V a s j t) (E s t) (E (S s) t) x.
(** the number of particles in cell s in direction a *)
Lemma const_content c E (V : nat -> nat -> nat -> R -> R) a s t x : fM c = 0%nat -> E s t < E (S s) t ->
  content c E (V a s) s t / (E (S s) t - E s t) = value c E V a s x t.
Proof.
  intros HM Hlt. unfold content, value. assert (F : forall z, field Slab (fM c) (fun j => V a s j t) (E s t) (E (S s) t) z = V a s 0%nat t / sqrt (E (S s) t - E s t)).
  { intros z. rewrite HM. unfold field. cbn [Nat.add sumn]. rewrite DGInt.basis0 by auto. field. assert (0 < sqrt (E (S s) t - E s t)) by (apply sqrt_lt_R0; lra). lra. }
  rewrite F. rewrite (RInt_ext _ (fun _ => V a s 0%nat t / sqrt (E (S s) t - E s t))) by (intros; apply F).
  rewrite RInt_const. unfold scal. cbn. unfold mult. cbn. field. split; [|lra]. assert (0 < sqrt (E (S s) t - E s t)) by (apply sqrt_lt_R0; lra). lra.
Qed.
(** what enters, as a function of time *)
Definition lin (c : flux_cfg) (E : nat -> R -> R) (t : R) : R :=
  v0_ c t (fun k => E k t) (fun _ _ => 0) (fun _ => 0) (make_h c (fun k => E k t) 0 {| sh := 0; shp := 0; shm := 0 |}) 0.
Definition rin (c : flux_cfg) (E : nat -> R -> R) (t : R) : R :=
  v3_ c t (fun k => E k t) (fun _ _ => 0) (fun _ => 0) (make_h c (fun k => E k t) (fN c - 1) {| sh := 0; shp := 0; shm := 0 |}) (fN c - 1).

Section Traj.
Variables (c : flux_cfg) (E D : nat -> R -> R) (N_ang : nat) (ws mus : nat -> R) (cc : R) (S0 : nat -> nat -> R -> R)
  (st : R -> nat -> nat -> flux_state) (V : nat -> nat -> nat -> R -> R) (t0 t1 : R).
Hypothesis Hg : fgeom c = Slab.
Hypothesis HN : (2 <= fN c)%nat.
Hypothesis HM : fM c = 0%nat.
Hypothesis Hmesh : mesh_ok c E D t0 t1.
Hypothesis HV : solves c E D N_ang ws mus cc S0 st V t0 t1.
Lemma lin_in t : t0 <= t <= t1 -> inflow_l c t (fun k => E k t) (fun _ => 0) (lin c E t).
Proof. intros Ht. apply v0_bd; auto. now apply Hmesh. Qed.
Lemma rin_in t : t0 <= t <= t1 -> inflow_r c t (fun k => E k t) (rin c E t).
Proof. intros Ht. apply (v3_bd c t (fun k => E k t) (fun _ _ => 0) (fun _ => 0)); auto. now apply Hmesh. Qed.
Lemma sent_face a f t : t0 <= t <= t1 -> (f <= fN c)%nat ->
  face c t (fun k => E k t) (fun k => D k t) (fun k j => V a k j t) (mus a) (fun _ => 0) f
    (sent (fN c) E D mus (fun a s => content c E (V a s) s) (fun _ => lin c E) (fun _ => rin c E) a f t).
Proof.
  intros Ht Hf. destruct (Hmesh t Ht) as [He _]. unfold sent. destruct (Rle_dec 0 (mus a - D f t)) as [P|P].
  - destruct f as [|k].
    + apply face_in_l; [exact P|now apply lin_in].
    + rewrite (const_content c E V a k t (E (S k) t) HM) by (apply (He k); lia). unfold value. rewrite <- Hg.
      apply (face_from_left c t (fun k => E k t) (fun k => D k t) (fun k j => V a k j t) (mus a) (fun _ => 0) k); [exact P|lia].
  - destruct (Nat.ltb_spec f (fN c)).
    + rewrite (const_content c E V a f t (E f t) HM) by (apply (He f); lia). unfold value. rewrite <- Hg.
      apply (face_from_right c t (fun k => E k t) (fun k => D k t) (fun k j => V a k j t) (mus a) (fun _ => 0) f); [lra|lia].
    + assert (f = fN c) as -> by lia. apply face_in_r; [lra|now apply rin_in].
Qed.
Lemma content_rate t a s : t0 <= t <= t1 -> (a < N_ang)%nat -> (s < fN c)%nat ->
  is_derive (content c E (V a s) s) t
   ((mus a - D s t) * sent (fN c) E D mus (fun a s => content c E (V a s) s) (fun _ => lin c E) (fun _ => rin c E) a s t
    - (mus a - D (S s) t) * sent (fN c) E D mus (fun a s => content c E (V a s) s) (fun _ => lin c E) (fun _ => rin c E) a (S s) t
    - content c E (V a s) s t + cc * sumn N_ang (fun l => ws l * content c E (V l s) s t)
    + 1 / 2 * (sqrt (E (S s) t - E s t) * S0 s 0%nat t)).
Proof.
  intros Ht Ha Hs. destruct (Hmesh t Ht) as [He HD]. eapply dd_eq.
  - apply (balance c t E (fun k => D k t) Hg HN He HD N_ang ws mus (st t a s) cc (fun j => S0 s j t) V a s); [exact Hs| | |].
    + apply (HV t Ht a s 0%nat); auto; lia.
    + apply sent_face; auto; lia.
    + apply sent_face; auto; lia.
  - rewrite (scontent_val c t E He) by auto. reflexivity.
Qed.
End Traj.

(** Two trajectories on the same moving mesh, constants in the cells.  If the first starts below the second, has the
    smaller source and the smaller values entering, it stays below, for every scattering ratio and every mesh motion
    with continuous velocities. *)
Theorem C122_order_preserved : forall c c' E D N_ang ws mus cc S0 S1 st st' V W t0 t1,
  fgeom c = Slab -> fgeom c' = Slab -> (2 <= fN c)%nat -> fN c' = fN c -> fM c = 0%nat -> fM c' = 0%nat ->
  t0 <= t1 -> mesh_ok c E D t0 t1 -> mesh_c1 c E D ->
  (forall a, (a < N_ang)%nat -> 0 <= ws a) -> 0 <= cc ->
  solves c E D N_ang ws mus cc S0 st V t0 t1 -> solves c' E D N_ang ws mus cc S1 st' W t0 t1 ->
  (forall s t, (s < fN c)%nat -> t0 <= t <= t1 -> S0 s 0%nat t <= S1 s 0%nat t) ->
  (forall t v w, t0 <= t <= t1 -> inflow_l c t (fun k => E k t) (fun _ => 0) v -> inflow_l c' t (fun k => E k t) (fun _ => 0) w -> v <= w) ->
  (forall t v w, t0 <= t <= t1 -> inflow_r c t (fun k => E k t) v -> inflow_r c' t (fun k => E k t) w -> v <= w) ->
  (forall a s x, (a < N_ang)%nat -> (s < fN c)%nat -> value c E V a s x t0 <= value c' E W a s x t0) ->
  forall a s x, (a < N_ang)%nat -> (s < fN c)%nat -> value c E V a s x t1 <= value c' E W a s x t1.
Proof.
  intros c c' E D N_ang ws mus cc S0 S1 st st' V W t0 t1 Hg Hg' HN HN' HM HM' Hle Hm Hm1 Hw Hc HV HW HS HL HR H0 a s x Ha Hs.
  assert (Hm' : mesh_ok c' E D t0 t1) by (intros t Ht; rewrite HN'; now apply Hm).
  pose (y := fun a s t => content c' E (W a s) s t - content c E (V a s) s t).
  assert (Y : forall a s t x, t0 <= t <= t1 -> (s < fN c)%nat -> y a s t = (E (S s) t - E s t) * (value c' E W a s x t - value c E V a s x t)).
  { intros b k t z Ht Hk. destruct (Hm t Ht) as [He _]. pose proof (He k Hk) as X. cbv beta in X.
    rewrite <- (const_content c' E W b k t z HM' X), <- (const_content c E V b k t z HM X). unfold y. field. lra. }
  assert (P : 0 <= y a s t1).
  { apply (stays_nonneg (fN c) N_ang E D ws mus cc t0 t1 Hle (fun t Ht => proj1 (Hm t Ht)) Hm1 Hw Hc y
      (fun _ t => lin c' E t - lin c E t) (fun _ t => rin c' E t - rin c E t)); auto.
    - intros b t Hb Ht. split; intros _.
      + pose proof (HL t _ _ Ht (lin_in c E D t0 t1 HN Hm t Ht) (lin_in c' E D t0 t1 ltac:(lia) Hm' t Ht)). lra.
      + pose proof (HR t _ _ Ht (rin_in c E D t0 t1 HN Hm t Ht) (rin_in c' E D t0 t1 ltac:(lia) Hm' t Ht)). lra.
    - intros t Ht b k Hb Hk. eexists. split.
      + apply dd_minus.
        * apply (content_rate c' E D N_ang ws mus cc S1 st' W t0 t1 Hg' ltac:(lia) HM' Hm' HW t b k Ht Hb). lia.
        * apply (content_rate c E D N_ang ws mus cc S0 st V t0 t1 Hg HN HM Hm HV t b k Ht Hb Hk).
      + rewrite HN'. set (vW := sent (fN c) E D mus (fun a s => content c' E (W a s) s) (fun _ => lin c' E) (fun _ => rin c' E)).
        set (vV := sent (fN c) E D mus (fun a s => content c E (V a s) s) (fun _ => lin c E) (fun _ => rin c E)).
        assert (SD : forall f, sent (fN c) E D mus y (fun _ t => lin c' E t - lin c E t) (fun _ t => rin c' E t - rin c E t) b f t = vW b f t - vV b f t).
        { intros f. unfold vW, vV, sent, y. destruct (Rle_dec 0 (mus b - D f t)); [destruct f; [reflexivity|unfold Rdiv; ring]|]. destruct (f <? fN c)%nat; [unfold Rdiv; ring|reflexivity]. }
        rewrite !SD. unfold y.
        replace (sumn N_ang (fun l => ws l * (content c' E (W l k) k t - content c E (V l k) k t))) with
          (sumn N_ang (fun l => ws l * content c' E (W l k) k t) - sumn N_ang (fun l => ws l * content c E (V l k) k t)).
        2: { rewrite <- sumn_minus. apply sumn_ext. intros; ring. }
        assert (0 <= sqrt (E (S k) t - E k t) * (S1 k 0%nat t - S0 k 0%nat t)) by (apply Rmult_le_pos; [apply sqrt_pos|]; pose proof (HS k t Hk Ht); lra).
        lra.
    - intros b k Hb Hk. destruct (Hm t0 ltac:(lra)) as [He _]. pose proof (He k Hk) as X. cbv beta in X.
      rewrite (Y b k t0 x ltac:(lra) Hk). apply Rmult_le_pos; [lra|]. pose proof (H0 b k x Hb Hk). lra. }
  rewrite (Y a s t1 x ltac:(lra) Hs) in P. destruct (Hm t1 ltac:(lra)) as [He _]. pose proof (He s Hs) as X. cbv beta in X. nra.
Qed.
Print Assumptions C122_order_preserved.

(** Nothing becomes negative. *)
Theorem C122_nonnegative : forall c E D N_ang ws mus cc S0 st V t0 t1,
  fgeom c = Slab -> (2 <= fN c)%nat -> fM c = 0%nat -> t0 <= t1 -> mesh_ok c E D t0 t1 -> mesh_c1 c E D ->
  (forall a, (a < N_ang)%nat -> 0 <= ws a) -> 0 <= cc ->
  solves c E D N_ang ws mus cc S0 st V t0 t1 ->
  (forall s t, (s < fN c)%nat -> t0 <= t <= t1 -> 0 <= S0 s 0%nat t) ->
  (forall t v, t0 <= t <= t1 -> inflow_l c t (fun k => E k t) (fun _ => 0) v -> 0 <= v) ->
  (forall t v, t0 <= t <= t1 -> inflow_r c t (fun k => E k t) v -> 0 <= v) ->
  (forall a s x, (a < N_ang)%nat -> (s < fN c)%nat -> 0 <= value c E V a s x t0) ->
  forall a s x, (a < N_ang)%nat -> (s < fN c)%nat -> 0 <= value c E V a s x t1.
Proof.
  intros c E D N_ang ws mus cc S0 st V t0 t1 Hg HN HM Hle Hm Hm1 Hw Hc HV HS HL HR H0 a s x Ha Hs.
  assert (Y : forall a s t x, t0 <= t <= t1 -> (s < fN c)%nat -> content c E (V a s) s t = (E (S s) t - E s t) * value c E V a s x t).
  { intros b k t z Ht Hk. destruct (Hm t Ht) as [He _]. pose proof (He k Hk) as X. cbv beta in X. rewrite <- (const_content c E V b k t z HM X). field. lra. }
  assert (P : 0 <= content c E (V a s) s t1).
  { apply (stays_nonneg (fN c) N_ang E D ws mus cc t0 t1 Hle (fun t Ht => proj1 (Hm t Ht)) Hm1 Hw Hc (fun a s => content c E (V a s) s) (fun _ => lin c E) (fun _ => rin c E)); auto.
    - intros b t Hb Ht. split; intros _; [apply (HL t _ Ht), (lin_in c E D t0 t1 HN Hm t Ht)|apply (HR t _ Ht), (rin_in c E D t0 t1 HN Hm t Ht)].
    - intros t Ht b k Hb Hk. eexists. split; [apply (content_rate c E D N_ang ws mus cc S0 st V t0 t1 Hg HN HM Hm HV t b k Ht Hb Hk)|].
      assert (0 <= sqrt (E (S k) t - E k t) * S0 k 0%nat t) by (apply Rmult_le_pos; [apply sqrt_pos|]; exact (HS k t Hk Ht)). lra.
    - intros b k Hb Hk. destruct (Hm t0 ltac:(lra)) as [He _]. pose proof (He k Hk) as X. cbv beta in X.
      rewrite (Y b k t0 x ltac:(lra) Hk). apply Rmult_le_pos; [lra|]. exact (H0 b k x Hb Hk). }
  rewrite (Y a s t1 x ltac:(lra) Hs) in P. destruct (Hm t1 ltac:(lra)) as [He _]. pose proof (He s Hs) as X. cbv beta in X. nra.
Qed.
Print Assumptions C122_nonnegative.

(** Without a source and with at most as much scattered as arrives, no value exceeds the largest initial or entering one,
    whatever the mesh does. *)
Theorem C122_maximum_principle : forall c E D N_ang ws mus cc st V t0 t1 K,
  fgeom c = Slab -> (2 <= fN c)%nat -> fM c = 0%nat -> t0 <= t1 -> mesh_ok c E D t0 t1 -> mesh_c1 c E D ->
  (forall a, (a < N_ang)%nat -> 0 <= ws a) -> sumn N_ang ws = 1 -> 0 <= cc <= 1 -> 0 <= K ->
  solves c E D N_ang ws mus cc (fun _ _ _ => 0) st V t0 t1 ->
  (forall t v, t0 <= t <= t1 -> inflow_l c t (fun k => E k t) (fun _ => 0) v -> v <= K) ->
  (forall t v, t0 <= t <= t1 -> inflow_r c t (fun k => E k t) v -> v <= K) ->
  (forall a s x, (a < N_ang)%nat -> (s < fN c)%nat -> value c E V a s x t0 <= K) ->
  forall a s x, (a < N_ang)%nat -> (s < fN c)%nat -> value c E V a s x t1 <= K.
Proof.
  intros c E D N_ang ws mus cc st V t0 t1 K Hg HN HM Hle Hm Hm1 Hw H1 Hc HK HV HL HR H0 a s x Ha Hs.
  pose (y := fun a s t => K * (E (S s) t - E s t) - content c E (V a s) s t).
  assert (Y : forall a s t x, t0 <= t <= t1 -> (s < fN c)%nat -> y a s t = (E (S s) t - E s t) * (K - value c E V a s x t)).
  { intros b k t z Ht Hk. destruct (Hm t Ht) as [He _]. pose proof (He k Hk) as X. cbv beta in X. rewrite <- (const_content c E V b k t z HM X). unfold y. field. lra. }
  assert (P : 0 <= y a s t1).
  { apply (stays_nonneg (fN c) N_ang E D ws mus cc t0 t1 Hle (fun t Ht => proj1 (Hm t Ht)) Hm1 Hw (proj1 Hc) y (fun _ t => K - lin c E t) (fun _ t => K - rin c E t)); auto.
    - intros b t Hb Ht. split; intros _; [pose proof (HL t _ Ht (lin_in c E D t0 t1 HN Hm t Ht))|pose proof (HR t _ Ht (rin_in c E D t0 t1 HN Hm t Ht))]; lra.
    - intros t Ht b k Hb Hk. destruct (Hm t Ht) as [He HD]. eexists. split.
      + apply dd_minus; [apply dd_scal, dd_minus; apply HD; lia|].
        apply (content_rate c E D N_ang ws mus cc (fun _ _ _ => 0) st V t0 t1 Hg HN HM Hm HV t b k Ht Hb Hk).
      + set (vV := sent (fN c) E D mus (fun a s => content c E (V a s) s) (fun _ => lin c E) (fun _ => rin c E)).
        assert (SD : forall f, (f <= fN c)%nat -> sent (fN c) E D mus y (fun _ t => K - lin c E t) (fun _ t => K - rin c E t) b f t = K - vV b f t).
        { intros f Hf. unfold vV, sent, y. destruct (Rle_dec 0 (mus b - D f t)).
          - destruct f as [|q]; [reflexivity|]. pose proof (He q ltac:(lia)) as X. cbv beta in X. field. lra.
          - destruct (Nat.ltb_spec f (fN c)); [|reflexivity]. pose proof (He f ltac:(lia)) as X. cbv beta in X. field. lra. }
        rewrite !SD by lia. unfold y.
        replace (sumn N_ang (fun l => ws l * (K * (E (S k) t - E k t) - content c E (V l k) k t))) with
          (K * (E (S k) t - E k t) - sumn N_ang (fun l => ws l * content c E (V l k) k t)).
        2: { transitivity (sumn N_ang ws * (K * (E (S k) t - E k t)) - sumn N_ang (fun l => ws l * content c E (V l k) k t)); [rewrite H1; ring|].
             rewrite <- sumn_scal_r, <- sumn_minus. apply sumn_ext. intros; ring. }
        pose proof (He k Hk) as X. cbv beta in X.
        assert (0 <= (1 - cc) * (K * (E (S k) t - E k t))) by (apply Rmult_le_pos; [lra|apply Rmult_le_pos; lra]). nra.
    - intros b k Hb Hk. destruct (Hm t0 ltac:(lra)) as [He _]. pose proof (He k Hk) as X. cbv beta in X.
      rewrite (Y b k t0 x ltac:(lra) Hk). apply Rmult_le_pos; [lra|]. pose proof (H0 b k x Hb Hk). lra. }
  rewrite (Y a s t1 x ltac:(lra) Hs) in P. destruct (Hm t1 ltac:(lra)) as [He _]. pose proof (He s Hs) as X. cbv beta in X. nra.
Qed.
Print Assumptions C122_maximum_principle.

(** the trajectory of C103: two unit cells, only the right one filled; it meets every hypothesis, with K = 1 *)
Lemma sE_c1 : mesh_c1 sC sE (fun _ _ => 0).
Proof. intros k _ t. split; [exact (dd_const (INR k) t)|apply continuous_const]. Qed.
Lemma sC_l t e v : inflow_l sC t e (fun _ => 0) v -> v = 0.
Proof. intros H. inversion H as [L|_ G|]; auto; [destruct L as [X|[X _]]; discriminate|discriminate]. Qed.
Lemma sC_r t e v : inflow_r sC t e v -> v = 0.
Proof. intros H. inversion H as [L|]; auto. destruct L as [X|[X _]]; discriminate. Qed.
Lemma sV_value a s x t : (s < 2)%nat -> value sC sE sV a s x t = if (s =? 1)%nat then exp (- (3 / 2) * t) else 0.
Proof. intros Hs. unfold value, field. cbn [fM sC Nat.add sumn]. rewrite StabThms.basis0 by auto. unfold sV. ring. Qed.
Example C122_example : forall a s x, (a < 1)%nat -> (s < 2)%nat -> 0 <= value sC sE sV a s x 1 <= 1.
Proof.
  intros a s x Ha Hs. split.
  - apply (C122_nonnegative sC sE (fun _ _ => 0) 1 (fun _ => 1) (fun _ => 1) (1 / 2) (fun _ _ _ => 0) (fun _ _ _ => s0) sV 0 1); auto; try reflexivity; try lra.
    + apply C103_example_mesh.
    + apply sE_c1.
    + intros; lra.
    + apply C103_example.
    + intros; lra.
    + intros t v _ H. apply sC_l in H. lra.
    + intros t v _ H. apply sC_r in H. lra.
    + intros b k z _ Hk. rewrite sV_value by exact Hk. destruct (k =? 1)%nat; [left; apply exp_pos|lra].
  - apply (C122_maximum_principle sC sE (fun _ _ => 0) 1 (fun _ => 1) (fun _ => 1) (1 / 2) (fun _ _ _ => s0) sV 0 1); auto; try reflexivity; try lra.
    + apply C103_example_mesh.
    + apply sE_c1.
    + intros; lra.
    + cbn. ring.
    + apply C103_example.
    + intros t v _ H. apply sC_l in H. lra.
    + intros t v _ H. apply sC_r in H. lra.
    + intros b k z _ Hk. rewrite sV_value by exact Hk. destruct (k =? 1)%nat; [|lra]. replace (- (3 / 2) * 0) with 0 by field. rewrite exp_0. lra.
Qed.

(** With linear functions in the cells it fails: the same two cells, the right one filled with 1, everything moving to
    the right, no scattering; at time pi / sqrt 2 the flux in the right cell is negative everywhere. *)
Definition pC : flux_cfg := {| fgeom := Slab; fM := 1; fN := 2; src4 := false; boundary_source := false;
  uncollided_on := false; ft0 := 1; bon_left := false; bon_right := false; strength := 0; fquad := nil |}.
Definition pV (a s i : nat) (t : R) : R :=
  if (s =? 1)%nat then
    if (i =? 0)%nat then exp (- 3 * t) * (cos (sqrt 2 * t) + sin (sqrt 2 * t) / sqrt 2)
    else exp (- 3 * t) * (sqrt 3 / sqrt 2 * sin (sqrt 2 * t))
  else 0.
Lemma pbasis t s x i : (s < 2)%nat -> (i <= 1)%nat -> basis Slab i x (sE s t) (sE (S s) t) = if (i =? 0)%nat then 1 else sqrt 3 * (2 * x - 2 * INR s - 1).
Proof.
  intros Hs Hi. destruct i as [|[|i]]; [now rewrite StabThms.basis0| |lia]. unfold basis, sE, refz. rewrite (S_INR s). cbn [Nat.eqb]. change (INR 1) with 1.
  replace ((2 * 1 + 1) / (INR s + 1 - INR s)) with 3 by (field; lra).
  rewrite leg_1. replace ((2 * x - INR s - (INR s + 1)) / (INR s + 1 - INR s)) with (2 * x - 2 * INR s - 1) by (field; lra). reflexivity.
Qed.
Lemma pV_solves t0 t1 : solves pC sE (fun _ _ => 0) 1 (fun _ => 1) (fun _ => 1) 0 (fun _ _ _ => 0) (fun _ _ _ => s0) pV t0 t1.
Proof.
  intros t Ht a s i Ha Hs Hi. assert (a = 0%nat) as -> by lia. cbn in Hi, Hs.
  unfold slab_rhs. cbv zeta.
  destruct (LU_formula pC t (fun k => sE k t) (fun _ => 0) (fun k j => pV 0 k j t) 1 (fun _ => 0) ltac:(cbn; lia) (sE_incr t) s0 s i Hs) as (vl & vr & F1 & F2 & ->).
  assert (P : 0 <= 1 - 0) by lra.
  pose proof (face_fun pC t (fun k => sE k t) (fun _ => 0) (fun k j => pV 0 k j t) 1 (fun _ => 0) ltac:(cbn; lia) (sE_incr t)) as FF.
  assert (vr = pV 0 s 0 t + sqrt 3 * pV 0 s 1 t) as ->.
  { rewrite (FF _ _ _ F2 (face_from_left pC t (fun k => sE k t) (fun _ => 0) (fun k j => pV 0 k j t) 1 (fun _ => 0) s P Hs)).
    unfold field. cbn [fgeom fM pC]. cbn [sumn Nat.add]. rewrite !pbasis by (auto; lia). cbn [Nat.eqb]. unfold sE. rewrite S_INR. ring. }
  assert (vl = 0) as ->.
  { destruct s as [|[|s]]; [| |lia].
    - apply (FF _ _ _ F1). apply face_in_l; [exact P|]. apply il_vac; [|reflexivity]. intros [X|[X _]]; discriminate.
    - rewrite (FF _ _ _ F1 (face_from_left pC t (fun k => sE k t) (fun _ => 0) (fun k j => pV 0 k j t) 1 (fun _ => 0) 0 P ltac:(cbn; lia))).
      unfold field, pV. cbn [fgeom fM pC]. cbn [sumn Nat.add Nat.eqb]. ring. }
  cbn [fgeom pC]. rewrite !pbasis by auto. cbn [wt].
  assert (R2 : sqrt 2 * sqrt 2 = 2) by (apply sqrt_sqrt; lra). assert (R3 : sqrt 3 * sqrt 3 = 3) by (apply sqrt_sqrt; lra).
  assert (0 < sqrt 2) by (apply sqrt_lt_R0; lra).
  assert (Dc : forall t, is_derive (fun t => cos (sqrt 2 * t)) t (- sqrt 2 * sin (sqrt 2 * t))).
  { intros z. eapply dd_eq; [apply (dd_comp cos (fun t => sqrt 2 * t)); [apply is_derive_cos|apply dd_scal, dd_id]|]. ring. }
  assert (Ds : forall t, is_derive (fun t => sin (sqrt 2 * t)) t (sqrt 2 * cos (sqrt 2 * t))).
  { intros z. eapply dd_eq; [apply (dd_comp sin (fun t => sqrt 2 * t)); [apply is_derive_sin|apply dd_scal, dd_id]|]. ring. }
  assert (De : forall t, is_derive (fun t => exp (-3 * t)) t (- 3 * exp (-3 * t))).
  { intros z. eapply dd_eq; [apply (dd_exp (fun t => -3 * t)), dd_scal, dd_id|]. ring. }
  unfold dotv, make_P, G_slab, L_slab, L_const. cbn [fM pC Nat.add sumn].
  destruct s as [|[|s]]; [| |lia].
  - unfold pV. cbn [Nat.eqb]. eapply dd_eq; [apply dd_const|]. destruct i as [|[|i]]; [| |lia]; cbn [Nat.eqb Nat.ltb Nat.leb Nat.modulo Nat.divmod Nat.add andb negb]; unfold sE; cbn [INR Nat.add]; field; lra.
  - destruct i as [|[|i]]; [| |lia]; unfold pV; cbn [Nat.eqb].
    + eapply dd_eq; [apply (dd_mult (fun t => exp (-3 * t)) (fun t => cos (sqrt 2 * t) + sin (sqrt 2 * t) / sqrt 2)); [apply De|apply dd_plus; [apply Dc|apply dd_divc, Ds]]|].
      cbn [Nat.eqb Nat.ltb Nat.leb Nat.modulo Nat.divmod Nat.add andb negb]. unfold sE. cbn [INR Nat.add].
      set (e := exp (-3 * t)). set (x := cos (sqrt 2 * t)). set (z := sin (sqrt 2 * t)). set (r2 := sqrt 2) in *. set (r3 := sqrt 3) in *.
      replace (r3 * (e * (r3 / r2 * z))) with (e * (3 / r2 * z)) by (rewrite <- R3; field; lra).
      replace (- r2 * z) with (- (2 / r2) * z) by (rewrite <- R2; field; lra). field. lra.
    + eapply dd_eq; [apply (dd_mult (fun t => exp (-3 * t)) (fun t => sqrt 3 / sqrt 2 * sin (sqrt 2 * t))); [apply De|apply dd_scal, Ds]|].
      cbn [Nat.eqb Nat.ltb Nat.leb Nat.modulo Nat.divmod Nat.add andb negb]. unfold sE. cbn [INR Nat.add].
      set (e := exp (-3 * t)). set (x := cos (sqrt 2 * t)). set (z := sin (sqrt 2 * t)). set (r2 := sqrt 2) in *. 
      replace (sqrt (2 * 1 + 1)) with (sqrt 3) by (f_equal; lra). replace (sqrt (2 * 0 + 1)) with 1 by (rewrite <- sqrt_1 at 1; f_equal; lra). set (r3 := sqrt 3) in *.
      replace (r3 * (e * (r3 / r2 * z))) with (e * (3 / r2 * z)) by (rewrite <- R3; field; lra).
      cbn [snd Nat.sub Nat.eqb negb]. field. lra.
Qed.
Theorem C122_linear_functions_go_negative_refuted :
  exists c E D N_ang ws mus cc S0 st V t0 t1, fgeom c = Slab /\ (2 <= fN c)%nat /\ fM c = 1%nat /\ t0 <= t1 /\ mesh_ok c E D t0 t1 /\ mesh_c1 c E D /\
  (forall a, (a < N_ang)%nat -> 0 <= ws a) /\ sumn N_ang ws = 1 /\ 0 <= cc /\ solves c E D N_ang ws mus cc S0 st V t0 t1 /\
  (forall s t, (s < fN c)%nat -> t0 <= t <= t1 -> 0 <= S0 s 0%nat t) /\
  (forall t v, t0 <= t <= t1 -> inflow_l c t (fun k => E k t) (fun _ => 0) v -> 0 <= v) /\
  (forall t v, t0 <= t <= t1 -> inflow_r c t (fun k => E k t) v -> 0 <= v) /\
  (forall a s x, (a < N_ang)%nat -> (s < fN c)%nat -> 0 <= value c E V a s x t0) /\
  exists a s, (a < N_ang)%nat /\ (s < fN c)%nat /\ forall x, value c E V a s x t1 < 0.
Proof.
  assert (R : 0 < sqrt 2) by (apply sqrt_lt_R0; lra). assert (PP := PI_RGT_0).
  exists pC, sE, (fun _ _ => 0), 1%nat, (fun _ => 1), (fun _ => 1), 0, (fun _ _ _ => 0), (fun _ _ _ => s0), pV, 0, (PI / sqrt 2).
  assert (Lv : forall t e v, inflow_l pC t e (fun _ => 0) v -> v = 0).
  { intros t e v H. inversion H as [L|_ G|]; auto; [destruct L as [X|[X _]]; discriminate|discriminate]. }
  assert (Rv : forall t e v, inflow_r pC t e v -> v = 0).
  { intros t e v H. inversion H as [L|]; auto. destruct L as [X|[X _]]; discriminate. }
  assert (VV : forall a s x t, (s < 2)%nat -> value pC sE pV a s x t = pV a s 0 t + pV a s 1 t * (sqrt 3 * (2 * x - 2 * INR s - 1))).
  { intros a s x t Hs. unfold value, field. cbn [fM pC Nat.add sumn]. rewrite !pbasis by (auto; lia). cbn [Nat.eqb]. ring. }
  split; [reflexivity|]. split; [cbn; lia|]. split; [reflexivity|].
  split; [apply Rmult_le_pos; [lra|]; left; now apply Rinv_0_lt_compat|].
  split; [exact (C103_example_mesh 0 (PI / sqrt 2))|]. split; [exact sE_c1|].
  split; [intros; lra|]. split; [cbn; ring|]. split; [lra|]. split; [apply pV_solves|]. split; [intros; lra|].
  split; [intros t v _ H; apply Lv in H; lra|]. split; [intros t v _ H; apply Rv in H; lra|]. split.
  - intros a s x _ Hs. cbn in Hs. rewrite VV by auto. destruct s as [|[|s]]; [| |lia]; unfold pV; cbn [Nat.eqb]; [lra|].
    rewrite !Rmult_0_r, sin_0, cos_0, exp_0. unfold Rdiv. lra.
  - exists 0%nat, 1%nat. split; [lia|]. split; [cbn; lia|]. intros x. rewrite VV by auto. unfold pV. cbn [Nat.eqb].
    replace (sqrt 2 * (PI / sqrt 2)) with PI by (field; lra). rewrite sin_PI, cos_PI. pose proof (exp_pos (-3 * (PI / sqrt 2))). unfold Rdiv in *. lra.
Qed.
Print Assumptions C122_linear_functions_go_negative_refuted.
