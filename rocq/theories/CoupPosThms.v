(** C180: radiation and material energy stay nonnegative together, in time steps and along trajectories. *)
From Coquelicot Require Import Coquelicot.
From Coq Require Import FunctionalExtensionality.
From Verif Require Import Py PyLemmas Calc Legendre DGModel DGSpec DGProofs DGInt DGBalance StabSpec StabThms StabProofs ExistSpec ExistProofs RhsModel SphSpec SphExist ExistThms SymSpec PosProofs TimeModel TimeProofs TimeStab TimeThms TimeStabThms TimePosThms.

(** the directions of the state vector; the last one holds the material energy, which does not stream *)
Definition with_material (N_ang : nat) (mus : nat -> R) (a : nat) : R := if (a =? N_ang)%nat then 0 else mus a.

Section One.
Variables (c : flux_cfg) (E D : nat -> R -> R) (t : R).
Hypothesis Hg : fgeom c = Slab.
Hypothesis HN : (2 <= fN c)%nat.
Hypothesis HM : fM c = 0%nat.
Hypothesis He : increasing (fN c) (fun k => E k t).
Let w s := E (S s) t - E s t.
(** the transport part of a right-hand side *)
Definition tr (mu : R) (u : R) (s : nat) (vl vr : R) : R :=
  - (D (S s) t - D s t) / (2 * w s) * u - ((mu - D (S s) t) * vr - (mu - D s t) * vl) / sqrt (w s).
Definition faces (A : nat) (mus : nat -> R) (y : idx -> R) (a s : nat) (vl vr : R) : Prop :=
  face c t (fun k => E k t) (fun k => D k t) (fun k j => y (a, k, j)) (mus a) (fun _ => 0) s vl /\
  face c t (fun k => E k t) (fun k => D k t) (fun k j => y (a, k, j)) (mus a) (fun _ => 0) (S s) vr.
Lemma tr_is A mus y a s st : (s < fN c)%nat -> exists vl vr, faces A mus y a s vl vr /\
  dotv 1 (G_slab (E s t) (E (s + 1) t) (D s t) (D (s + 1) t)) (fun j => y (a, s, j)) 0 - snd (make_LU c st t (fun k => E k t) (fun k => D k t) (fun k j => y (a, k, j)) s (mus a) (fun _ => 0)) 0%nat
  = tr (mus a) (y (a, s, 0%nat)) s vl vr.
Proof.
  intros Hs. assert (Wp : 0 < w s) by exact (w_pos c E t He s Hs). assert (Sp : 0 < sqrt (w s)) by exact (sw_pos c E t He s Hs).
  destruct (LU_formula c t (fun k => E k t) (fun k => D k t) (fun k j => y (a, k, j)) (mus a) (fun _ => 0) HN He st s 0%nat Hs) as (vl & vr & F1 & F2 & Q).
  exists vl, vr. split; [split; [exact F1|exact F2]|]. rewrite Q, Hg. rewrite !DGInt.basis0 by (apply (He s Hs)). fold (w s). cbn [wt].
  unfold dotv, G_slab, tr. cbn [sumn Nat.add Nat.eqb Nat.ltb Nat.leb andb]. rewrite !Nat.add_1_r. cbv zeta. fold (w s). cbn [INR Nat.even].
  try (destruct (0 =? 0)%nat eqn:X; [|discriminate]). field. split; lra.
Qed.
Lemma tr_explicit A mus y a s vl vr : (a < A)%nat -> (s < fN c)%nat -> enters_nonneg c E t ->
  (forall k, (k < fN c)%nat -> 0 <= y (a, k, 0%nat)) -> faces A mus y a s vl vr ->
  - (widening E D s t / 2 + leaving E D (mus a) s t) * y (a, s, 0%nat) <= tr (mus a) (y (a, s, 0%nat)) s vl vr.
Proof.
  intros Ha Hs Hin Hy [Fl Fr]. assert (Wp : 0 < w s) by exact (w_pos c E t He s Hs). assert (Sp : 0 < sqrt (w s)) by exact (sw_pos c E t He s Hs).
  assert (Pv : forall f v, (f <= fN c)%nat -> face c t (fun k => E k t) (fun k => D k t) (fun k j => y (a, k, j)) (mus a) (fun _ => 0) f v -> 0 <= v).
  { intros f v Hf F. destruct (face_val c E D t Hg HM He A y mus a f v Ha Hf F) as [I|(k & Hk & ->)]; [now apply Hin|].
    apply Rmult_le_pos; [auto|]. left. apply Rinv_0_lt_compat. now apply (sw_pos c E t He). }
  pose proof (Hy s Hs) as Hu. set (u := y (a, s, 0%nat)) in *. unfold tr.
  set (r := sqrt (w s)) in *. assert (SS : w s = r * r) by (symmetry; apply sqrt_sqrt; lra).
  assert (RR : (mus a - D (S s) t) * vr / r <= Rmax 0 (mus a - D (S s) t) / w s * u).
  { destruct (Rle_lt_dec 0 (mus a - D (S s) t)) as [P|P].
    - rewrite (proj1 (face_out c E D t Hg HN HM He A y mus a s vr Ha Hs) P Fr). fold u. fold (w s). fold r. rewrite Rmax_right by lra. right. rewrite SS. field. lra.
    - rewrite Rmax_left by lra. replace (0 / w s * u) with 0 by (unfold Rdiv; ring). pose proof (Pv (S s) vr ltac:(lia) Fr).
      assert (Y : 0 <= / r) by (left; now apply Rinv_0_lt_compat). assert (X : 0 <= - (mus a - D (S s) t) * vr) by (apply Rmult_le_pos; lra). pose proof (Rmult_le_pos _ _ X Y). unfold Rdiv. lra. }
  assert (LL : - (mus a - D s t) * vl / r <= Rmax 0 (D s t - mus a) / w s * u).
  { destruct (Rle_lt_dec 0 (mus a - D s t)) as [P|P].
    - rewrite Rmax_left by lra. replace (0 / w s * u) with 0 by (unfold Rdiv; ring). pose proof (Pv s vl ltac:(lia) Fl).
      assert (Y : 0 <= / r) by (left; now apply Rinv_0_lt_compat). assert (X : 0 <= (mus a - D s t) * vl) by (apply Rmult_le_pos; lra). pose proof (Rmult_le_pos _ _ X Y). unfold Rdiv. lra.
    - rewrite (proj2 (face_out c E D t Hg HN HM He A y mus a s vl Ha Hs) P Fl). fold u. fold (w s). fold r. rewrite Rmax_right by lra. right. rewrite SS. field. lra. }
  unfold widening, leaving. fold (w s).
  replace (- ((D (S s) t - D s t) / w s / 2 + (Rmax 0 (mus a - D (S s) t) + Rmax 0 (D s t - mus a)) / w s) * u) with
    (- (D (S s) t - D s t) / (2 * w s) * u - Rmax 0 (mus a - D (S s) t) / w s * u - Rmax 0 (D s t - mus a) / w s * u) by (field; lra).
  replace (((mus a - D (S s) t) * vr - (mus a - D s t) * vl) / r) with ((mus a - D (S s) t) * vr / r + - (mus a - D s t) * vl / r) by (field; lra).
  lra.
Qed.
Lemma tr_implicit A mus y a s m vl vr : (a < A)%nat -> (s < fN c)%nat ->
  (forall v, inflow_l c t (fun k => E k t) (fun _ => 0) v \/ inflow_r c t (fun k => E k t) v -> m <= v) ->
  (forall k, (k < fN c)%nat -> m <= y (a, k, 0%nat) / sqrt (w k)) -> y (a, s, 0%nat) / sqrt (w s) = m -> faces A mus y a s vl vr ->
  sqrt (w s) * m * (widening E D s t / 2) <= tr (mus a) (y (a, s, 0%nat)) s vl vr.
Proof.
  intros Ha Hs Hin Hy Hm [Fl Fr]. assert (Wp : 0 < w s) by exact (w_pos c E t He s Hs). assert (Sp : 0 < sqrt (w s)) by exact (sw_pos c E t He s Hs).
  assert (Pv : forall f v, (f <= fN c)%nat -> face c t (fun k => E k t) (fun k => D k t) (fun k j => y (a, k, j)) (mus a) (fun _ => 0) f v -> m <= v).
  { intros f v Hf F. destruct (face_val c E D t Hg HM He A y mus a f v Ha Hf F) as [I|(k & Hk & ->)]; [now apply Hin|exact (Hy k Hk)]. }
  unfold tr. set (r := sqrt (w s)) in *. assert (SS : w s = r * r) by (symmetry; apply sqrt_sqrt; lra).
  assert (U : y (a, s, 0%nat) = r * m) by (rewrite <- Hm; field; lra).
  assert (RR : (mus a - D (S s) t) * vr <= (mus a - D (S s) t) * m).
  { destruct (Rle_lt_dec 0 (mus a - D (S s) t)) as [P|P].
    - rewrite (proj1 (face_out c E D t Hg HN HM He A y mus a s vr Ha Hs) P Fr). fold (w s). fold r. rewrite Hm. lra.
    - pose proof (Pv (S s) vr ltac:(lia) Fr). nra. }
  assert (LL : (mus a - D s t) * m <= (mus a - D s t) * vl).
  { destruct (Rle_lt_dec 0 (mus a - D s t)) as [P|P].
    - pose proof (Pv s vl ltac:(lia) Fl). nra.
    - rewrite (proj2 (face_out c E D t Hg HN HM He A y mus a s vl Ha Hs) P Fl). fold (w s). fold r. rewrite Hm. lra. }
  rewrite U. unfold widening. fold (w s).
  assert (FF : ((mus a - D (S s) t) * vr - (mus a - D s t) * vl) / r <= - (D (S s) t - D s t) * m / r).
  { apply Rmult_le_compat_r; [left; now apply Rinv_0_lt_compat|]. lra. }
  replace (r * m * ((D (S s) t - D s t) / w s / 2)) with
    (- (D (S s) t - D s t) / (2 * w s) * (r * m) - - (D (S s) t - D s t) * m / r).
  2: { rewrite SS. field. lra. }
  lra.
Qed.
(** what the directions and the material exchange, apart from sources *)
Definition react (N_ang : nat) (ws : nat -> R) (cc c_a l : R) (y : idx -> R) (a s : nat) : R :=
  let P := sumn N_ang (fun l => y (l, s, 0%nat) * ws l) in
  if (a =? N_ang)%nat then c_a * (2 * P - y (N_ang, s, 0%nat)) / l
  else - y (a, s, 0%nat) / l + cc * P / l + c_a * (1 / 2) * y (N_ang, s, 0%nat) / l.
Lemma coup0 N_ang ws mus cc c_a l S0 st ste y a s : (a < S N_ang)%nat -> (s < fN c)%nat -> 0 < l -> 0 <= cc -> 0 <= c_a -> 0 <= S0 s 0%nat t ->
  exists vl vr sg, faces (S N_ang) (with_material N_ang mus) y a s vl vr /\ (0 <= sg /\ (S0 s 0%nat t = 0 -> sg = 0)) /\
  coupledR c E D N_ang ws mus cc c_a l S0 st ste t y (a, s, 0%nat) = tr (with_material N_ang mus a) (y (a, s, 0%nat)) s vl vr + react N_ang ws cc c_a l y a s + sg.
Proof.
  intros Ha Hs Hl Hc Hca HS.
  assert (I : 0 <= / l) by (left; now apply Rinv_0_lt_compat).
  unfold coupledR, react. rewrite (proj2 (active_iff (S N_ang) (fN c) (fM c) a s 0%nat)) by (repeat split; auto; lia).
  destruct (Nat.eqb_spec a N_ang) as [->|Na].
  - destruct (tr_is (S N_ang) (with_material N_ang mus) y N_ang s (ste t s) Hs) as (vl & vr & F & Q).
    exists vl, vr, (if uncollided_on c then c_a * S0 s 0%nat t / l else 0). split; [exact F|]. split.
    { split; [|intros ->; destruct (uncollided_on c); unfold Rdiv; ring]. destruct (uncollided_on c); [|lra]. apply Rmult_le_pos; auto. apply Rmult_le_pos; auto. }
    rewrite <- Q. unfold slab_energy. cbv zeta. rewrite HM. unfold with_material. rewrite Nat.eqb_refl. cbn [Nat.add]. unfold make_P. destruct (uncollided_on c); lra.
  - destruct (tr_is (S N_ang) (with_material N_ang mus) y a s (st t a s) Hs) as (vl & vr & F & Q).
    exists vl, vr, (if uncollided_on c then cc * (S0 s 0%nat t * (1 / 2)) / l else S0 s 0%nat t * (1 / 2) / l). split; [exact F|]. split.
    { split; [|intros ->; destruct (uncollided_on c); unfold Rdiv; ring]. destruct (uncollided_on c); apply Rmult_le_pos; auto; [apply Rmult_le_pos; auto|]; lra. }
    rewrite <- Q. unfold slab_rhs_thermal. cbv zeta. rewrite HM. unfold with_material. destruct (Nat.eqb_spec a N_ang) as [|_]; [contradiction|]. cbn [Nat.add].
    assert (LZ : dotv 1 (L_slab (E s t) (E (s + 1)%nat t)) (fun j => y (a, s, j)) 0 = 0) by (unfold dotv, L_slab, L_const; cbn [sumn Nat.ltb Nat.leb andb]; unfold Rdiv; ring).
    rewrite LZ. unfold make_P.
    destruct (N_ang =? 2)%nat, (uncollided_on c); field; lra.
Qed.
End One.

Lemma material_nonneg c E N_ang t y : fM c = 0%nat -> increasing (fN c) (fun k => E k t) ->
  (nowhere_negative c E (S N_ang) t y <-> forall a s, (a < S N_ang)%nat -> (s < fN c)%nat -> 0 <= y (a, s, 0%nat)).
Proof. intros HM He. exact (coef_nonneg c E t HM He (S N_ang) y). Qed.
Lemma keeps_ext c E A t u z : (forall p, z p = u p) -> nowhere_negative c E A t u -> nowhere_negative c E A t z.
Proof.
  intros Hz Hu a s x Ha Hs. specialize (Hu a s x Ha Hs). replace (fun j => z (a, s, j)) with (fun j => u (a, s, j)); auto.
  apply functional_extensionality. intros j. now rewrite Hz.
Qed.
Lemma below_one h delta q : 0 <= h <= delta -> delta * q <= 1 -> h * q <= 1.
Proof.
  intros Hh B. destruct (Rle_lt_dec 0 q) as [Q|Q]; [apply (Rle_trans _ (delta * q)); auto; apply Rmult_le_compat_r; lra|].
  assert (0 <= h * - q) by (apply Rmult_le_pos; lra). lra.
Qed.

(** Explicit steps.  The steps of Euler's method keep the angular flux and the material energy nonnegative together if no
    step is longer than the times in which a direction or the material would empty some cell. *)
Theorem C180_explicit : forall c E D N_ang ws mus cc c_a l S0 st ste t0 t1 delta hs y y', fgeom c = Slab -> (2 <= fN c)%nat -> fM c = 0%nat ->
  (forall t, t0 <= t <= t1 -> increasing (fN c) (fun k => E k t)) ->
  (forall a, (a < N_ang)%nat -> 0 <= ws a) -> 0 <= cc -> 0 <= c_a -> 0 < l ->
  (forall s t, (s < fN c)%nat -> t0 <= t <= t1 -> 0 <= S0 s 0%nat t) -> (forall t, t0 <= t <= t1 -> enters_nonneg c E t) ->
  (forall a s t, (a < N_ang)%nat -> (s < fN c)%nat -> t0 <= t <= t1 -> delta * (1 / l + widening E D s t / 2 + leaving E D (mus a) s t) <= 1) ->
  (forall s t, (s < fN c)%nat -> t0 <= t <= t1 -> delta * (c_a / l + widening E D s t / 2 + leaving E D 0 s t) <= 1) ->
  (forall h, In h hs -> 0 <= h <= delta) -> t0 + total hs <= t1 ->
  rk_run euler (coupledR c E D N_ang ws mus cc c_a l S0 st ste) t0 y hs y' -> nowhere_negative c E (S N_ang) t0 y -> nowhere_negative c E (S N_ang) (t0 + total hs) y'.
Proof.
  intros c E D N_ang ws mus cc c_a l S0 st ste t0 t1 delta hs y y' Hg HN HM He Hw Hc Hca Hl HS Hin Hd Hd' Hh Hle Hr Hy.
  apply (run_keeps (nowhere_negative c E (S N_ang)) euler (coupledR c E D N_ang ws mus cc c_a l S0 st ste) t0 t1) with (ok := fun h => h <= delta) (y := y); auto; [| |lra].
  - intros t u z Hz Hu. now apply (keeps_ext c E (S N_ang) t u z).
  - intros t h u u' Ht h0 hd Hth Hu Hst. rewrite material_nonneg by (auto; apply He; lra). rewrite material_nonneg in Hu by (auto; apply He; lra).
    intros a s Ha Hs. rewrite (euler_form _ _ _ _ _ Hst).
    destruct (coup0 c E D t Hg HN HM (He t ltac:(lra)) N_ang ws mus cc c_a l S0 st ste u a s Ha Hs Hl Hc Hca (HS s t Hs ltac:(lra))) as (vl & vr & sg & F & [G _] & ->).
    pose proof (tr_explicit c E D t Hg HN HM (He t ltac:(lra)) (S N_ang) (with_material N_ang mus) u a s vl vr Ha Hs (Hin t ltac:(lra)) (fun k Hk => Hu a k Ha Hk) F) as L.
    pose proof (Hu a s Ha Hs) as U. pose proof (Hu N_ang s ltac:(lia) Hs) as UN.
    assert (PP : 0 <= sumn N_ang (fun l => u (l, s, 0%nat) * ws l)) by (apply sumn_nonneg; intros k Hk; apply Rmult_le_pos; auto; apply Hu; auto; lia).
    assert (I : 0 <= / l) by (left; now apply Rinv_0_lt_compat).
    set (T := tr E D t _ _ s vl vr) in *. set (x := widening E D s t / 2 + leaving E D (with_material N_ang mus a) s t) in *.
    assert (Z : exists q, h * q <= 1 /\ - q * u (a, s, 0%nat) <= T + react N_ang ws cc c_a l u a s).
    { unfold react. cbv zeta. set (P := sumn _ _) in *. destruct (Nat.eqb_spec a N_ang) as [->|Na].
      - exists (c_a / l + x). split.
        + apply (below_one h delta); [lra|]. specialize (Hd' s t Hs ltac:(lra)). unfold x, with_material. rewrite Nat.eqb_refl. lra.
        + assert (0 <= c_a * P * / l) by (apply Rmult_le_pos; auto; apply Rmult_le_pos; auto).
          unfold Rdiv in *. lra.
      - exists (1 / l + x). split.
        + apply (below_one h delta); [lra|]. specialize (Hd a s t ltac:(lia) Hs ltac:(lra)). unfold x, with_material. rewrite (proj2 (Nat.eqb_neq a N_ang) Na). lra.
        + assert (0 <= cc * P * / l) by (apply Rmult_le_pos; auto; apply Rmult_le_pos; auto).
          assert (0 <= c_a * u (N_ang, s, 0%nat) * / l) by (apply Rmult_le_pos; auto; apply Rmult_le_pos; auto).
          unfold Rdiv in *. lra. }
    destruct Z as (q & Hq & Z). apply (Rmult_le_compat_l h) in Z; auto. assert (0 <= (1 - h * q) * u (a, s, 0%nat)) by (apply Rmult_le_pos; lra).
    assert (0 <= h * sg) by (apply Rmult_le_pos; auto). lra.
Qed.
Print Assumptions C180_explicit.

(** Implicit steps.  No bound by the speeds of the directions is needed.  On a mesh at rest, with weights of sum at most one
    and at most as much given back by scattering and emission as is taken out, steps of any length will do. *)
Theorem C180_implicit : forall c E D N_ang ws mus cc c_a l S0 st ste t0 t1 hs y y', fgeom c = Slab -> (2 <= fN c)%nat -> fM c = 0%nat ->
  (forall t, t0 <= t <= t1 -> increasing (fN c) (fun k => E k t)) ->
  (forall a, (a < N_ang)%nat -> 0 <= ws a) -> 0 <= cc -> 0 <= c_a -> 0 < l ->
  (forall s t, (s < fN c)%nat -> t0 <= t <= t1 -> 0 <= S0 s 0%nat t) -> (forall t, t0 <= t <= t1 -> enters_nonneg c E t) ->
  (forall h s t, In h hs -> (s < fN c)%nat -> t0 <= t <= t1 ->
     h * (widening E D s t / 2 + (cc * sumn N_ang ws + c_a - 1) / l) < 1 /\ h * (widening E D s t / 2 + c_a * (sumn N_ang ws - 1) / l) < 1) ->
  (forall h, In h hs -> 0 <= h) -> t0 + total hs <= t1 ->
  rk_run implicit_euler (coupledR c E D N_ang ws mus cc c_a l S0 st ste) t0 y hs y' -> nowhere_negative c E (S N_ang) t0 y -> nowhere_negative c E (S N_ang) (t0 + total hs) y'.
Proof.
  intros c E D N_ang ws mus cc c_a l S0 st ste t0 t1 hs y y' Hg HN HM He Hw Hc Hca Hl HS Hin Hd Hh Hle Hr Hy.
  apply (run_keeps (nowhere_negative c E (S N_ang)) implicit_euler (coupledR c E D N_ang ws mus cc c_a l S0 st ste) t0 t1) with (ok := fun h => In h hs) (y := y); auto; [| |lra].
  - intros t u z Hz Hu. now apply (keeps_ext c E (S N_ang) t u z).
  - intros t h u u' Ht h0 hd Hth Hu Hst. rewrite material_nonneg in Hu by (auto; apply He; lra).
    assert (I1 : increasing (fN c) (fun k => E k (t + h))) by (apply He; lra). rewrite material_nonneg by auto.
    pose (sc := fun a => if (a =? N_ang)%nat then 2 else 1).
    assert (SC : forall a, 0 < sc a) by (intros a; unfold sc; destruct (a =? N_ang)%nat; lra).
    destruct (argmin2 (S N_ang) (fN c) (fun a s => u' (a, s, 0%nat) / sqrt (E (S s) (t + h) - E s (t + h)) / sc a)) as (a & s & Ha & Hs & Q); [lia|lia|]. cbv beta in Q.
    set (m := u' (a, s, 0%nat) / sqrt (E (S s) (t + h) - E s (t + h)) / sc a) in *.
    assert (low : forall b k, (b < S N_ang)%nat -> (k < fN c)%nat -> sc b * m <= u' (b, k, 0%nat) / sqrt (E (S k) (t + h) - E k (t + h))).
    { intros b k Hb Hk. pose proof (Q b k Hb Hk) as Z. pose proof (SC b) as B. apply (Rmult_le_compat_l (sc b)) in Z; [|lra].
      replace (u' (b, k, 0%nat) / sqrt (E (S k) (t + h) - E k (t + h))) with (sc b * (u' (b, k, 0%nat) / sqrt (E (S k) (t + h) - E k (t + h)) / sc b)); auto.
      pose proof (sw_pos c E (t + h) I1 k Hk) as Sp. cbv zeta in Sp. cbv beta in Sp. field. split; lra. }
    assert (M : 0 <= m).
    { destruct (Rle_lt_dec 0 m) as [|L]; auto. exfalso.
      destruct (coup0 c E D (t + h) Hg HN HM I1 N_ang ws mus cc c_a l S0 st ste u' a s Ha Hs Hl Hc Hca (HS s (t + h) Hs ltac:(lra))) as (vl & vr & sg & F & [G _] & X).
      pose proof (SC a) as SA. assert (L2 : sc a * m < 0) by nra.
      pose proof (tr_implicit c E D (t + h) Hg HN HM I1 (S N_ang) (with_material N_ang mus) u' a s (sc a * m) vl vr Ha Hs) as Y.
      specialize (Y ltac:(intros v Hv; pose proof (Hin (t + h) ltac:(lra) v Hv); lra) (fun k Hk => low a k Ha Hk)).
      assert (Em : u' (a, s, 0%nat) / sqrt (E (S s) (t + h) - E s (t + h)) = sc a * m).
      { pose proof (sw_pos c E (t + h) I1 s Hs) as Sp. cbv zeta in Sp. cbv beta in Sp. unfold m. field. split; lra. }
      specialize (Y Em F).
      pose proof (implicit_form _ _ _ _ _ Hst (a, s, 0%nat)) as St. rewrite X in St. pose proof (Hu a s Ha Hs) as U.
      pose proof (sw_pos c E (t + h) I1 s Hs) as Sp. cbv zeta in Sp, Y. cbv beta in Sp, Y.
      pose proof (fun b Hb => low b s Hb Hs) as lowS. set (r := sqrt (E (S s) (t + h) - E s (t + h))) in *.
      assert (lo : forall b, (b < S N_ang)%nat -> r * (sc b * m) <= u' (b, s, 0%nat)).
      { intros b Hb. specialize (lowS b Hb). apply (Rmult_le_compat_l r) in lowS; [|lra]. replace (r * (u' (b, s, 0%nat) / r)) with (u' (b, s, 0%nat)) in lowS by (field; lra). exact lowS. }
      assert (U' : u' (a, s, 0%nat) = r * (sc a * m)) by (rewrite <- Em; field; lra).
      destruct (Hd h s (t + h) hd Hs ltac:(lra)) as [B1 B2].
      set (T := tr E D (t + h) _ _ s vl vr) in *. set (W := sumn N_ang ws) in *. set (x := widening E D s (t + h) / 2) in *.
      assert (PP : r * m * W <= sumn N_ang (fun l => u' (l, s, 0%nat) * ws l)).
      { unfold W. rewrite <- sumn_scal. apply sumn_le. intros k Hk. apply Rmult_le_compat_r; auto. specialize (lo k ltac:(lia)). unfold sc in lo. rewrite (proj2 (Nat.eqb_neq k N_ang) ltac:(lia)) in lo. lra. }
      assert (I : 0 <= / l) by (left; now apply Rinv_0_lt_compat).
      assert (Z : exists q, h * q < 1 /\ q * (r * (sc a * m)) <= T + react N_ang ws cc c_a l u' a s).
      { unfold react. cbv zeta. set (P := sumn N_ang (fun _ => _)) in *. destruct (Nat.eqb_spec a N_ang) as [->|Na].
        - exists (x + c_a * (W - 1) / l). split; auto. rewrite U'. unfold sc in *. rewrite Nat.eqb_refl in *.
          assert (c_a * (r * m * W) * / l <= c_a * P * / l) by (apply Rmult_le_compat_r; auto; apply Rmult_le_compat_l; auto).
          unfold Rdiv in *. lra.
        - exists (x + (cc * W + c_a - 1) / l). split; auto. rewrite U'. pose proof (lo N_ang ltac:(lia)) as ln. unfold sc in *. rewrite Nat.eqb_refl in ln. rewrite (proj2 (Nat.eqb_neq a N_ang) Na) in *.
          assert (cc * (r * m * W) * / l <= cc * P * / l) by (apply Rmult_le_compat_r; auto; apply Rmult_le_compat_l; auto).
          assert (c_a * (r * (2 * m)) * / l <= c_a * u' (N_ang, s, 0%nat) * / l) by (apply Rmult_le_compat_r; auto; apply Rmult_le_compat_l; auto).
          unfold Rdiv in *. lra. }
      destruct Z as (q & Hq & Z). apply (Rmult_le_compat_l h) in Z; auto. assert (0 <= h * sg) by (apply Rmult_le_pos; auto). rewrite U' in St.
      assert (0 < (1 - h * q) * (r * - (sc a * m))) by (apply Rmult_lt_0_compat; [lra|apply Rmult_lt_0_compat; lra]). lra. }
    intros b k Hb Hk. pose proof (low b k Hb Hk) as Z. pose proof (sw_pos c E (t + h) I1 k Hk) as Sp. cbv zeta in Sp. cbv beta in Sp. pose proof (SC b).
    replace (u' (b, k, 0%nat)) with (u' (b, k, 0%nat) / sqrt (E (S k) (t + h) - E k (t + h)) * sqrt (E (S k) (t + h) - E k (t + h))) by (field; lra).
    apply Rmult_le_pos; [|lra]. assert (0 <= sc b * m) by (apply Rmult_le_pos; lra). lra.
Qed.
Print Assumptions C180_implicit.

Lemma small_steps t0 t delta : t0 <= t -> 0 < delta -> exists hs, (forall h, In h hs -> 0 <= h <= delta) /\ total hs = t - t0.
Proof.
  intros Ht Hd. destruct (nfloor_ex ((t - t0) / delta)) as (n & Hn1 & Hn2). { apply Rmult_le_pos; [lra|]. left. now apply Rinv_0_lt_compat. }
  pose proof (pos_INR n). exists (repeat ((t - t0) / (INR n + 1)) (S n)). split.
  - intros h Hh. apply repeat_spec in Hh. subst h. split; [apply Rmult_le_pos; [lra|]; left; apply Rinv_0_lt_compat; lra|].
    apply Rle_div_l; [lra|]. apply Rlt_le. apply (Rmult_lt_compat_r delta) in Hn2; auto. unfold Rdiv in Hn2. rewrite Rmult_assoc, Rinv_l in Hn2 by lra. lra.
  - assert (X : forall k h, total (repeat h k) = INR k * h) by (induction k as [|k IH]; intros h; cbn [repeat total]; [cbn; ring|rewrite IH, S_INR; ring]).
    rewrite X, S_INR. field. lra.
Qed.
Lemma rates_bounded c E D A mus t0 t1 : t0 <= t1 -> mesh_ok c E D t0 t1 -> (forall k, (k <= fN c)%nat -> continuous_on (D k) t0 t1) ->
  exists K, 0 <= K /\ forall a s t, (a < A)%nat -> (s < fN c)%nat -> t0 <= t <= t1 -> widening E D s t / 2 + leaving E D (mus a) s t <= K.
Proof.
  intros Hle HM HD.
  pose (g := fun (mu : R) s t => (Rabs (D (S s) t - D s t) + Rabs (mu - D (S s) t) + Rabs (mu - D s t)) / (E (S s) t - E s t)).
  assert (C : forall mu s, (s < fN c)%nat -> forall t, t0 <= t <= t1 -> continuous (g mu s) t).
  { intros mu s Hs t Ht. destruct (HM t Ht) as [I J]. pose proof (I s Hs). pose proof (HD s ltac:(lia) t Ht) as D1. pose proof (HD (S s) ltac:(lia) t Ht) as D2.
    assert (AB : forall f : R -> R, continuous f t -> continuous (fun t => Rabs (f t)) t) by (intros f Hf; apply (continuous_comp f Rabs); auto; apply continuous_Rabs).
    unfold g. apply (continuous_mult (fun t => Rabs (D (S s) t - D s t) + Rabs (mu - D (S s) t) + Rabs (mu - D s t)) (fun t => / (E (S s) t - E s t))).
    - apply (continuous_plus (fun t => Rabs (D (S s) t - D s t) + Rabs (mu - D (S s) t)) (fun t => Rabs (mu - D s t))).
      + apply (continuous_plus (fun t => Rabs (D (S s) t - D s t)) (fun t => Rabs (mu - D (S s) t))); apply AB.
        * now apply (continuous_minus (D (S s)) (D s)).
        * apply (continuous_minus (fun _ => mu) (D (S s))); auto. apply continuous_const.
      + apply AB. apply (continuous_minus (fun _ => mu) (D s)); auto. apply continuous_const.
    - apply (continuous_comp (fun t => E (S s) t - E s t) Rinv).
      + apply (continuous_minus (E (S s)) (E s)); apply ex_derive_continuous; eexists; apply J; lia.
      + apply continuous_Rinv. lra. }
  assert (B : exists K, 0 <= K /\ forall a s t, (a < A)%nat -> (s < fN c)%nat -> t0 <= t <= t1 -> g (mus a) s t <= K).
  { induction A as [|A (K & K0 & HK)]; [exists 0; split; [lra|intros; lia]|].
    destruct (bounded_fin (fN c) (g (mus A)) t0 t1 Hle (C (mus A))) as (K' & K0' & HK'). exists (K + K'). split; [lra|].
    intros a s t Ha Hs Ht. destruct (Nat.eq_dec a A) as [->|]; [specialize (HK' s t Hs Ht)|specialize (HK a s t ltac:(lia) Hs Ht)]; lra. }
  destruct B as (K & K0 & HK). exists K. split; auto. intros a s t Ha Hs Ht. apply (Rle_trans _ (g (mus a) s t)); auto.
  destruct (HM t Ht) as [I _]. pose proof (I s Hs) as W. cbv beta in W. unfold widening, leaving, g.
  replace ((D (S s) t - D s t) / (E (S s) t - E s t) / 2 + (Rmax 0 (mus a - D (S s) t) + Rmax 0 (D s t - mus a)) / (E (S s) t - E s t))
    with (((D (S s) t - D s t) / 2 + (Rmax 0 (mus a - D (S s) t) + Rmax 0 (D s t - mus a))) / (E (S s) t - E s t)) by (field; lra).
  apply Rmult_le_compat_r; [left; apply Rinv_0_lt_compat; lra|].
  unfold Rabs, Rmax. repeat destruct (Rcase_abs _); repeat destruct (Rle_dec _ _); lra.
Qed.
(** Along the exact solution of the coupled equations in time neither the angular flux nor the material energy becomes
    negative, however the mesh moves. *)
Theorem C180_trajectory : forall c E D N_ang ws mus cc c_a l S0 st ste V ee t0 t1, fgeom c = Slab -> (2 <= fN c)%nat -> fM c = 0%nat -> t0 <= t1 ->
  mesh_ok c E D t0 t1 -> (forall k, (k <= fN c)%nat -> continuous_on (D k) t0 t1) ->
  (forall s i, (s < fN c)%nat -> (i <= fM c)%nat -> continuous_on (S0 s i) t0 t1) -> steady c t0 t1 ->
  (forall a, (a < N_ang)%nat -> 0 <= ws a) -> 0 <= cc -> 0 <= c_a -> 0 < l ->
  (forall s t, (s < fN c)%nat -> t0 <= t <= t1 -> 0 <= S0 s 0%nat t) -> (forall t, t0 <= t <= t1 -> enters_nonneg c E t) ->
  solves_thermal c E D N_ang ws mus cc c_a l ee S0 st ste V ee t0 t1 ->
  (forall a s x, (a < N_ang)%nat -> (s < fN c)%nat -> 0 <= field Slab (fM c) (fun j => V a s j t0) (E s t0) (E (S s) t0) x) ->
  (forall s x, (s < fN c)%nat -> 0 <= field Slab (fM c) (fun j => ee s j t0) (E s t0) (E (S s) t0) x) ->
  forall t s x, t0 <= t <= t1 -> (s < fN c)%nat ->
    (forall a, (a < N_ang)%nat -> 0 <= field Slab (fM c) (fun j => V a s j t) (E s t) (E (S s) t) x) /\
    0 <= field Slab (fM c) (fun j => ee s j t) (E s t) (E (S s) t) x.
Proof.
  intros c E D N_ang ws mus cc c_a l S0 st ste V ee t0 t1 Hg HN HM Hle HMo HD HS Hst Hw Hc Hca Hl HS0 Hin HV V0 e0 t s x Ht Hs.
  assert (He : forall t, t0 <= t <= t1 -> increasing (fN c) (fun k => E k t)) by (intros u Hu; apply (HMo u Hu)).
  pose (y := fun p : idx => let '(a, s, i) := p in if active (S N_ang) (fN c) (fM c) p then if (a =? N_ang)%nat then ee s i t0 else V a s i t0 else 0).
  assert (Y0 : nowhere_negative c E (S N_ang) t0 y).
  { rewrite material_nonneg by (auto; apply He; lra). intros a k Ha Hk. unfold y. rewrite (proj2 (active_iff (S N_ang) (fN c) (fM c) a k 0%nat)) by (repeat split; auto; lia).
    pose proof (sw_pos c E t0 (He t0 ltac:(lra)) k Hk) as Sp. cbv zeta in Sp. cbv beta in Sp.
    assert (F0 : forall u : idx -> R, (forall x, 0 <= field Slab (fM c) (fun j => u (a, k, j)) (E k t0) (E (S k) t0) x) -> 0 <= u (a, k, 0%nat)).
    { intros u Hu. specialize (Hu 0). rewrite (field0 c E t0 HM (He t0 ltac:(lra))) in Hu by auto. cbv zeta in Hu. cbv beta in Hu.
      replace (u (a, k, 0%nat)) with (u (a, k, 0%nat) / sqrt (E (S k) t0 - E k t0) * sqrt (E (S k) t0 - E k t0)) by (field; lra). apply Rmult_le_pos; lra. }
    destruct (Nat.eqb_spec a N_ang) as [->|Na].
    - apply (F0 (fun p => let '(a, s, i) := p in ee s i t0)). intros z. now apply e0.
    - apply (F0 (fun p => let '(a, s, i) := p in V a s i t0)). intros z. apply V0; auto; lia. }
  assert (Yv : vector (S N_ang) (fN c) (fM c) y) by (intros [[a k] i] Q; unfold y; now rewrite Q).
  assert (main : forall a, (a < S N_ang)%nat -> 0 <= (if (a =? N_ang)%nat then ee s 0%nat t else V a s 0%nat t)).
  { intros a Ha. apply le_epsilon. intros eps Heps.
    destruct (C138_coupled euler c E D N_ang ws mus cc c_a l S0 st ste st ste V ee t0 t1 (proj2 euler_ok) Hg HN Hle HMo HD HS Hst HV eps Heps) as (d & Pd & H).
    destruct (rates_bounded c E D (S N_ang) (with_material N_ang mus) t0 t1 Hle HMo HD) as (K & K0 & HK).
    assert (I : 0 < / l) by now apply Rinv_0_lt_compat.
    set (B := 1 / l + c_a / l + K). assert (CA : 0 <= c_a / l) by (apply Rmult_le_pos; lra). assert (BP : 0 < B) by (unfold B, Rdiv in *; lra).
    assert (Dp : 0 < Rmin d (/ B)) by (apply Rmin_pos; auto; now apply Rinv_0_lt_compat).
    destruct (small_steps t0 t (Rmin d (/ B)) (proj1 Ht) Dp) as (hs & Hh & Ht').
    destruct (explicit_run euler (coupledR c E D N_ang ws mus cc c_a l S0 st ste) (proj1 euler_ok) hs t0 y) as (y' & Hr).
    assert (Bq : forall q, q <= B -> Rmin d (/ B) * q <= 1).
    { intros q Hq. apply (Rle_trans _ (Rmin d (/ B) * B)); [apply Rmult_le_compat_l; lra|]. apply (Rle_trans _ (/ B * B)); [apply Rmult_le_compat_r; [lra|apply Rmin_r]|]. rewrite Rinv_l; lra. }
    assert (N1 : nowhere_negative c E (S N_ang) (t0 + total hs) y').
    { apply (C180_explicit c E D N_ang ws mus cc c_a l S0 st ste t0 t1 (Rmin d (/ B)) hs y y'); auto.
      - intros b k u Hb Hk Hu. apply Bq. specialize (HK b k u ltac:(lia) Hk Hu). unfold with_material in HK. rewrite (proj2 (Nat.eqb_neq b N_ang) ltac:(lia)) in HK. unfold B. lra.
      - intros k u Hk Hu. apply Bq. specialize (HK N_ang k u ltac:(lia) Hk Hu). unfold with_material in HK. rewrite Nat.eqb_refl in HK. unfold B, Rdiv in *. lra.
      - lra. }
    rewrite material_nonneg in N1 by (auto; apply He; lra).
    destruct (H hs y y' ltac:(intros h Hi; specialize (Hh h Hi); pose proof (Rmin_l d (/ B)); lra) ltac:(lra) Yv Hr) with (s := s) (i := 0%nat) as [R1 R2]; auto; try lia.
    { intros k i Hk Hi. unfold y. split.
      - rewrite (proj2 (active_iff (S N_ang) (fN c) (fM c) N_ang k i)) by (repeat split; auto; lia). rewrite Nat.eqb_refl. rewrite Rminus_diag_eq, Rabs_R0 by auto. lra.
      - intros b Hb. rewrite (proj2 (active_iff (S N_ang) (fN c) (fM c) b k i)) by (repeat split; auto; lia). rewrite (proj2 (Nat.eqb_neq b N_ang) ltac:(lia)). rewrite Rminus_diag_eq, Rabs_R0 by auto. lra. }
    replace (t0 + total hs) with t in * by lra. pose proof (N1 a s Ha Hs) as P.
    destruct (Nat.eqb_spec a N_ang) as [->|Na].
    - apply Rabs_le_between in R1. lra.
    - specialize (R2 a ltac:(lia)). apply Rabs_le_between in R2. lra. }
  assert (F1 : forall u : idx -> R, forall a, 0 <= u (a, s, 0%nat) -> 0 <= field Slab (fM c) (fun j => u (a, s, j)) (E s t) (E (S s) t) x).
  { intros u a Hu. rewrite (field0 c E t HM (He t Ht)) by auto. cbv zeta. cbv beta. apply Rmult_le_pos; auto. left. apply Rinv_0_lt_compat. apply (sw_pos c E t (He t Ht) s Hs). }
  split.
  - intros a Ha. apply (F1 (fun p => let '(a, s, i) := p in V a s i t) a). pose proof (main a ltac:(lia)) as Z. now rewrite (proj2 (Nat.eqb_neq a N_ang) ltac:(lia)) in Z.
  - apply (F1 (fun p => let '(a, s, i) := p in ee s i t) 0%nat). pose proof (main N_ang ltac:(lia)) as Z. now rewrite Nat.eqb_refl in Z.
Qed.
Print Assumptions C180_trajectory.
(** ** Upper bounds on a mesh at rest *)
(** no value of the angular flux exceeds K, no value of the material energy 2 K (its value in equilibrium with K) *)
Definition coupled_above (c : flux_cfg) (E : nat -> R -> R) (N_ang : nat) (K t : R) (y : idx -> R) : Prop :=
  nowhere_above c E N_ang K t y /\ forall s x, (s < fN c)%nat -> field Slab (fM c) (fun j => y (N_ang, s, j)) (E s t) (E (S s) t) x <= 2 * K.
Definition cap (N_ang : nat) (K : R) (a : nat) : R := if (a =? N_ang)%nat then 2 * K else K.
Lemma coupled_above_iff c e N_ang K t y : fM c = 0%nat -> increasing (fN c) e ->
  (coupled_above c (fun k _ => e k) N_ang K t y <-> forall a s, (a < S N_ang)%nat -> (s < fN c)%nat -> y (a, s, 0%nat) <= sqrt (e (S s) - e s) * cap N_ang K a).
Proof.
  intros HM He. pose proof (sw_pos c (fun k _ => e k) t He) as Sp. cbv zeta in Sp. cbv beta in Sp.
  assert (X : forall a s x B, (s < fN c)%nat -> field Slab (fM c) (fun j => y (a, s, j)) (e s) (e (S s)) x <= B <-> y (a, s, 0%nat) <= sqrt (e (S s) - e s) * B).
  { intros a s x B Hs. pose proof (field0 c (fun k _ => e k) t HM He) as F. cbv zeta in F. cbv beta in F. rewrite F by auto. specialize (Sp s Hs).
    rewrite (Rmult_comm (sqrt _) B). apply Rle_div_l. exact Sp. }
  unfold coupled_above, nowhere_above, cap. split.
  - intros [H1 H2] a s Ha Hs. destruct (Nat.eqb_spec a N_ang) as [->|Na]; apply (X _ s 0); auto. apply H1; auto; lia.
  - intros H. split; [intros a s x Ha Hs|intros s x Hs]; apply X; auto.
    + specialize (H a s ltac:(lia) Hs). now rewrite (proj2 (Nat.eqb_neq a N_ang) ltac:(lia)) in H.
    + specialize (H N_ang s ltac:(lia) Hs). now rewrite Nat.eqb_refl in H.
Qed.
Section Up.
Variables (c : flux_cfg) (e : nat -> R) (t K : R) (N_ang : nat) (ws mus : nat -> R) (cc c_a l : R).
Hypothesis Hg : fgeom c = Slab.
Hypothesis HN : (2 <= fN c)%nat.
Hypothesis HM : fM c = 0%nat.
Hypothesis He : increasing (fN c) e.
Hypothesis Hw : forall a, (a < N_ang)%nat -> 0 <= ws a.
Hypothesis Hc : 0 <= cc.
Hypothesis Hca : 0 <= c_a.
Hypothesis Hl : 0 < l.
Hypothesis H1 : sumn N_ang ws <= 1.
Hypothesis H2 : cc * sumn N_ang ws + c_a <= 1.
Hypothesis HK : 0 <= K.
Hypothesis Hin : enters_below c (fun k _ => e k) K t.
(** at rest the flux through the faces pulls towards K at the rate of leaving, the exchange at its own *)
Lemma tr_up y a s vl vr : (a < S N_ang)%nat -> (s < fN c)%nat -> (forall k, (k < fN c)%nat -> y (a, k, 0%nat) <= sqrt (e (S k) - e k) * cap N_ang K a) ->
  faces c (fun k _ => e k) (fun _ _ => 0) t (S N_ang) (with_material N_ang mus) y a s vl vr ->
  tr (fun k _ => e k) (fun _ _ => 0) t (with_material N_ang mus a) (y (a, s, 0%nat)) s vl vr <= Rabs (with_material N_ang mus a) / (e (S s) - e s) * (sqrt (e (S s) - e s) * cap N_ang K a - y (a, s, 0%nat)).
Proof.
  intros Ha Hs Hy [Fl Fr]. pose proof (w_pos c (fun k _ => e k) t He s Hs) as Wp. pose proof (sw_pos c (fun k _ => e k) t He) as SP. pose proof (SP s Hs) as Sp. cbv zeta in Wp, Sp, SP. cbv beta in Wp, Sp, SP.
  assert (CK : K <= cap N_ang K a) by (unfold cap; destruct (a =? N_ang)%nat; lra).
  assert (Pv : forall f v, (f <= fN c)%nat -> face c t e (fun _ => 0) (fun k j => y (a, k, j)) (with_material N_ang mus a) (fun _ => 0) f v -> v <= cap N_ang K a).
  { intros f v Hf F. destruct (face_val c (fun k _ => e k) (fun _ _ => 0) t Hg HM He (S N_ang) y (with_material N_ang mus) a f v Ha Hf F) as [I|(k & Hk & ->)]; [specialize (Hin v I); lra|].
    apply (proj2 (Rle_div_l _ _ _ (SP k Hk))). rewrite Rmult_comm. exact (Hy k Hk). }
  unfold tr. cbv beta. set (mu := with_material N_ang mus a) in *. set (B := cap N_ang K a) in *. set (w := e (S s) - e s) in *. set (r := sqrt w) in *. set (u := y (a, s, 0%nat)) in *.
  assert (SS : w = r * r) by (symmetry; apply sqrt_sqrt; lra).
  pose proof (face_out c (fun k _ => e k) (fun _ _ => 0) t Hg HN HM He (S N_ang) y (with_material N_ang mus) a s) as FO. cbv beta zeta in FO. fold mu w in FO. fold u r in FO.
  destruct (Rle_lt_dec 0 mu) as [P|P].
  - pose proof (proj1 (FO vr Ha Hs) ltac:(lra) Fr) as Vr. pose proof (Pv s vl ltac:(lia) Fl) as Vl. rewrite Rabs_pos_eq by auto. rewrite Vr.
    replace (mu / w * (r * B - u)) with (- (mu * (u / r) - mu * B) / r) by (rewrite SS; field; lra).
    replace (- (0 - 0) / (2 * w) * u - ((mu - 0) * (u / r) - (mu - 0) * vl) / r) with (- (mu * (u / r) - mu * vl) / r) by (field; split; lra).
    apply Rmult_le_compat_r; [left; now apply Rinv_0_lt_compat|]. assert (mu * vl <= mu * B) by (apply Rmult_le_compat_l; auto). lra.
  - pose proof (proj2 (FO vl Ha Hs) ltac:(lra) Fl) as Vl. pose proof (Pv (S s) vr ltac:(lia) Fr) as Vr. rewrite Rabs_left by auto. rewrite Vl.
    replace (- mu / w * (r * B - u)) with (- (mu * B - mu * (u / r)) / r) by (rewrite SS; field; lra).
    replace (- (0 - 0) / (2 * w) * u - ((mu - 0) * vr - (mu - 0) * (u / r)) / r) with (- (mu * vr - mu * (u / r)) / r) by (field; split; lra).
    apply Rmult_le_compat_r; [left; now apply Rinv_0_lt_compat|]. assert (- mu * vr <= - mu * B) by (apply Rmult_le_compat_l; lra). lra.
Qed.
Definition rate (a : nat) : R := if (a =? N_ang)%nat then c_a / l else 1 / l.
Lemma react_up y a s : (a < S N_ang)%nat -> (s < fN c)%nat -> (forall b, (b < S N_ang)%nat -> y (b, s, 0%nat) <= sqrt (e (S s) - e s) * cap N_ang K b) ->
  react N_ang ws cc c_a l y a s <= rate a * (sqrt (e (S s) - e s) * cap N_ang K a - y (a, s, 0%nat)).
Proof.
  intros Ha Hs Hy. set (r := sqrt _) in *. assert (r0 : 0 <= r) by apply sqrt_pos. assert (I : 0 <= / l) by (left; now apply Rinv_0_lt_compat).
  assert (rK : 0 <= r * K) by (apply Rmult_le_pos; auto).
  assert (PP : sumn N_ang (fun l => y (l, s, 0%nat) * ws l) <= r * K * sumn N_ang ws).
  { rewrite <- sumn_scal. apply sumn_le. intros b Hb. apply Rmult_le_compat_r; auto. specialize (Hy b ltac:(lia)). unfold cap in Hy. now rewrite (proj2 (Nat.eqb_neq b N_ang) ltac:(lia)) in Hy. }
  pose proof (Hy N_ang ltac:(lia)) as YN. unfold react, rate. cbv zeta. set (P := sumn N_ang (fun _ => _)) in *. set (W := sumn N_ang ws) in *. unfold cap in *. rewrite Nat.eqb_refl in YN.
  destruct (Nat.eqb_spec a N_ang) as [->|Na].
  - assert (P <= r * K). { apply (Rle_trans _ _ _ PP). rewrite <- (Rmult_1_r (r * K)) at 2. apply Rmult_le_compat_l; auto. }
    assert (c_a * (2 * P - y (N_ang, s, 0%nat)) * / l <= c_a * (r * (2 * K) - y (N_ang, s, 0%nat)) * / l) by (apply Rmult_le_compat_r; auto; apply Rmult_le_compat_l; auto; lra). unfold Rdiv in *. lra.
  - assert (cc * P <= cc * (r * K * W)) by (apply Rmult_le_compat_l; auto). assert (c_a * (1 / 2 * y (N_ang, s, 0%nat)) <= c_a * (r * K)) by (apply Rmult_le_compat_l; auto; lra).
    assert (r * K * (cc * W + c_a) <= r * K * 1) by (apply Rmult_le_compat_l; auto).
    assert ((- y (a, s, 0%nat) + cc * P + c_a * (1 / 2 * y (N_ang, s, 0%nat))) * / l <= (r * K - y (a, s, 0%nat)) * / l) by (apply Rmult_le_compat_r; auto; lra). unfold Rdiv in *. lra.
Qed.
End Up.
(** On a mesh at rest without sources, with weights of sum at most one and cc times their sum plus c_a at most one, neither
    Euler steps below the bound nor the exact solution let the angular flux exceed the largest of the initial and entering
    values and of half the initial material energy, or the material energy twice that. *)
Theorem C182_explicit : forall c e N_ang ws mus cc c_a l st ste t0 delta hs y y' K, fgeom c = Slab -> (2 <= fN c)%nat -> fM c = 0%nat ->
  increasing (fN c) e -> (forall a, (a < N_ang)%nat -> 0 <= ws a) -> 0 <= cc -> 0 <= c_a -> 0 < l -> sumn N_ang ws <= 1 -> cc * sumn N_ang ws + c_a <= 1 -> 0 <= K ->
  (forall t, t0 <= t <= t0 + total hs -> enters_below c (fun k _ => e k) K t) ->
  (forall a s, (a < N_ang)%nat -> (s < fN c)%nat -> delta * (1 / l + Rabs (mus a) / (e (S s) - e s)) <= 1) -> delta * (c_a / l) <= 1 ->
  (forall h, In h hs -> 0 <= h <= delta) ->
  rk_run euler (coupledR c (fun k _ => e k) (fun _ _ => 0) N_ang ws mus cc c_a l (fun _ _ _ => 0) st ste) t0 y hs y' ->
  coupled_above c (fun k _ => e k) N_ang K t0 y -> coupled_above c (fun k _ => e k) N_ang K (t0 + total hs) y'.
Proof.
  intros c e N_ang ws mus cc c_a l st ste t0 delta hs y y' K Hg HN HM He Hw Hc Hca Hl H1 H2 HK Hin Hd Hd' Hh Hr Hy.
  apply (run_keeps (coupled_above c (fun k _ => e k) N_ang K) euler (coupledR c (fun k _ => e k) (fun _ _ => 0) N_ang ws mus cc c_a l (fun _ _ _ => 0) st ste) t0 (t0 + total hs)) with (ok := fun h => h <= delta) (y := y); auto; try lra.
  - intros t u z Hz Hu. rewrite coupled_above_iff in * by auto. intros a s Ha Hs. rewrite Hz. auto.
  - intros t h u u' Ht h0 hd Hth Hu Hst. rewrite coupled_above_iff in * by auto. intros a s Ha Hs. rewrite (euler_form _ _ _ _ _ Hst).
    destruct (coup0 c (fun k _ => e k) (fun _ _ => 0) t Hg HN HM He N_ang ws mus cc c_a l (fun _ _ _ => 0) st ste u a s Ha Hs Hl Hc Hca (Rle_refl 0)) as (vl & vr & sg & F & [_ G] & ->).
    rewrite (G eq_refl). pose proof (tr_up c e t K N_ang mus Hg HN HM He HK (Hin t ltac:(lra)) u a s vl vr Ha Hs (fun k Hk => Hu a k Ha Hk) F) as L1.
    pose proof (react_up c e K N_ang ws cc c_a l HN HM Hw Hc Hca Hl H1 H2 HK u a s Ha Hs (fun b Hb => Hu b s Hb Hs)) as L2.
    pose proof (Hu a s Ha Hs) as U. set (B := sqrt (e (S s) - e s) * cap N_ang K a) in *.
    set (q1 := Rabs (with_material N_ang mus a) / (e (S s) - e s)) in *. set (q2 := rate N_ang c_a l a) in *.
    assert (Q : h * (q1 + q2) <= 1).
    { apply (below_one h delta); [lra|]. unfold q1, q2, rate, with_material. destruct (Nat.eqb_spec a N_ang) as [->|Na].
      - rewrite Rabs_R0. unfold Rdiv at 1. rewrite Rmult_0_l, Rplus_0_l. exact Hd'.
      - rewrite Rplus_comm. apply Hd; auto; lia. }
    assert (0 <= (1 - h * (q1 + q2)) * (B - u (a, s, 0%nat))) by (apply Rmult_le_pos; lra).
    apply (Rmult_le_compat_l h) in L1; auto. apply (Rmult_le_compat_l h) in L2; auto. lra.
Qed.
Print Assumptions C182_explicit.
Theorem C182_implicit : forall c e N_ang ws mus cc c_a l st ste t0 hs y y' K, fgeom c = Slab -> (2 <= fN c)%nat -> fM c = 0%nat ->
  increasing (fN c) e -> (forall a, (a < N_ang)%nat -> 0 <= ws a) -> 0 <= cc -> 0 <= c_a -> 0 < l -> sumn N_ang ws <= 1 -> cc * sumn N_ang ws + c_a <= 1 -> 0 <= K ->
  (forall t, t0 <= t <= t0 + total hs -> enters_below c (fun k _ => e k) K t) -> (forall h, In h hs -> 0 <= h) ->
  rk_run implicit_euler (coupledR c (fun k _ => e k) (fun _ _ => 0) N_ang ws mus cc c_a l (fun _ _ _ => 0) st ste) t0 y hs y' ->
  coupled_above c (fun k _ => e k) N_ang K t0 y -> coupled_above c (fun k _ => e k) N_ang K (t0 + total hs) y'.
Proof.
  intros c e N_ang ws mus cc c_a l st ste t0 hs y y' K Hg HN HM He Hw Hc Hca Hl H1 H2 HK Hin Hh Hr Hy.
  apply (run_keeps (coupled_above c (fun k _ => e k) N_ang K) implicit_euler (coupledR c (fun k _ => e k) (fun _ _ => 0) N_ang ws mus cc c_a l (fun _ _ _ => 0) st ste) t0 (t0 + total hs)) with (ok := fun h => True) (y := y); auto; try lra.
  - intros t u z Hz Hu. rewrite coupled_above_iff in * by auto. intros a s Ha Hs. rewrite Hz. auto.
  - intros t h u u' Ht h0 _ Hth Hu Hst. rewrite coupled_above_iff in * by auto.
    pose proof (sw_pos c (fun k _ => e k) t He) as SP. cbv zeta in SP. cbv beta in SP.
    assert (Cp : forall b q, cap N_ang q b = q * cap N_ang 1 b) by (intros b q; unfold cap; destruct (b =? N_ang)%nat; ring).
    assert (C1 : forall b, 0 < cap N_ang 1 b) by (intros b; unfold cap; destruct (b =? N_ang)%nat; lra).
    destruct (argmin2 (S N_ang) (fN c) (fun a s => - (u' (a, s, 0%nat) / (sqrt (e (S s) - e s) * cap N_ang 1 a)))) as (a & s & Ha & Hs & Q); [lia|lia|].
    set (m := u' (a, s, 0%nat) / (sqrt (e (S s) - e s) * cap N_ang 1 a)) in *.
    assert (A : forall b k, (b < S N_ang)%nat -> (k < fN c)%nat -> u' (b, k, 0%nat) <= sqrt (e (S k) - e k) * cap N_ang m b).
    { intros b k Hb Hk. pose proof (Q b k Hb Hk) as Z. cbv beta in Z. apply Ropp_le_cancel in Z. rewrite Cp.
      pose proof (Rmult_lt_0_compat _ _ (SP k Hk) (C1 b)) as P. apply (proj1 (Rle_div_l _ _ _ P)) in Z. lra. }
    assert (M : m <= K).
    { destruct (Rle_lt_dec m K) as [|L]; auto. exfalso.
      assert (Hin' : enters_below c (fun k _ => e k) m (t + h)) by (intros v Hv; pose proof (Hin (t + h) ltac:(lra) v Hv); lra).
      destruct (coup0 c (fun k _ => e k) (fun _ _ => 0) (t + h) Hg HN HM He N_ang ws mus cc c_a l (fun _ _ _ => 0) st ste u' a s Ha Hs Hl Hc Hca (Rle_refl 0)) as (vl & vr & sg & F & [_ G] & X).
      pose proof (implicit_form _ _ _ _ _ Hst (a, s, 0%nat)) as Y. rewrite X, (G eq_refl) in Y.
      pose proof (tr_up c e (t + h) m N_ang mus Hg HN HM He ltac:(lra) Hin' u' a s vl vr Ha Hs (fun k Hk => A a k Ha Hk) F) as L1.
      pose proof (react_up c e m N_ang ws cc c_a l HN HM Hw Hc Hca Hl H1 H2 ltac:(lra) u' a s Ha Hs (fun b Hb => A b s Hb Hs)) as L2.
      pose proof (Rmult_lt_0_compat _ _ (SP s Hs) (C1 a)) as P.
      assert (U' : u' (a, s, 0%nat) = sqrt (e (S s) - e s) * cap N_ang m a) by (rewrite Cp; unfold m; field; split; apply Rgt_not_eq; [apply C1|apply SP; auto]).
      rewrite <- U' in L1, L2. assert (Dz : u' (a, s, 0%nat) - u' (a, s, 0%nat) = 0) by ring. rewrite Dz, Rmult_0_r in L1, L2.
      apply (Rmult_le_compat_l h) in L1; auto. apply (Rmult_le_compat_l h) in L2; auto. pose proof (Hu a s Ha Hs) as U.
      rewrite Cp in U, U'. assert (0 < (m - K) * (sqrt (e (S s) - e s) * cap N_ang 1 a)) by (apply Rmult_lt_0_compat; lra). lra. }
    intros b k Hb Hk. apply (Rle_trans _ _ _ (A b k Hb Hk)). apply Rmult_le_compat_l; [apply sqrt_pos|]. rewrite (Cp b m), (Cp b K). apply Rmult_le_compat_r; auto. left; apply C1.
Qed.
Print Assumptions C182_implicit.
Theorem C182_trajectory : forall c e N_ang ws mus cc c_a l st ste V ee t0 t1 K, fgeom c = Slab -> (2 <= fN c)%nat -> fM c = 0%nat -> t0 <= t1 ->
  increasing (fN c) e -> steady c t0 t1 -> (forall a, (a < N_ang)%nat -> 0 <= ws a) -> 0 <= cc -> 0 <= c_a -> 0 < l -> sumn N_ang ws <= 1 -> cc * sumn N_ang ws + c_a <= 1 -> 0 <= K ->
  (forall t, t0 <= t <= t1 -> enters_below c (fun k _ => e k) K t) ->
  solves_thermal c (fun k _ => e k) (fun _ _ => 0) N_ang ws mus cc c_a l ee (fun _ _ _ => 0) st ste V ee t0 t1 ->
  (forall a s x, (a < N_ang)%nat -> (s < fN c)%nat -> field Slab (fM c) (fun j => V a s j t0) (e s) (e (S s)) x <= K) ->
  (forall s x, (s < fN c)%nat -> field Slab (fM c) (fun j => ee s j t0) (e s) (e (S s)) x <= 2 * K) ->
  forall t s x, t0 <= t <= t1 -> (s < fN c)%nat ->
    (forall a, (a < N_ang)%nat -> field Slab (fM c) (fun j => V a s j t) (e s) (e (S s)) x <= K) /\
    field Slab (fM c) (fun j => ee s j t) (e s) (e (S s)) x <= 2 * K.
Proof.
  intros c e N_ang ws mus cc c_a l st ste V ee t0 t1 K Hg HN HM Hle He Hst Hw Hc Hca Hl H1 H2 HK Hin HV V0 e0 t s x Ht Hs.
  pose (y := fun p : idx => let '(a, s, i) := p in if active (S N_ang) (fN c) (fM c) p then if (a =? N_ang)%nat then ee s i t0 else V a s i t0 else 0).
  assert (HMo : mesh_ok c (fun k _ => e k) (fun _ _ => 0) t0 t1) by (intros u _; split; [exact He|intros k _; apply (is_derive_const (e k))]).
  assert (HD : forall k, (k <= fN c)%nat -> continuous_on ((fun _ _ => 0) k) t0 t1) by (intros k _ u _; apply continuous_const).
  assert (HS : forall s i, (s < fN c)%nat -> (i <= fM c)%nat -> continuous_on ((fun _ _ _ => 0) s i) t0 t1) by (intros k i _ _ u _; apply continuous_const).
  assert (Yo : forall a k, (a < S N_ang)%nat -> (k < fN c)%nat -> y (a, k, 0%nat) = if (a =? N_ang)%nat then ee k 0%nat t0 else V a k 0%nat t0).
  { intros a k Ha Hk. unfold y. now rewrite (proj2 (active_iff (S N_ang) (fN c) (fM c) a k 0%nat)) by (repeat split; auto; lia). }
  assert (Y0 : coupled_above c (fun k _ => e k) N_ang K t0 y).
  { pose (z := fun p : idx => let '(a, s, i) := p in if (a =? N_ang)%nat then ee s i t0 else V a s i t0).
    assert (Z : coupled_above c (fun k _ => e k) N_ang K t0 z).
    { split; [intros a k w Ha Hk|intros k w Hk]; unfold z; [rewrite (proj2 (Nat.eqb_neq a N_ang) ltac:(lia))|rewrite Nat.eqb_refl]; auto. }
    rewrite coupled_above_iff in * by auto. intros a k Ha Hk. rewrite Yo by auto. apply (Z a k Ha Hk). }
  assert (Yv : vector (S N_ang) (fN c) (fM c) y) by (intros [[a k] i] Q; unfold y; now rewrite Q).
  assert (main : forall a, (a < S N_ang)%nat -> (if (a =? N_ang)%nat then ee s 0%nat t else V a s 0%nat t) <= sqrt (e (S s) - e s) * cap N_ang K a).
  { intros a Ha. apply le_epsilon. intros eps Heps.
    destruct (C138_coupled euler c (fun k _ => e k) (fun _ _ => 0) N_ang ws mus cc c_a l (fun _ _ _ => 0) st ste st ste V ee t0 t1 (proj2 euler_ok) Hg HN Hle HMo HD HS Hst HV eps Heps) as (d & Pd & H).
    destruct (rates_bounded c (fun k _ => e k) (fun _ _ => 0) N_ang mus t0 t1 Hle HMo HD) as (B0 & B00 & HB).
    assert (I : 0 < / l) by now apply Rinv_0_lt_compat.
    set (B := 1 / l + c_a / l + B0). assert (CA : 0 <= c_a / l) by (apply Rmult_le_pos; lra). assert (BP : 0 < B) by (unfold B, Rdiv in *; lra).
    assert (Dp : 0 < Rmin d (/ B)) by (apply Rmin_pos; auto; now apply Rinv_0_lt_compat).
    destruct (small_steps t0 t (Rmin d (/ B)) (proj1 Ht) Dp) as (hs & Hh & Ht').
    destruct (explicit_run euler (coupledR c (fun k _ => e k) (fun _ _ => 0) N_ang ws mus cc c_a l (fun _ _ _ => 0) st ste) (proj1 euler_ok) hs t0 y) as (y' & Hr).
    assert (Bq : forall q, q <= B -> Rmin d (/ B) * q <= 1).
    { intros q Hq. apply (Rle_trans _ (Rmin d (/ B) * B)); [apply Rmult_le_compat_l; lra|]. apply (Rle_trans _ (/ B * B)); [apply Rmult_le_compat_r; [lra|apply Rmin_r]|]. rewrite Rinv_l; lra. }
    assert (N1 : coupled_above c (fun k _ => e k) N_ang K (t0 + total hs) y').
    { apply (C182_explicit c e N_ang ws mus cc c_a l st ste t0 (Rmin d (/ B)) hs y y' K); auto.
      - intros u Hu. apply Hin. lra.
      - intros b k Hb Hk. apply Bq. specialize (HB b k t0 Hb Hk ltac:(lra)). unfold widening, leaving in HB. cbv beta in HB. pose proof (He k Hk) as Wk.
        assert (M : Rmax 0 (mus b - 0) + Rmax 0 (0 - mus b) = Rabs (mus b)) by (unfold Rmax, Rabs; repeat destruct (Rle_dec _ _); destruct (Rcase_abs _); lra).
        rewrite M in HB. replace ((0 - 0) / (e (S k) - e k) / 2) with 0 in HB by (field; lra). unfold B. lra.
      - apply Bq. unfold B, Rdiv in *. lra. }
    rewrite coupled_above_iff in N1 by auto.
    destruct (H hs y y' ltac:(intros h Hi; specialize (Hh h Hi); pose proof (Rmin_l d (/ B)); lra) ltac:(lra) Yv Hr) with (s := s) (i := 0%nat) as [R1 R2]; auto; try lia.
    { intros k i Hk Hi. unfold y. split.
      - rewrite (proj2 (active_iff (S N_ang) (fN c) (fM c) N_ang k i)) by (repeat split; auto; lia). rewrite Nat.eqb_refl. rewrite Rminus_diag_eq, Rabs_R0 by auto. lra.
      - intros b Hb. rewrite (proj2 (active_iff (S N_ang) (fN c) (fM c) b k i)) by (repeat split; auto; lia). rewrite (proj2 (Nat.eqb_neq b N_ang) ltac:(lia)). rewrite Rminus_diag_eq, Rabs_R0 by auto. lra. }
    replace (t0 + total hs) with t in * by lra. pose proof (N1 a s Ha Hs) as P.
    destruct (Nat.eqb_spec a N_ang) as [->|Na].
    - apply Rabs_le_between in R1. lra.
    - specialize (R2 a ltac:(lia)). apply Rabs_le_between in R2. lra. }
  pose proof (sw_pos c (fun k _ => e k) t He s Hs) as Sp. cbv zeta in Sp. cbv beta in Sp.
  pose proof (field0 c (fun k _ => e k) t HM He) as F. cbv zeta in F. cbv beta in F.
  split.
  - intros a Ha. pose proof (main a ltac:(lia)) as Z. unfold cap in Z. rewrite (proj2 (Nat.eqb_neq a N_ang) ltac:(lia)) in Z.
    rewrite (F (fun i => V a s i t) s x Hs). apply (proj2 (Rle_div_l _ _ _ Sp)). lra.
  - pose proof (main N_ang ltac:(lia)) as Z. unfold cap in Z. rewrite Nat.eqb_refl in Z.
    rewrite (F (fun i => ee s i t) s x Hs). apply (proj2 (Rle_div_l _ _ _ Sp)). lra.
Qed.
Print Assumptions C182_trajectory.
(** two unit cells at rest, one direction, all absorbed and emitted again, no scattering: a hot left cell (energy 1) without
    radiation.  Euler steps up to 1/2, implicit steps of any length, and the exact solution stay nonnegative. *)
Definition hot : idx -> R := fun p => let '(a, s, i) := p in if ((a =? 1) && (s =? 0) && (i =? 0))%nat then 1 else 0.
Lemma hot_nonneg t : nowhere_negative sC sE 2 t hot.
Proof. rewrite material_nonneg by (auto; exact (sE_incr t)). intros a s _ _. unfold hot. destruct (_ && _)%bool; lra. Qed.
Example C180_example hs y' : (forall h, In h hs -> 0 <= h <= 1 / 2) ->
  rk_run euler (coupledR sC sE (fun _ _ => 0) 1 (fun _ => 1) (fun _ => 1) 0 1 1 (fun _ _ _ => 0) (fun _ _ _ => s0) (fun _ _ => s0)) 0 hot hs y' -> nowhere_negative sC sE 2 (0 + total hs) y'.
Proof.
  intros Hh Hr. apply (C180_explicit sC sE (fun _ _ => 0) 1 (fun _ => 1) (fun _ => 1) 0 1 1 (fun _ _ _ => 0) (fun _ _ _ => s0) (fun _ _ => s0) 0 (0 + total hs) (1 / 2) hs hot y'); auto; try lra.
  - intros t _; exact (sE_incr t).
  - intros. lra.
  - intros. lra.
  - intros t _ v Hv. rewrite (unit_closed t v Hv). lra.
  - intros a s t _ _ _. unfold widening, leaving. replace (sE (S s) t - sE s t) with 1 by (unfold sE; rewrite S_INR; ring).
    rewrite (Rmax_right 0 (1 - 0)), (Rmax_left 0 (0 - 1)) by lra. lra.
  - intros s t _ _. unfold widening, leaving. replace (sE (S s) t - sE s t) with 1 by (unfold sE; rewrite S_INR; ring).
    rewrite !Rmax_left by lra. lra.
  - apply hot_nonneg.
Qed.
Example C180_example_implicit hs y' : (forall h, In h hs -> 0 <= h) ->
  rk_run implicit_euler (coupledR sC sE (fun _ _ => 0) 1 (fun _ => 1) (fun _ => 1) 0 1 1 (fun _ _ _ => 0) (fun _ _ _ => s0) (fun _ _ => s0)) 0 hot hs y' -> nowhere_negative sC sE 2 (0 + total hs) y'.
Proof.
  intros Hh Hr. apply (C180_implicit sC sE (fun _ _ => 0) 1 (fun _ => 1) (fun _ => 1) 0 1 1 (fun _ _ _ => 0) (fun _ _ _ => s0) (fun _ _ => s0) 0 (0 + total hs) hs hot y'); auto; try lra.
  - intros t _; exact (sE_incr t).
  - intros. lra.
  - intros. lra.
  - intros t _ v Hv. rewrite (unit_closed t v Hv). lra.
  - intros h s t Hi _ _. specialize (Hh h Hi). unfold widening. cbn [sumn]. replace ((0 - 0) / (sE (S s) t - sE s t)) with 0 by (unfold Rdiv; ring). split; lra.
  - apply hot_nonneg.
Qed.
Example C180_example_trajectory : exists V ee, solves_thermal sC sE (fun _ _ => 0) 1 (fun _ => 1) (fun _ => 1) 0 1 1 ee (fun _ _ _ => 0) (fun _ _ _ => s0) (fun _ _ => s0) V ee 0 1 /\
  ee 0%nat 0%nat 0 = 1 /\ V 0%nat 0%nat 0%nat 0 = 0 /\
  forall t s x, 0 <= t <= 1 -> (s < 2)%nat -> 0 <= field Slab 0 (fun j => V 0%nat s j t) (sE s t) (sE (S s) t) x /\ 0 <= field Slab 0 (fun j => ee s j t) (sE s t) (sE (S s) t) x.
Proof.
  assert (MO : mesh_ok sC sE (fun _ _ => 0) 0 1) by apply C103_example_mesh.
  assert (CD : forall k, (k <= fN sC)%nat -> continuous_on (fun _ => 0) 0 1) by (intros k _ t _; apply continuous_const).
  assert (CS : forall s i, (s < fN sC)%nat -> (i <= fM sC)%nat -> continuous_on (fun _ => 0) 0 1) by (intros s i _ _ t _; apply continuous_const).
  assert (ST : steady sC 0 1) by (apply C131_steady_when; right; split; [reflexivity|left; reflexivity]).
  destruct (C131_coupled_exists sC sE (fun _ _ => 0) 1 (fun _ => 1) (fun _ => 1) 0 1 1 (fun _ _ _ => 0) (fun _ _ _ => s0) (fun _ _ => s0) (fun a s i => hot (a, s, i)) (fun s i => hot (1%nat, s, i)) 0 1) as (V & ee & HV & HI); auto; try lra.
  exists V, ee. split; [exact HV|]. destruct (HI 0%nat 0%nat) as [I1 I2]. split; [rewrite I1; reflexivity|]. split; [rewrite I2 by lia; reflexivity|].
  intros t s x Ht Hs.
  destruct (C180_trajectory sC sE (fun _ _ => 0) 1 (fun _ => 1) (fun _ => 1) 0 1 1 (fun _ _ _ => 0) (fun _ _ _ => s0) (fun _ _ => s0) V ee 0 1) with (t := t) (s := s) (x := x) as [P Q]; auto; try lra.
  - intros. lra.
  - intros. lra.
  - intros u _ v Hv. rewrite (unit_closed u v Hv). lra.
  - intros a k z Ha Hk. replace (fun j => V a k j 0) with (fun j => hot (a, k, j)); [apply (hot_nonneg 0 a k z); auto; lia|].
    apply functional_extensionality. intros j. destruct (HI k j) as [_ J]. now rewrite J.
  - intros k z Hk. replace (fun j => ee k j 0) with (fun j => hot (1%nat, k, j)); [apply (hot_nonneg 0 1%nat k z); auto; lia|].
    apply functional_extensionality. intros j. now destruct (HI k j) as [-> _].
Qed.
(** the same cells: the energy, at most 1 at the start, never exceeds 1, the radiation never 1/2 *)
Lemma hot_above t : coupled_above sC (fun k _ => INR k) 1 (1 / 2) t hot.
Proof.
  apply coupled_above_iff; auto. { exact (sE_incr t). } intros a s Ha Hs. replace (INR (S s) - INR s) with 1 by (rewrite S_INR; ring). rewrite sqrt_1.
  unfold hot, cap. destruct (Nat.eqb_spec a 1) as [->|Na]; cbn [andb]; [destruct (_ && _)%bool|]; lra.
Qed.
Example C182_example hs y' : (forall h, In h hs -> 0 <= h <= 1 / 2) ->
  rk_run euler (coupledR sC sE (fun _ _ => 0) 1 (fun _ => 1) (fun _ => 1) 0 1 1 (fun _ _ _ => 0) (fun _ _ _ => s0) (fun _ _ => s0)) 0 hot hs y' -> coupled_above sC sE 1 (1 / 2) (0 + total hs) y'.
Proof.
  intros Hh Hr. apply (C182_explicit sC INR 1 (fun _ => 1) (fun _ => 1) 0 1 1 (fun _ _ _ => s0) (fun _ _ => s0) 0 (1 / 2) hs hot y' (1 / 2)); auto; try (cbn [sumn]; lra).
  - exact (sE_incr 0).
  - intros. lra.
  - intros t _ v Hv. rewrite (unit_closed t v Hv). lra.
  - intros a s _ _. replace (INR (S s) - INR s) with 1 by (rewrite S_INR; ring). rewrite Rabs_R1. lra.
  - apply hot_above.
Qed.
Example C182_example_trajectory : exists V ee, solves_thermal sC sE (fun _ _ => 0) 1 (fun _ => 1) (fun _ => 1) 0 1 1 ee (fun _ _ _ => 0) (fun _ _ _ => s0) (fun _ _ => s0) V ee 0 1 /\
  ee 0%nat 0%nat 0 = 1 /\ V 0%nat 0%nat 0%nat 0 = 0 /\
  forall t s x, 0 <= t <= 1 -> (s < 2)%nat -> field Slab 0 (fun j => V 0%nat s j t) (sE s t) (sE (S s) t) x <= 1 / 2 /\ field Slab 0 (fun j => ee s j t) (sE s t) (sE (S s) t) x <= 1.
Proof.
  assert (MO : mesh_ok sC sE (fun _ _ => 0) 0 1) by apply C103_example_mesh.
  assert (CD : forall k, (k <= fN sC)%nat -> continuous_on (fun _ => 0) 0 1) by (intros k _ t _; apply continuous_const).
  assert (CS : forall s i, (s < fN sC)%nat -> (i <= fM sC)%nat -> continuous_on (fun _ => 0) 0 1) by (intros s i _ _ t _; apply continuous_const).
  assert (ST : steady sC 0 1) by (apply C131_steady_when; right; split; [reflexivity|left; reflexivity]).
  destruct (C131_coupled_exists sC sE (fun _ _ => 0) 1 (fun _ => 1) (fun _ => 1) 0 1 1 (fun _ _ _ => 0) (fun _ _ _ => s0) (fun _ _ => s0) (fun a s i => hot (a, s, i)) (fun s i => hot (1%nat, s, i)) 0 1) as (V & ee & HV & HI); auto; try lra.
  exists V, ee. split; [exact HV|]. destruct (HI 0%nat 0%nat) as [I1 I2]. split; [rewrite I1; reflexivity|]. split; [rewrite I2 by lia; reflexivity|].
  intros t s x Ht Hs. destruct (hot_above 0) as [A1 A2].
  destruct (C182_trajectory sC INR 1 (fun _ => 1) (fun _ => 1) 0 1 1 (fun _ _ _ => s0) (fun _ _ => s0) V ee 0 1 (1 / 2)) with (t := t) (s := s) (x := x) as [P Q]; auto; try (cbn [sumn]; lra).
  - exact (sE_incr 0).
  - intros. lra.
  - intros u _ v Hv. rewrite (unit_closed u v Hv). lra.
  - intros a k z Ha Hk. replace (fun j => V a k j 0) with (fun j => hot (a, k, j)); [apply (A1 a k z); auto; lia|].
    apply functional_extensionality. intros j. destruct (HI k j) as [_ J]. now rewrite J.
  - intros k z Hk. replace (fun j => ee k j 0) with (fun j => hot (1%nat, k, j)); [apply (A2 k z); auto; lia|].
    apply functional_extensionality. intros j. now destruct (HI k j) as [-> _].
  - split; [apply P; lia|]. replace 1 with (2 * (1 / 2)) by lra. exact Q.
Qed.
Example C182_example_implicit hs y' : (forall h, In h hs -> 0 <= h) ->
  rk_run implicit_euler (coupledR sC sE (fun _ _ => 0) 1 (fun _ => 1) (fun _ => 1) 0 1 1 (fun _ _ _ => 0) (fun _ _ _ => s0) (fun _ _ => s0)) 0 hot hs y' -> coupled_above sC sE 1 (1 / 2) (0 + total hs) y'.
Proof.
  intros Hh Hr. apply (C182_implicit sC INR 1 (fun _ => 1) (fun _ => 1) 0 1 1 (fun _ _ _ => s0) (fun _ _ => s0) 0 hs hot y' (1 / 2)); auto; try (cbn [sumn]; lra).
  - exact (sE_incr 0).
  - intros. lra.
  - intros t _ v Hv. rewrite (unit_closed t v Hv). lra.
  - apply hot_above.
Qed.
