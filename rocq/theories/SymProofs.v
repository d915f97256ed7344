(** The slab update commutes with mirror images. *)
From Coq Require Import Permutation.
From Coquelicot Require Import Coquelicot.
From Verif Require Import Py PyLemmas Calc Legendre Cheb DGModel DGSpec DGProofs DGInt DGBalance StabSpec StabProofs SymSpec.

Lemma leg_parity2 n z : leg n (- z) = (-1) ^ n * leg n z /\ leg (S n) (- z) = (-1) ^ (S n) * leg (S n) z.
Proof.
  induction n as [|n [I1 I2]]; [cbn [pow]; rewrite !leg_0, !leg_1; split; ring|]. split; [exact I2|].
  rewrite !leg_SS, I1, I2. cbn [pow]. field. pose proof (pos_INR n). lra.
Qed.
Lemma leg_parity n z : leg n (- z) = (-1) ^ n * leg n z. Proof. apply leg_parity2. Qed.
Lemma m1_sq n : (-1) ^ n * (-1) ^ n = 1.
Proof. rewrite pow_m1. destruct (Nat.even n); ring. Qed.
Lemma basis_flip i x a b : basis Slab i (- x) (- b) (- a) = (-1) ^ i * basis Slab i x a b.
Proof.
  unfold basis, refz. replace (- a - - b) with (b - a) by ring.
  replace ((2 * - x - - b - - a) / (b - a)) with (- ((2 * x - a - b) / (b - a))) by (unfold Rdiv; ring). rewrite leg_parity. ring.
Qed.
Lemma field_flip M u a b x : field Slab M (fun j => (-1) ^ j * u j) (- b) (- a) (- x) = field Slab M u a b x.
Proof.
  unfold field. apply sumn_ext. intros j _. rewrite basis_flip.
  replace ((-1) ^ j * u j * ((-1) ^ j * basis Slab j x a b)) with ((-1) ^ j * (-1) ^ j * (u j * basis Slab j x a b)) by ring. rewrite m1_sq. ring.
Qed.
Lemma sumn_rev n f : sumn n (fun i => f (n - 1 - i)%nat) = sumn n f.
Proof.
  induction n as [|n IH]; [reflexivity|]. rewrite sumn_S_l. replace (S n - 1 - 0)%nat with n by lia. cbn [sumn]. rewrite Rplus_comm. f_equal.
  rewrite <- IH. apply sumn_ext. intros i Hi. f_equal. lia.
Qed.
Lemma rsum_perm l l' : Permutation l l' -> rsum l = rsum l'.
Proof. induction 1; cbn; unfold rsum in *; lra. Qed.
Lemma increasing_flip N e : increasing N e -> increasing N (flip_mesh N e).
Proof. intros H k Hk. unfold flip_mesh. assert (X := H (N - S k)%nat ltac:(lia)). replace (S (N - S k)) with (N - k)%nat in X by lia. lra. Qed.

Lemma G_flip a b a' b' u i n : dotv n (G_slab (- b) (- a) (- b') (- a')) (fun j => (-1) ^ j * u j) i = (-1) ^ i * dotv n (G_slab a b a' b') u i.
Proof.
  unfold dotv. rewrite <- sumn_scal. apply sumn_ext. intros j _. unfold G_slab. cbv zeta. replace (- a - - b) with (b - a) by ring.
  rewrite mod2_even. rewrite !pow_m1. destruct (Nat.eqb_spec i j) as [->|Nij]; [ring|].
  destruct (j <? i)%nat; [|ring]. rewrite Nat.even_add. destruct (Nat.even i), (Nat.even j); cbn [eqb]; ring.
Qed.
Lemma L_flip a b u i n : dotv n (L_slab (- b) (- a)) (fun j => (-1) ^ j * u j) i = - ((-1) ^ i * dotv n (L_slab a b) u i).
Proof.
  unfold dotv. rewrite <- sumn_scal. transitivity (- 1 * sumn n (fun j => (-1) ^ i * (L_slab a b i j * u j))); [|ring].
  rewrite <- sumn_scal. apply sumn_ext. intros j _. unfold L_slab, L_const. replace (- a - - b) with (b - a) by ring.
  rewrite mod2_even, !pow_m1. destruct (j <? i)%nat; cbn [andb]; [|unfold Rdiv; ring]. rewrite Nat.even_add.
  destruct (Nat.even i), (Nat.even j); cbn [eqb negb]; unfold Rdiv; ring.
Qed.

Section Flip.
Variables (c c' : flux_cfg) (t : R) (e D : nat -> R) (u : nat -> nat -> R) (mul : R).
Hypothesis Hg : fgeom c = Slab.
Hypothesis HN : (2 <= fN c)%nat.
Hypothesis He : increasing (fN c) e.
Hypothesis Hm : mirrors c c'.
Let e' := flip_mesh (fN c) e.
Let D' := flip_mesh (fN c) D.
Let u' := flip_cells (fN c) u.
Lemma bcoef_flip a b j : bcoef c' t (- b) (- a) j = (-1) ^ j * bcoef c t a b j.
Proof.
  destruct Hm as (_ & _ & _ & H4 & _ & _ & _ & H8 & _ & _ & HP). unfold bcoef. replace (- a - - b) with (b - a) by ring.
  rewrite (rsum_perm _ _ (Permutation_map _ HP)), map_map.
  rewrite (Rmult_comm ((-1) ^ j)), Rmult_assoc. f_equal. rewrite Rmult_comm. clear HP. cbn [fst snd]. cbv beta zeta.
  induction (fquad c) as [|[x w] q IH]; [cbn; ring|]. cbn [map rsum fold_right fst snd]. unfold rsum in IH. rewrite IH.
  replace ((b - a) / 2 * - x + (- b + - a) / 2) with (- ((b - a) / 2 * x + (a + b) / 2)) by field.
  rewrite basis_flip. unfold bdata. rewrite H4, H8.
  replace (- - ((b - a) / 2 * x + (a + b) / 2) * - ((b - a) / 2 * x + (a + b) / 2)) with (- ((b - a) / 2 * x + (a + b) / 2) * ((b - a) / 2 * x + (a + b) / 2)) by ring.
  ring.
Qed.
Lemma left_right : left_on c' t <-> right_on c t.
Proof. destruct Hm as (_ & _ & _ & H4 & H5 & H6 & H7 & _ & H9 & _). unfold left_on, right_on. rewrite H4, H5, H6, H7, H9. tauto. Qed.
Lemma right_left : right_on c' t <-> left_on c t.
Proof. destruct Hm as (_ & _ & _ & H4 & H5 & H6 & H7 & _ & _ & H10 & _). unfold left_on, right_on. rewrite H4, H5, H6, H7, H10. tauto. Qed.
Lemma inflow_flip_l v : inflow_r c t e v -> inflow_l c' t e' (fun _ => 0) v.
Proof.
  destruct Hm as (H1 & H2 & H3 & _). intros H. destruct H as [L d|L].
  - replace (field (fgeom c) (fM c) (bcoef c t (e (fN c)) (e (fN c) + d)) (e (fN c)) (e (fN c) + d) (e (fN c))) with
      (field (fgeom c') (fM c') (bcoef c' t (e' 0%nat - (e' 1%nat - e' 0%nat)) (e' 0%nat)) (e' 0%nat - (e' 1%nat - e' 0%nat)) (e' 0%nat) (e' 0%nat)).
    { apply il_on. now apply left_right. }
    rewrite H1, H2, Hg. unfold e', flip_mesh. rewrite Nat.sub_0_r.
    replace (- e (fN c) - (- e (fN c - 1)%nat - - e (fN c))) with (- (e (fN c) + d)) by (unfold d; ring).
    rewrite <- (field_flip (fM c) (bcoef c t (e (fN c)) (e (fN c) + d)) (e (fN c))). unfold field. apply sumn_ext. intros j _. now rewrite bcoef_flip.
  - apply il_vac; [now rewrite left_right|now rewrite H1].
Qed.
Lemma inflow_flip_r v : inflow_l c t e (fun _ => 0) v -> inflow_r c' t e' v.
Proof.
  destruct Hm as (H1 & H2 & H3 & _). intros H. destruct H as [L d|L G|L G].
  - replace (field (fgeom c) (fM c) (bcoef c t (e 0%nat - d) (e 0%nat)) (e 0%nat - d) (e 0%nat) (e 0%nat)) with
      (field (fgeom c') (fM c') (bcoef c' t (e' (fN c')) (e' (fN c') + (e' (fN c') - e' (fN c' - 1)%nat))) (e' (fN c')) (e' (fN c') + (e' (fN c') - e' (fN c' - 1)%nat)) (e' (fN c'))).
    { apply ir_on. now apply right_left. }
    rewrite H1, H2, H3, Hg. unfold e', flip_mesh. rewrite Nat.sub_diag. replace (fN c - (fN c - 1))%nat with 1%nat by lia.
    replace (- e 0%nat + (- e 0%nat - - e 1%nat)) with (- (e 0%nat - d)) by (unfold d; ring).
    rewrite <- (field_flip (fM c) (bcoef c t (e 0%nat - d) (e 0%nat))). unfold field. apply sumn_ext. intros j _. now rewrite bcoef_flip.
  - congruence.
  - apply ir_vac. now rewrite right_left.
Qed.
Lemma face_flip f v : (f <= fN c)%nat -> mul - D f <> 0 -> face c t e D u mul (fun _ => 0) f v ->
  face c' t e' D' u' (- mul) (fun _ => 0) (fN c - f) v.
Proof.
  destruct Hm as (H1 & H2 & H3 & _). intros Hf Hne H. destruct (Rtotal_order (mul - D f) 0) as [P|[P|P]]; [|lra|].
  - destruct (Nat.eq_dec f (fN c)) as [->|Nf].
    + rewrite Nat.sub_diag.
      assert (X : exists x, inflow_r c t e x) by (eexists; apply (v3_bd c t e u (fun _ => 0) HN He {| sh := 0; shp := 0; shm := 0 |})). destruct X as (x & X).
      rewrite (face_fun c t e D u mul (fun _ => 0) HN He (fN c) v x H (face_in_r c t e D u mul (fun _ => 0) x P X)).
      apply face_in_l; [unfold D', flip_mesh; rewrite Nat.sub_0_r; lra|now apply inflow_flip_l].
    + rewrite (face_fun c t e D u mul (fun _ => 0) HN He f v _ H (face_from_right c t e D u mul (fun _ => 0) f P ltac:(lia))).
      replace (fN c - f)%nat with (S (fN c - 1 - f)) by lia.
      replace (field (fgeom c) (fM c) (u f) (e f) (e (S f)) (e f)) with
       (field (fgeom c') (fM c') (u' (fN c - 1 - f)%nat) (e' (fN c - 1 - f)%nat) (e' (S (fN c - 1 - f))) (e' (S (fN c - 1 - f)))).
      { apply face_from_left; [|lia]. unfold D', flip_mesh. replace (fN c - S (fN c - 1 - f))%nat with f by lia. lra. }
      rewrite H1, H2, Hg. unfold e', flip_mesh, u', flip_cells. replace (fN c - S (fN c - 1 - f))%nat with f by lia.
      replace (fN c - 1 - (fN c - 1 - f))%nat with f by lia. replace (fN c - (fN c - 1 - f))%nat with (S f) by lia. apply field_flip.
  - destruct f as [|k].
    + rewrite Nat.sub_0_r.
      assert (X : exists x, inflow_l c t e (fun _ => 0) x) by (eexists; apply (v0_bd c t e u (fun _ => 0) HN He {| sh := 0; shp := 0; shm := 0 |})). destruct X as (x & X).
      rewrite (face_fun c t e D u mul (fun _ => 0) HN He 0 v x H (face_in_l c t e D u mul (fun _ => 0) x ltac:(lra) X)).
      rewrite <- H3. apply face_in_r; [unfold D', flip_mesh; rewrite H3, Nat.sub_diag; lra|now apply inflow_flip_r].
    + rewrite (face_fun c t e D u mul (fun _ => 0) HN He (S k) v _ H (face_from_left c t e D u mul (fun _ => 0) k ltac:(lra) ltac:(lia))).
      replace (field (fgeom c) (fM c) (u k) (e k) (e (S k)) (e (S k))) with
       (field (fgeom c') (fM c') (u' (fN c - S k)%nat) (e' (fN c - S k)%nat) (e' (S (fN c - S k))) (e' (fN c - S k)%nat)).
      { apply face_from_right; [|lia]. unfold D', flip_mesh. replace (fN c - (fN c - S k))%nat with (S k) by lia. lra. }
      rewrite H1, H2, Hg. unfold e', flip_mesh, u', flip_cells. replace (fN c - S (fN c - S k))%nat with k by lia.
      replace (fN c - 1 - (fN c - S k))%nat with k by lia. replace (fN c - (fN c - S k))%nat with (S k) by lia. apply field_flip.
Qed.
Lemma LU_flip st st' s i : (s < fN c)%nat ->
  snd (make_LU c' st' t e' D' u' s (- mul) (fun _ => 0)) i = (-1) ^ i * snd (make_LU c st t e D u (fN c - 1 - s) mul (fun _ => 0)) i.
Proof.
  intros Hs. destruct Hm as (H1 & H2 & H3 & _).
  assert (He' : increasing (fN c') e') by (rewrite H3; now apply increasing_flip). assert (HN' : (2 <= fN c')%nat) by lia.
  destruct (LU_formula c t e D u mul (fun _ => 0) HN He st (fN c - 1 - s) i ltac:(lia)) as (vl & vr & F1 & F2 & ->).
  destruct (LU_formula c' t e' D' u' (- mul) (fun _ => 0) HN' He' st' s i ltac:(lia)) as (xl & xr & G1 & G2 & ->).
  assert (K : forall f v x, (f <= fN c)%nat -> face c t e D u mul (fun _ => 0) f v -> face c' t e' D' u' (- mul) (fun _ => 0) (fN c - f) x ->
     (- mul - D' (fN c - f)%nat) * x = - ((mul - D f) * v)).
  { intros f v x Hf F G. unfold D', flip_mesh. replace (fN c - (fN c - f))%nat with f by lia.
    destruct (Req_dec (mul - D f) 0) as [Z|Z].
    - replace (- mul - - D f) with (- (mul - D f)) by ring. rewrite Z. ring.
    - rewrite (face_fun c' t e' D' u' (- mul) (fun _ => 0) HN' He' _ x v G (face_flip f v Hf Z F)). ring. }
  assert (K1 := K (S (fN c - 1 - s)) vr xl ltac:(lia) F2). replace (fN c - S (fN c - 1 - s))%nat with s in K1 by lia. specialize (K1 G1).
  assert (K2 := K (fN c - 1 - s)%nat vl xr ltac:(lia) F1). replace (fN c - (fN c - 1 - s))%nat with (S s) in K2 by lia. specialize (K2 G2).
  rewrite H1, Hg. cbn [wt]. rewrite !Rmult_1_l, K1, K2.
  unfold e', flip_mesh. replace (fN c - S s)%nat with (fN c - 1 - s)%nat by lia. replace (fN c - s)%nat with (S (fN c - 1 - s)) by lia.
  rewrite !basis_flip. ring.
Qed.
End Flip.

Lemma rhs_flip c c' t e D N_ang ws mus cc S0 V st st' a s i :
  fgeom c = Slab -> (2 <= fN c)%nat -> increasing (fN c) e -> mirrors c c' -> (a < N_ang)%nat -> (s < fN c)%nat ->
  slab_rhs c' st' N_ang (flip_ws N_ang ws) (flip_mus N_ang mus) cc t (flip_mesh (fN c) e) (flip_mesh (fN c) D) (fun j => (-1) ^ j * S0 j) (flip_sol N_ang (fN c) V) a s i =
  (-1) ^ i * slab_rhs c st N_ang ws mus cc t e D S0 V (N_ang - 1 - a) (fN c - 1 - s) i.
Proof.
  intros Hg HN He Hm Ha Hs. unfold slab_rhs. cbv zeta.
  replace (fM c') with (fM c) by (destruct Hm as (_ & H & _); auto).
  unfold flip_sol at 1 2 3 4. unfold flip_mus at 1 2. rewrite (LU_flip c c' t e D (V (N_ang - 1 - a)%nat) (mus (N_ang - 1 - a)%nat) Hg HN He Hm st st' s i Hs).
  unfold flip_mesh at 1 2 3 4 5 6. rewrite !Nat.add_1_r. replace (fN c - S s)%nat with (fN c - 1 - s)%nat by lia. replace (fN c - s)%nat with (S (fN c - 1 - s)) by lia.
  unfold flip_cells at 1 2 3. rewrite G_flip, L_flip.
  replace (make_P N_ang (flip_ws N_ang ws) (fun l j => flip_sol N_ang (fN c) V l s j) i) with ((-1) ^ i * make_P N_ang ws (fun l j => V l (fN c - 1 - s)%nat j) i).
  2: { unfold make_P. rewrite <- (sumn_rev N_ang (fun l => V l (fN c - 1 - s)%nat i * ws l)), <- sumn_scal. apply sumn_ext. intros l Hl.
       unfold flip_sol, flip_cells, flip_ws. ring. }
  ring.
Qed.

(** ** The update reads nothing outside the mesh *)
Section Ext.
Variables (c : flux_cfg) (t : R) (e e2 D D2 : nat -> R).
Hypothesis Hg : fgeom c = Slab.
Hypothesis HN : (2 <= fN c)%nat.
Hypothesis He : increasing (fN c) e.
Hypothesis Ee : forall k, (k <= fN c)%nat -> e2 k = e k.
Hypothesis ED : forall k, (k <= fN c)%nat -> D2 k = D k.
Lemma increasing_ext : increasing (fN c) e2.
Proof. intros k Hk. rewrite !Ee by lia. now apply He. Qed.
Lemma inflow_l_ext v : inflow_l c t e (fun _ => 0) v -> inflow_l c t e2 (fun _ => 0) v.
Proof.
  intros H. destruct H as [L d|L G|L G]; [|congruence|now apply il_vac].
  pose proof (il_on c t e2 (fun _ => 0) L) as X. cbv zeta in X. rewrite !Ee in X by lia. exact X.
Qed.
Lemma inflow_r_ext v : inflow_r c t e v -> inflow_r c t e2 v.
Proof.
  intros H. destruct H as [L d|L]; [|now apply ir_vac].
  pose proof (ir_on c t e2 L) as X. cbv zeta in X. rewrite !Ee in X by lia. exact X.
Qed.
Lemma face_ext (u u2 : nat -> nat -> R) mul f v : (forall s j, (s < fN c)%nat -> (j <= fM c)%nat -> u2 s j = u s j) ->
  (f <= fN c)%nat -> face c t e D u mul (fun _ => 0) f v -> face c t e2 D2 u2 mul (fun _ => 0) f v.
Proof.
  intros Eu Hf H. destruct H as [v A B|f A B|f A B|v A B].
  - apply face_in_l; [rewrite ED by lia; exact A|now apply inflow_l_ext].
  - replace (field (fgeom c) (fM c) (u f) (e f) (e (S f)) (e (S f))) with (field (fgeom c) (fM c) (u2 f) (e2 f) (e2 (S f)) (e2 (S f))).
    { apply face_from_left; [rewrite ED by lia; exact A|exact B]. }
    rewrite !Ee by lia. unfold field. apply sumn_ext. intros j Hj. rewrite Eu by lia. reflexivity.
  - replace (field (fgeom c) (fM c) (u f) (e f) (e (S f)) (e f)) with (field (fgeom c) (fM c) (u2 f) (e2 f) (e2 (S f)) (e2 f)).
    { apply face_from_right; [rewrite ED by lia; exact A|exact B]. }
    rewrite !Ee by lia. unfold field. apply sumn_ext. intros j Hj. rewrite Eu by lia. reflexivity.
  - apply face_in_r; [rewrite ED by lia; exact A|now apply inflow_r_ext].
Qed.
Lemma dotv_ext n A A2 x x2 i : (forall j, (j < n)%nat -> A2 i j = A i j) -> (forall j, (j < n)%nat -> x2 j = x j) -> dotv n A2 x2 i = dotv n A x i.
Proof. intros HA Hx. apply sumn_ext. intros j Hj. now rewrite HA, Hx. Qed.
Lemma rhs_ext st st2 N_ang ws ws2 mus mus2 cc S0 S2 V V2 a s i : (a < N_ang)%nat -> (s < fN c)%nat -> (i <= fM c)%nat ->
  (forall a, (a < N_ang)%nat -> ws2 a = ws a /\ mus2 a = mus a) -> S2 i = S0 i ->
  (forall a s j, (a < N_ang)%nat -> (s < fN c)%nat -> (j <= fM c)%nat -> V2 a s j = V a s j) ->
  slab_rhs c st2 N_ang ws2 mus2 cc t e2 D2 S2 V2 a s i = slab_rhs c st N_ang ws mus cc t e D S0 V a s i.
Proof.
  intros Ha Hs Hi Hw HS HV. unfold slab_rhs. cbv zeta.
  destruct (LU_formula c t e D (V a) (mus a) (fun _ => 0) HN He st s i Hs) as (vl & vr & F1 & F2 & ->).
  destruct (Hw a Ha) as [_ ->].
  destruct (LU_formula c t e2 D2 (V2 a) (mus a) (fun _ => 0) HN increasing_ext st2 s i Hs) as (xl & xr & G1 & G2 & ->).
  rewrite (face_fun c t e2 D2 (V2 a) (mus a) (fun _ => 0) HN increasing_ext s xl vl G1) by (apply (face_ext (V a)); auto; lia).
  rewrite (face_fun c t e2 D2 (V2 a) (mus a) (fun _ => 0) HN increasing_ext (S s) xr vr G2) by (apply (face_ext (V a)); auto; lia).
  rewrite !Nat.add_1_r, !Ee, !ED by lia. rewrite HS, (HV a s i) by auto.
  rewrite (dotv_ext (S (fM c)) (G_slab (e s) (e (S s)) (D s) (D (S s))) (G_slab (e s) (e (S s)) (D s) (D (S s))) (V a s) (V2 a s)) by (auto; intros; apply HV; auto; lia).
  rewrite (dotv_ext (S (fM c)) (L_slab (e s) (e (S s))) (L_slab (e s) (e (S s))) (V a s) (V2 a s)) by (auto; intros; apply HV; auto; lia).
  replace (make_P N_ang ws2 (fun l j => V2 l s j) i) with (make_P N_ang ws (fun l j => V l s j) i); [reflexivity|].
  unfold make_P. apply sumn_ext. intros l Hl. destruct (Hw l Hl) as [-> _]. rewrite HV by auto. reflexivity.
Qed.
End Ext.

(** ** Changes of units *)
Lemma sqrt_scale l h : 0 < l -> 0 < h -> sqrt (h / l) = sqrt h / sqrt l.
Proof. intros. rewrite sqrt_div by lra. reflexivity. Qed.
Lemma basis_scale l i x a b : 0 < l -> a < b -> basis Slab i (x / l) (a / l) (b / l) = sqrt l * basis Slab i x a b.
Proof.
  intros Hl H. unfold basis, refz. replace ((2 * (x / l) - a / l - b / l) / (b / l - a / l)) with ((2 * x - a - b) / (b - a)) by (field; split; lra).
  replace ((2 * INR i + 1) / (b / l - a / l)) with (l * ((2 * INR i + 1) / (b - a))) by (field; split; lra).
  rewrite sqrt_mult; [ring|lra|]. pose proof (INR2_pos i). apply Rmult_le_pos; [lra|]. left. apply Rinv_0_lt_compat. lra.
Qed.
Lemma field_scale l M u a b x : 0 < l -> a < b -> field Slab M (scaled l u) (a / l) (b / l) (x / l) = field Slab M u a b x.
Proof.
  intros Hl H. assert (0 < sqrt l) by now apply sqrt_lt_R0. unfold field. apply sumn_ext. intros j _. rewrite basis_scale by auto. unfold scaled. field. lra.
Qed.
Lemma G_scale l a b a' b' i j : 0 < l -> a < b -> G_slab (a / l) (b / l) a' b' i j = l * G_slab a b a' b' i j.
Proof.
  intros Hl H. unfold G_slab. cbv zeta. assert (E : 1 / (b / l - a / l) = l * (1 / (b - a))) by (field; split; lra). rewrite E.
  destruct (i =? j)%nat; [ring|]. destruct (j <? i)%nat; [|ring]. destruct ((i + j) mod 2 =? 0)%nat; ring.
Qed.
Lemma L_scale l a b i j : 0 < l -> a < b -> L_slab (a / l) (b / l) i j = l * L_slab a b i j.
Proof. intros Hl H. unfold L_slab. field. split; lra. Qed.
Lemma dotv_scale n A A2 k q x x2 i : (forall j, (j < n)%nat -> A2 i j = k * A i j) -> (forall j, x2 j = x j / q) -> dotv n A2 x2 i = k / q * dotv n A x i.
Proof. intros HA Hx. unfold dotv. rewrite <- sumn_scal. apply sumn_ext. intros j Hj. rewrite HA, Hx by auto. unfold Rdiv. ring. Qed.

Section Units.
Variables (l : R) (c : flux_cfg) (t : R) (e D : nat -> R).
Hypothesis Hl : 0 < l.
Hypothesis Hg : fgeom c = Slab.
Hypothesis HN : (2 <= fN c)%nat.
Hypothesis He : increasing (fN c) e.
Hypothesis H4 : src4 c = false.
Let c' := in_units l c.
Let e' := fun k => e k / l.
Lemma sl : 0 < sqrt l. Proof. now apply sqrt_lt_R0. Qed.
Lemma increasing_scale : increasing (fN c') e'.
Proof. intros k Hk. unfold e'. apply Rmult_lt_compat_r; [now apply Rinv_0_lt_compat|now apply He]. Qed.
Lemma bcoef_scale a b j : a < b -> bcoef c' (t / l) (a / l) (b / l) j = bcoef c t a b j / sqrt l.
Proof.
  intros H. pose proof sl. unfold bcoef. cbn [fquad c' in_units]. 
  assert (X : rsum (map (fun xw => snd xw * bdata c' (t / l) ((b / l - a / l) / 2 * fst xw + (a / l + b / l) / 2) * basis Slab j ((b / l - a / l) / 2 * fst xw + (a / l + b / l) / 2) (a / l) (b / l)) (fquad c))
     = sqrt l * rsum (map (fun xw => snd xw * bdata c t ((b - a) / 2 * fst xw + (a + b) / 2) * basis Slab j ((b - a) / 2 * fst xw + (a + b) / 2) a b) (fquad c))).
  { induction (fquad c) as [|[x w] q IH]; [cbn; ring|]. cbn [map rsum fold_right fst snd]. unfold rsum in IH. rewrite IH.
    replace ((b / l - a / l) / 2 * x + (a / l + b / l) / 2) with (((b - a) / 2 * x + (a + b) / 2) / l) by (field; lra).
    rewrite basis_scale by auto. unfold bdata. cbn [src4 strength c' in_units]. rewrite H4. ring. }
  cbv zeta. rewrite X. transitivity ((b - a) / 2 * rsum (map (fun xw => snd xw * bdata c t ((b - a) / 2 * fst xw + (a + b) / 2) * basis Slab j ((b - a) / 2 * fst xw + (a + b) / 2) a b) (fquad c)) * (sqrt l / l)); [field; lra|].
  assert (LQ : l = sqrt l * sqrt l) by (symmetry; apply sqrt_sqrt; lra).
  assert (Q : sqrt l / l = / sqrt l) by (rewrite LQ at 2; field; lra). rewrite Q. reflexivity.
Qed.
Lemma t_scale : t / l <= ft0 c / l <-> t <= ft0 c.
Proof.
  split; intros H.
  - apply (Rmult_le_reg_r (/ l)); [now apply Rinv_0_lt_compat|exact H].
  - apply Rmult_le_compat_r; [left; now apply Rinv_0_lt_compat|exact H].
Qed.
Lemma left_scale : left_on c' (t / l) <-> left_on c t.
Proof. unfold left_on. cbn [src4 boundary_source uncollided_on ft0 bon_left c' in_units]. rewrite t_scale. tauto. Qed.
Lemma right_scale : right_on c' (t / l) <-> right_on c t.
Proof. unfold right_on. cbn [src4 boundary_source uncollided_on ft0 bon_right c' in_units]. rewrite t_scale. tauto. Qed.
Lemma field_b_scale M a b x : a < b -> field Slab M (bcoef c' (t / l) (a / l) (b / l)) (a / l) (b / l) (x / l) = field Slab M (bcoef c t a b) a b x.
Proof.
  intros H. rewrite <- (field_scale l M (bcoef c t a b) a b x) by auto. unfold field. apply sumn_ext. intros j _. rewrite bcoef_scale by auto. reflexivity.
Qed.
Lemma inflow_l_scale v : inflow_l c t e (fun _ => 0) v -> inflow_l c' (t / l) e' (fun _ => 0) v.
Proof.
  intros H. destruct H as [L d|L G|L G]; [|congruence|apply il_vac; [now rewrite left_scale|auto]].
  assert (Hlt := He 0%nat ltac:(lia)).
  replace (field (fgeom c) (fM c) (bcoef c t (e 0%nat - d) (e 0%nat)) (e 0%nat - d) (e 0%nat) (e 0%nat)) with
      (field (fgeom c') (fM c') (bcoef c' (t / l) (e' 0%nat - (e' 1%nat - e' 0%nat)) (e' 0%nat)) (e' 0%nat - (e' 1%nat - e' 0%nat)) (e' 0%nat) (e' 0%nat)).
  { apply il_on. now apply left_scale. }
  unfold e'. replace (e 0%nat / l - (e 1%nat / l - e 0%nat / l)) with ((e 0%nat - d) / l) by (unfold d; field; lra).
  change (fgeom c') with (fgeom c). change (fM c') with (fM c). rewrite Hg. apply (field_b_scale (fM c)). unfold d. lra.
Qed.
Lemma inflow_r_scale v : inflow_r c t e v -> inflow_r c' (t / l) e' v.
Proof.
  intros H. destruct H as [L d|L]; [|apply ir_vac; now rewrite right_scale].
  assert (Hlt := He (fN c - 1)%nat ltac:(lia)). replace (S (fN c - 1)) with (fN c) in Hlt by lia.
  replace (field (fgeom c) (fM c) (bcoef c t (e (fN c)) (e (fN c) + d)) (e (fN c)) (e (fN c) + d) (e (fN c))) with
      (field (fgeom c') (fM c') (bcoef c' (t / l) (e' (fN c')) (e' (fN c') + (e' (fN c') - e' (fN c' - 1)%nat))) (e' (fN c')) (e' (fN c') + (e' (fN c') - e' (fN c' - 1)%nat)) (e' (fN c'))).
  { apply ir_on. now apply right_scale. }
  unfold e'. cbn [fN c' in_units]. replace (e (fN c) / l + (e (fN c) / l - e (fN c - 1)%nat / l)) with ((e (fN c) + d) / l) by (unfold d; field; lra).
  change (fgeom c') with (fgeom c). change (fM c') with (fM c). rewrite Hg. apply (field_b_scale (fM c)). unfold d. lra.
Qed.
Lemma face_scale (u u2 : nat -> nat -> R) mul f v : (forall s j, u2 s j = u s j / sqrt l) -> (f <= fN c)%nat ->
  face c t e D u mul (fun _ => 0) f v -> face c' (t / l) e' D u2 mul (fun _ => 0) f v.
Proof.
  intros Eu Hf H. destruct H as [v A B|f A B|f A B|v A B].
  - apply face_in_l; [exact A|now apply inflow_l_scale].
  - replace (field (fgeom c) (fM c) (u f) (e f) (e (S f)) (e (S f))) with (field (fgeom c') (fM c') (u2 f) (e' f) (e' (S f)) (e' (S f))).
    { apply face_from_left; [exact A|exact B]. }
    cbn [fgeom fM c' in_units]. rewrite Hg. unfold e'. rewrite <- (field_scale l (fM c) (u f)) by (auto; apply He; lia). unfold field. apply sumn_ext. intros j _. now rewrite Eu.
  - replace (field (fgeom c) (fM c) (u f) (e f) (e (S f)) (e f)) with (field (fgeom c') (fM c') (u2 f) (e' f) (e' (S f)) (e' f)).
    { apply face_from_right; [exact A|exact B]. }
    cbn [fgeom fM c' in_units]. rewrite Hg. unfold e'. rewrite <- (field_scale l (fM c) (u f)) by (auto; apply He; lia). unfold field. apply sumn_ext. intros j _. now rewrite Eu.
  - apply (face_in_r c'); [exact A|now apply inflow_r_scale].
Qed.
Lemma LU_scale (u u2 : nat -> nat -> R) mul st st' s i : (s < fN c)%nat -> (forall s j, u2 s j = u s j / sqrt l) ->
  snd (make_LU c' st' (t / l) e' D u2 s mul (fun _ => 0)) i = sqrt l * snd (make_LU c st t e D u s mul (fun _ => 0)) i.
Proof.
  intros Hs Eu.
  destruct (LU_formula c t e D u mul (fun _ => 0) HN He st s i Hs) as (vl & vr & F1 & F2 & ->).
  destruct (LU_formula c' (t / l) e' D u2 mul (fun _ => 0) HN increasing_scale st' s i Hs) as (xl & xr & G1 & G2 & ->).
  rewrite (face_fun c' (t / l) e' D u2 mul (fun _ => 0) HN increasing_scale s xl vl G1) by (apply (face_scale u); auto; lia).
  rewrite (face_fun c' (t / l) e' D u2 mul (fun _ => 0) HN increasing_scale (S s) xr vr G2) by (apply (face_scale u); auto; lia).
  cbn [fgeom c' in_units]. rewrite Hg. cbn [wt]. unfold e'. rewrite !basis_scale by (auto; apply He; lia). ring.
Qed.
Lemma P_scale N_ang ws (u u2 : nat -> nat -> R) i : (forall s j, u2 s j = u s j / sqrt l) -> make_P N_ang ws u2 i = make_P N_ang ws u i / sqrt l.
Proof. intros Eu. unfold make_P, Rdiv. rewrite <- sumn_scal_r. apply sumn_ext. intros. rewrite Eu. unfold Rdiv. ring. Qed.
Lemma l_sq : l = sqrt l * sqrt l. Proof. symmetry. apply sqrt_sqrt. lra. Qed.
Lemma thermal_scale N_ang ws mus cc c_a H S0 V V2 st st' a s i : (s < fN c)%nat -> (forall a s j, V2 a s j = V a s j / sqrt l) ->
  slab_rhs_thermal c' st' N_ang ws mus cc c_a 1 (t / l) e' D (fun j => H j / sqrt l) (fun j => S0 j / sqrt l) V2 a s i =
  sqrt l * slab_rhs_thermal c st N_ang ws mus cc c_a l t e D H S0 V a s i.
Proof.
  intros Hs EV. pose proof sl as Q. pose proof l_sq as LQ. assert (Hlt := He s Hs). unfold slab_rhs_thermal. cbv zeta. rewrite !Nat.add_1_r.
  rewrite (LU_scale (V a) (V2 a) (mus a) st st' s i Hs (EV a)). cbn [fM c' in_units]. unfold e'.
  rewrite (dotv_scale (S (fM c)) (G_slab (e s) (e (S s)) (D s) (D (S s))) _ l (sqrt l) (V a s)) by (intros; first [apply EV|apply G_scale; auto]).
  rewrite (dotv_scale (S (fM c)) (L_slab (e s) (e (S s))) (L_slab (e s / l) (e (S s) / l)) l (sqrt l) (V a s)) by (intros; first [apply EV|apply L_scale; auto]).
  rewrite (P_scale N_ang ws (fun l j => V l s j)) by (intros; apply EV). rewrite (EV a s i).
  cbn [uncollided_on c' in_units]. replace (l / sqrt l) with (sqrt l) by (rewrite LQ at 2; field; lra).
  set (g := dotv _ (G_slab _ _ _ _) _ _). set (ll := dotv _ (L_slab _ _) _ _). set (P := make_P _ _ _ _). set (F := snd _ _). generalize (V a s i). intros v. clearbody g ll P F.
  assert (DV : forall z, z / sqrt l = sqrt l * (z / l)) by (intros z; rewrite LQ at 3; field; lra).
  destruct (N_ang =? 2)%nat, (uncollided_on c); rewrite !DV; field; lra.
Qed.
Lemma energy_scale N_ang ws c_a H S0 V V2 ee ee2 st st' s i : (s < fN c)%nat -> (forall a s j, V2 a s j = V a s j / sqrt l) -> (forall s j, ee2 s j = ee s j / sqrt l) ->
  slab_energy c' st' N_ang ws c_a 1 (t / l) e' D (fun j => H j / sqrt l) (fun j => S0 j / sqrt l) V2 ee2 s i =
  sqrt l * slab_energy c st N_ang ws c_a l t e D H S0 V ee s i.
Proof.
  intros Hs EV EE. pose proof sl as Q. pose proof l_sq as LQ. assert (Hlt := He s Hs). unfold slab_energy. cbv zeta. rewrite !Nat.add_1_r.
  rewrite (LU_scale ee ee2 0 st st' s i Hs EE). cbn [fM c' in_units]. unfold e'.
  rewrite (dotv_scale (S (fM c)) (G_slab (e s) (e (S s)) (D s) (D (S s))) _ l (sqrt l) (ee s)) by (intros; first [apply EE|apply G_scale; auto]).
  rewrite (P_scale N_ang ws (fun l j => V l s j)) by (intros; apply EV).
  cbn [uncollided_on c' in_units]. replace (l / sqrt l) with (sqrt l) by (rewrite LQ at 2; field; lra).
  set (g := dotv _ (G_slab _ _ _ _) _ _). set (P := make_P _ _ _ _). set (F := snd _ _). clearbody g P F.
  assert (DV : forall z, z / sqrt l = sqrt l * (z / l)) by (intros z; rewrite LQ at 3; field; lra).
  destruct (uncollided_on c); rewrite !DV; field; lra.
Qed.
End Units.

(** ** Superposition *)
Lemma field_lin M (u w z : nat -> R) p q a b x : (forall j, (j <= M)%nat -> z j = p * u j + q * w j) -> field Slab M z a b x = p * field Slab M u a b x + q * field Slab M w a b x.
Proof. intros Hz. unfold field. rewrite <- !sumn_scal, <- sumn_plus. apply sumn_ext. intros j Hj. rewrite Hz by lia. ring. Qed.
Section Lin.
Variables (c : flux_cfg) (t : R) (e D : nat -> R) (p q x y : R).
Hypothesis Hg : fgeom c = Slab.
Hypothesis HN : (2 <= fN c)%nat.
Hypothesis He : increasing (fN c) e.
Hypothesis H4 : src4 c = false.
Let c1 := with_strength c x.
Let c2 := with_strength c y.
Let c3 := with_strength c (p * x + q * y).
Lemma bcoef_lin a b j : bcoef c3 t a b j = p * bcoef c1 t a b j + q * bcoef c2 t a b j.
Proof.
  unfold bcoef. cbn [fquad c1 c2 c3 with_strength].
  induction (fquad c) as [|[n w] l IH]; [cbn; ring|]. cbn [map rsum fold_right fst snd]. unfold rsum in IH. rewrite !Rmult_plus_distr_l, IH.
  unfold bdata. cbn [src4 strength c1 c2 c3 with_strength]. rewrite H4. ring.
Qed.
Lemma inflow_l_lin v w : inflow_l c1 t e (fun _ => 0) v -> inflow_l c2 t e (fun _ => 0) w -> inflow_l c3 t e (fun _ => 0) (p * v + q * w).
Proof.
  intros H1 H2. destruct H1 as [L d|L G|L G].
  - destruct H2 as [L' d'|L' _|L' _]; [|elim L'; exact L|elim L'; exact L].
    replace (p * _ + q * _) with (field (fgeom c3) (fM c3) (bcoef c3 t (e 0%nat - (e 1%nat - e 0%nat)) (e 0%nat)) (e 0%nat - (e 1%nat - e 0%nat)) (e 0%nat) (e 0%nat)).
    { apply il_on. exact L. }
    cbn [fgeom fM c1 c2 c3 with_strength]. rewrite Hg. apply field_lin. intros j _. apply bcoef_lin.
  - cbn in G. congruence.
  - destruct H2 as [L' d'|L' G'|L' G']; [elim L; exact L'|cbn in G'; congruence|].
    replace (p * 0 + q * 0) with 0 by ring. apply il_vac; auto.
Qed.
Lemma inflow_r_lin v w : inflow_r c1 t e v -> inflow_r c2 t e w -> inflow_r c3 t e (p * v + q * w).
Proof.
  intros H1 H2. destruct H1 as [L d|L].
  - destruct H2 as [L' d'|L']; [|elim L'; exact L].
    replace (p * _ + q * _) with (field (fgeom c3) (fM c3) (bcoef c3 t (e (fN c3)) (e (fN c3) + (e (fN c3) - e (fN c3 - 1)%nat))) (e (fN c3)) (e (fN c3) + (e (fN c3) - e (fN c3 - 1)%nat)) (e (fN c3))).
    { apply ir_on. exact L. }
    cbn [fgeom fM fN c1 c2 c3 with_strength]. rewrite Hg. apply field_lin. intros j _. apply bcoef_lin.
  - destruct H2 as [L' d'|L']; [elim L; exact L'|]. replace (p * 0 + q * 0) with 0 by ring. apply ir_vac; auto.
Qed.
Lemma face_lin (u w : nat -> nat -> R) mul f a b : (f <= fN c)%nat -> face c1 t e D u mul (fun _ => 0) f a -> face c2 t e D w mul (fun _ => 0) f b ->
  face c3 t e D (fun s j => p * u s j + q * w s j) mul (fun _ => 0) f (p * a + q * b).
Proof.
  intros Hf Ha Hb. destruct (Rle_dec 0 (mul - D f)) as [P|P].
  - destruct f as [|k].
    + assert (X : exists v, inflow_l c1 t e (fun _ => 0) v) by (eexists; apply (v0_bd c1 t e u (fun _ => 0) HN He {| sh := 0; shp := 0; shm := 0 |})).
      assert (Y : exists v, inflow_l c2 t e (fun _ => 0) v) by (eexists; apply (v0_bd c2 t e u (fun _ => 0) HN He {| sh := 0; shp := 0; shm := 0 |})).
      destruct X as (v & X), Y as (v' & Y).
      rewrite (face_fun c1 t e D u mul (fun _ => 0) HN He 0 a v Ha (face_in_l c1 t e D u mul (fun _ => 0) v P X)).
      rewrite (face_fun c2 t e D w mul (fun _ => 0) HN He 0 b v' Hb (face_in_l c2 t e D w mul (fun _ => 0) v' P Y)).
      apply face_in_l; [exact P|]. now apply inflow_l_lin.
    + rewrite (face_fun c1 t e D u mul (fun _ => 0) HN He (S k) a _ Ha (face_from_left c1 t e D u mul (fun _ => 0) k P ltac:(cbn; lia))).
      rewrite (face_fun c2 t e D w mul (fun _ => 0) HN He (S k) b _ Hb (face_from_left c2 t e D w mul (fun _ => 0) k P ltac:(cbn; lia))).
      cbn [fgeom fM c1 c2 with_strength]. rewrite Hg, <- (field_lin (fM c) (u k) (w k) (fun j => p * u k j + q * w k j) p q) by auto.
      rewrite <- Hg. apply (face_from_left c3 t e D (fun s j => p * u s j + q * w s j) mul (fun _ => 0) k P). cbn. lia.
  - assert (P' : mul - D f < 0) by lra. destruct (Nat.eq_dec f (fN c)) as [Ef|Nf].
    + assert (X : exists v, inflow_r c1 t e v) by (eexists; apply (v3_bd c1 t e u (fun _ => 0) HN He {| sh := 0; shp := 0; shm := 0 |})).
      assert (Y : exists v, inflow_r c2 t e v) by (eexists; apply (v3_bd c2 t e u (fun _ => 0) HN He {| sh := 0; shp := 0; shm := 0 |})).
      destruct X as (v & X), Y as (v' & Y). rewrite Ef in *.
      rewrite (face_fun c1 t e D u mul (fun _ => 0) HN He (fN c) a v Ha (face_in_r c1 t e D u mul (fun _ => 0) v P' X)).
      rewrite (face_fun c2 t e D w mul (fun _ => 0) HN He (fN c) b v' Hb (face_in_r c2 t e D w mul (fun _ => 0) v' P' Y)).
      apply (face_in_r c3); [exact P'|]. now apply inflow_r_lin.
    + rewrite (face_fun c1 t e D u mul (fun _ => 0) HN He f a _ Ha (face_from_right c1 t e D u mul (fun _ => 0) f P' ltac:(cbn; lia))).
      rewrite (face_fun c2 t e D w mul (fun _ => 0) HN He f b _ Hb (face_from_right c2 t e D w mul (fun _ => 0) f P' ltac:(cbn; lia))).
      cbn [fgeom fM c1 c2 with_strength]. rewrite Hg, <- (field_lin (fM c) (u f) (w f) (fun j => p * u f j + q * w f j) p q) by auto.
      rewrite <- Hg. apply (face_from_right c3 t e D (fun s j => p * u s j + q * w s j) mul (fun _ => 0) f P'). cbn. lia.
Qed.
Lemma dotv_lin n A u w i : dotv n A (fun j => p * u j + q * w j) i = p * dotv n A u i + q * dotv n A w i.
Proof. unfold dotv. rewrite <- !sumn_scal, <- sumn_plus. apply sumn_ext. intros; ring. Qed.
Lemma rhs_lin st1 st2 st3 N_ang ws mus cc S1 S2 V W a s i : (s < fN c)%nat ->
  slab_rhs c3 st3 N_ang ws mus cc t e D (fun j => p * S1 j + q * S2 j) (fun l k j => p * V l k j + q * W l k j) a s i =
  p * slab_rhs c1 st1 N_ang ws mus cc t e D S1 V a s i + q * slab_rhs c2 st2 N_ang ws mus cc t e D S2 W a s i.
Proof.
  intros Hs. unfold slab_rhs. cbv zeta.
  destruct (LU_formula c1 t e D (V a) (mus a) (fun _ => 0) HN He st1 s i Hs) as (vl & vr & F1 & F2 & ->).
  destruct (LU_formula c2 t e D (W a) (mus a) (fun _ => 0) HN He st2 s i Hs) as (xl & xr & G1 & G2 & ->).
  destruct (LU_formula c3 t e D (fun k j => p * V a k j + q * W a k j) (mus a) (fun _ => 0) HN He st3 s i Hs) as (yl & yr & K1 & K2 & ->).
  rewrite (face_fun c3 t e D (fun k j => p * V a k j + q * W a k j) (mus a) (fun _ => 0) HN He s yl _ K1 (face_lin (V a) (W a) (mus a) s vl xl ltac:(lia) F1 G1)).
  rewrite (face_fun c3 t e D (fun k j => p * V a k j + q * W a k j) (mus a) (fun _ => 0) HN He (S s) yr _ K2 (face_lin (V a) (W a) (mus a) (S s) vr xr ltac:(lia) F2 G2)).
  cbn [fgeom fM c1 c2 c3 with_strength]. rewrite !dotv_lin.
  replace (make_P N_ang ws (fun l j => p * V l s j + q * W l s j) i) with (p * make_P N_ang ws (fun l j => V l s j) i + q * make_P N_ang ws (fun l j => W l s j) i).
  2: { unfold make_P. rewrite <- !sumn_scal, <- sumn_plus. apply sumn_ext. intros; ring. }
  ring.
Qed.
End Lin.
