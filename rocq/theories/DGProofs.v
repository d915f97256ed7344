(** Proofs about the DG kernel. *)
From Verif Require Import Py PyLemmas Legendre Cheb DGModel DGSpec.

Lemma mod2_even n : (n mod 2 =? 0)%nat = Nat.even n.
Proof.
  rewrite <- Nat.bit0_mod, Nat.bit0_odd, <- Nat.negb_odd. now destruct (Nat.odd n).
Qed.
Lemma pow_m1 n : (-1) ^ n = if Nat.even n then 1 else -1.
Proof.
  induction n as [|n IH]; [reflexivity|]. rewrite Nat.even_succ, <- Nat.negb_even. simpl. rewrite IH.
  destruct (Nat.even n); simpl; ring.
Qed.
Lemma INR2_pos n : 0 < 2 * INR n + 1. Proof. pose proof (pos_INR n). lra. Qed.
Lemma sqrt_quot n h : 0 < h -> sqrt ((2 * INR n + 1) / h) = sqrt (2 * INR n + 1) / sqrt h.
Proof. intros. pose proof (INR2_pos n). apply sqrt_div; lra. Qed.
Lemma sqrt_pi_pos : 0 < sqrt PI. Proof. apply sqrt_lt_R0, PI_RGT_0. Qed.
Lemma sqrt2_pos : 0 < sqrt 2. Proof. apply sqrt_lt_R0; lra. Qed.

Lemma refz_end_r a b : a < b -> refz b a b = 1. Proof. intros. unfold refz. field. lra. Qed.
Lemma refz_end_l a b : a < b -> refz a a b = -1. Proof. intros. unfold refz. field. lra. Qed.

Lemma normPn_basis n x a b : a < b -> normPn n x a b = basis Slab n x a b.
Proof.
  intros. unfold normPn, basis, refz. cbv zeta. rewrite Rmult_comm. f_equal. f_equal. field. lra.
Qed.
Lemma basis_slab_r n a b : a < b -> basis Slab n b a b = sqrt (2 * INR n + 1) / sqrt (b - a).
Proof. intros. unfold basis. rewrite refz_end_r, leg_1_val, sqrt_quot by lra. ring. Qed.
Lemma basis_slab_l n a b : a < b -> basis Slab n a a b = (-1) ^ n * (sqrt (2 * INR n + 1) / sqrt (b - a)).
Proof. intros. unfold basis. rewrite refz_end_l, leg_m1_val, sqrt_quot by lra. ring. Qed.
Lemma sqrt_c n a b : a < b -> sqrt ((if (n =? 0)%nat then 1 else 2) / (PI * (b - a))) =
  (if (n =? 0)%nat then 1 else sqrt 2) * (1 / sqrt (b - a) / sqrt PI).
Proof.
  intros. pose proof PI_RGT_0. assert (0 < PI * (b - a)) by (apply Rmult_lt_0_compat; lra).
  pose proof sqrt_pi_pos. assert (0 < sqrt (b - a)) by (apply sqrt_lt_R0; lra).
  rewrite sqrt_div; [|destruct (n =? 0)%nat; lra|auto]. rewrite sqrt_mult by lra.
  destruct (n =? 0)%nat; [rewrite sqrt_1|]; field; split; lra.
Qed.
Lemma basis_sph_r n a b : a < b -> basis Sphere n b a b = (if (n =? 0)%nat then 1 else sqrt 2) * (1 / sqrt (b - a) / sqrt PI).
Proof. intros. unfold basis. rewrite refz_end_r, cheb_at_1, sqrt_c by lra. ring. Qed.
Lemma basis_sph_l n a b : a < b -> basis Sphere n a a b = (-1) ^ n * ((if (n =? 0)%nat then 1 else sqrt 2) * (1 / sqrt (b - a) / sqrt PI)).
Proof. intros. unfold basis. rewrite refz_end_l, cheb_at_m1, sqrt_c by lra. ring. Qed.

(** C18 *)
Lemma edge_values g i a b : a < b ->
  B_LR_func g i (sqrt (b - a)) = (basis g i a a b, basis g i b a b).
Proof.
  intros H. destruct g; cbn [B_LR_func].
  - rewrite basis_slab_r, basis_slab_l by auto. rewrite mod2_even, pow_m1. destruct (Nat.eqb_spec i 0) as [->|].
    + simpl. replace (2 * 0 + 1) with 1 by ring. rewrite sqrt_1, Rmult_1_l. reflexivity.
    + destruct (Nat.even i); f_equal; unfold Rdiv; ring.
  - rewrite basis_sph_r, basis_sph_l by auto. rewrite mod2_even, pow_m1. destruct (Nat.eqb_spec i 0) as [->|].
    + cbn [Nat.even]. rewrite !Rmult_1_l. reflexivity.
    + destruct (Nat.even i); f_equal; ring.
Qed.
Lemma edge_values2 g i a b d : a < b -> 0 < d -> b - a = d ->
  B_LR_func g i (sqrt d) = (basis g i a a b, basis g i b a b).
Proof. intros. subst d. now apply edge_values. Qed.

Lemma eval_Tn_cheb n x : (n <= 12)%nat -> eval_Tn n x = Ok (cheb n x).
Proof.
  intros H.
  do 13 (destruct n as [|n]; [cbn [eval_Tn]; f_equal; repeat rewrite ?cheb_SS, ?cheb_0, ?cheb_1; ring|]). lia.
Qed.
Lemma eval_Tn_high n x : (12 < n)%nat -> eval_Tn n x = Err AssertionError.
Proof. intros H. do 13 (destruct n as [|n]; [lia|]). reflexivity. Qed.

Lemma normTn_basis n x a b : a < b -> (n <= 12)%nat -> normTn n x a b = Ok (basis Sphere n x a b).
Proof.
  intros H Hn. unfold normTn, basis. rewrite eval_Tn_cheb by auto. cbn [bind]. f_equal.
  rewrite sqrt_c by auto. f_equal; [|f_equal; unfold refz; field; lra].
  pose proof sqrt_pi_pos. pose proof sqrt2_pos. assert (0 < sqrt (b - a)) by (apply sqrt_lt_R0; lra).
  rewrite sqrt_div, sqrt_1 by lra. unfold kronecker. destruct (n =? 0)%nat; simpl; field; repeat split; lra.
Qed.

(* ------------------------------------------------------------------ flux *)
Lemma left_on_iff c t : is_boundary_source_on c 0 t = true <-> left_on c t.
Proof.
  unfold is_boundary_source_on, left_on. destruct (src4 c); [tauto|].
  destruct (boundary_source c); [|split; [discriminate|intros [?|(? & _)]; discriminate]].
  destruct (uncollided_on c); cbn [negb]; [split; [discriminate|intros [?|(? & ? & _)]; discriminate]|].
  destruct (Rleb_spec t (ft0 c)).
  - cbn [Nat.eqb]. split; [intros; right; auto|intros [?|(_ & _ & _ & ?)]; auto; discriminate].
  - split; [discriminate|intros [?|(_ & _ & ? & _)]; [discriminate|lra]].
Qed.
Lemma right_on_iff c t : (2 <= fN c)%nat -> is_boundary_source_on c (fN c - 1) t = true <-> right_on c t.
Proof.
  intros HN. unfold is_boundary_source_on, right_on. destruct (src4 c); [tauto|].
  destruct (boundary_source c); [|split; [discriminate|intros [?|(? & _)]; discriminate]].
  destruct (uncollided_on c); cbn [negb]; [split; [discriminate|intros [?|(? & ? & _)]; discriminate]|].
  destruct (Rleb_spec t (ft0 c)).
  - destruct (Nat.eqb_spec (fN c - 1) 0); [lia|]. rewrite Nat.eqb_refl.
    split; [intros; right; auto|intros [?|(_ & _ & _ & ?)]; auto; discriminate].
  - split; [discriminate|intros [?|(_ & _ & ? & _)]; [discriminate|lra]].
Qed.
Lemma interior_off c t s : (0 < s < fN c - 1)%nat -> is_boundary_source_on c s t = src4 c.
Proof.
  intros. unfold is_boundary_source_on. destruct (src4 c), (boundary_source c), (uncollided_on c), (Rleb t (ft0 c)); cbn [negb]; auto.
  destruct (Nat.eqb_spec s 0); [lia|]. destruct (Nat.eqb_spec s (fN c - 1)); [lia|]. auto.
Qed.

Lemma rsum_ext {A} (f g : A -> R) l : (forall x, f x = g x) -> rsum (map f l) = rsum (map g l).
Proof. intros H. f_equal. now apply map_ext. Qed.

Lemma flux_quad_bcoef c t a b j : a < b -> src4 c = true \/ boundary_source c = true ->
  flux_quad c t a b j = bcoef c t a b j.
Proof.
  intros H Hs. unfold flux_quad, bcoef. f_equal. apply rsum_ext. intros [x w]. cbn [fst snd]. cbv zeta.
  rewrite normPn_basis by auto. f_equal. f_equal. unfold BC_func, bdata. destruct (src4 c); auto.
  destruct Hs as [|Hs]; [discriminate|]. rewrite Hs. ring.
Qed.
Lemma left_on_src c t : left_on c t -> src4 c = true \/ boundary_source c = true.
Proof. intros [H|(H & _)]; auto. Qed.
Lemma right_on_src c t : right_on c t -> src4 c = true \/ boundary_source c = true.
Proof. intros [H|(H & _)]; auto. Qed.

Definition face_l c t e u refl s (lf : R) :=
  let st := make_h c e s {| sh := 0; shp := 0; shm := 0 |} in
  let '(v0, v1, v2, v3) := make_sol c st e s u t refl in if Rgeb lf 0 then v0 else v1.

Section Flux.
Variables (c : flux_cfg) (t : R) (e D : nat -> R) (u : nat -> nat -> R) (mul : R) (refl : nat -> R).
Hypothesis HN : (2 <= fN c)%nat.
Hypothesis He : increasing (fN c) e.

Let g := fgeom c.

Definition v0_ (st : flux_state) s := let '(v0, v1, v2, v3) := make_sol c st e s u t refl in v0.
Definition v1_ (st : flux_state) s := let '(v0, v1, v2, v3) := make_sol c st e s u t refl in v1.
Definition v2_ (st : flux_state) s := let '(v0, v1, v2, v3) := make_sol c st e s u t refl in v2.
Definition v3_ (st : flux_state) s := let '(v0, v1, v2, v3) := make_sol c st e s u t refl in v3.

Lemma sh_val s st : sh (make_h c e s st) = sqrt (e (S s) - e s).
Proof. unfold make_h. rewrite Nat.add_1_r. destruct (negb (s =? fN c - 1)%nat); reflexivity. Qed.
Lemma shm_val s st : (0 < s)%nat -> shm (make_h c e s st) = sqrt (e s - e (s - 1)%nat).
Proof. intros. unfold make_h. destruct (Nat.eqb_spec s 0); [lia|]. destruct (negb (s =? fN c - 1)%nat); reflexivity. Qed.
Lemma shp_val s st : (s < fN c - 1)%nat -> shp (make_h c e s st) = sqrt (e (S (S s)) - e (S s)).
Proof.
  intros. unfold make_h. destruct (Nat.eqb_spec s (fN c - 1)); [lia|]. cbn [negb]. cbn [shp].
  replace (s + 2)%nat with (S (S s)) by lia. now rewrite Nat.add_1_r.
Qed.

Lemma v1_val s st : (s < fN c)%nat -> v1_ (make_h c e s st) s = field g (fM c) (u s) (e s) (e (S s)) (e s).
Proof.
  intros Hs. unfold v1_, make_sol, field. apply sumn_ext. intros j _. rewrite sh_val, edge_values by (now apply He).
  cbn [fst]. apply Rmult_comm.
Qed.
Lemma v2_val s st : (s < fN c)%nat -> v2_ (make_h c e s st) s = field g (fM c) (u s) (e s) (e (S s)) (e (S s)).
Proof.
  intros Hs. unfold v2_, make_sol, field. apply sumn_ext. intros j _. rewrite sh_val, edge_values by (now apply He).
  cbn [snd]. apply Rmult_comm.
Qed.
Lemma v0_val s st : (S s < fN c)%nat -> v0_ (make_h c e (S s) st) (S s) = field g (fM c) (u s) (e s) (e (S s)) (e (S s)).
Proof.
  intros Hs. unfold v0_, make_sol, field. apply sumn_ext. intros j _. cbn [Nat.eqb negb].
  rewrite shm_val by lia. replace (S s - 1)%nat with s by lia. rewrite edge_values by (apply He; lia).
  cbn [snd]. apply Rmult_comm.
Qed.
Lemma v3_val s st : (S s < fN c)%nat -> v3_ (make_h c e s st) s = field g (fM c) (u (S s)) (e (S s)) (e (S (S s))) (e (S s)).
Proof.
  intros Hs. unfold v3_, make_sol, field. apply sumn_ext. intros j _.
  destruct (Nat.eqb_spec s (fN c - 1)); [lia|]. cbn [negb].
  rewrite shp_val by lia. rewrite Nat.add_1_r, edge_values by (apply He; lia).
  cbn [fst]. apply Rmult_comm.
Qed.
Lemma v0_bd st : inflow_l c t e refl (v0_ (make_h c e 0 st) 0).
Proof.
  assert (H01 : e 0%nat < e 1%nat) by (apply He; lia).
  unfold v0_, make_sol. cbn [Nat.eqb negb]. destruct (is_boundary_source_on c 0 t) eqn:B.
  - apply left_on_iff in B. evar (w : R). replace (sumn _ _) with w; [unfold w; apply il_on; auto|].
    unfold w, field. apply sumn_ext. intros j _. cbn [Nat.add].
    rewrite sh_val. rewrite (edge_values2 _ j (e 0%nat - (e 1%nat - e 0%nat)) (e 0%nat)) by lra. cbn [snd].
    rewrite flux_quad_bcoef; [reflexivity|lra|eapply left_on_src; eauto].
  - assert (~ left_on c t) by (intro L; apply left_on_iff in L; congruence).
    destruct (fgeom c) eqn:E.
    + rewrite sumn_zero by auto. now apply il_vac.
    + evar (w : R). replace (sumn _ _) with w; [unfold w; apply il_refl; auto|].
      unfold w, field. apply sumn_ext. intros j _. rewrite sh_val, edge_values by auto. cbn [fst]. apply Rmult_comm.
Qed.
Lemma v3_bd st : inflow_r c t e (v3_ (make_h c e (fN c - 1) st) (fN c - 1)).
Proof.
  assert (HL : e (fN c - 1)%nat < e (fN c)). { replace (e (fN c)) with (e (S (fN c - 1))) by (f_equal; lia). apply He; lia. }
  unfold v3_, make_sol. rewrite Nat.eqb_refl. cbn [negb]. destruct (is_boundary_source_on c (fN c - 1) t) eqn:B.
  - apply right_on_iff in B; auto. evar (w : R). replace (sumn _ _) with w; [unfold w; apply ir_on; auto|].
    unfold w, field. apply sumn_ext. intros j _. replace (fN c - 1 + 1)%nat with (fN c) by lia.
    rewrite sh_val. replace (S (fN c - 1)) with (fN c) by lia.
    rewrite (edge_values2 _ j (e (fN c)) (e (fN c) + (e (fN c) - e (fN c - 1)%nat))) by lra. cbn [fst].
    rewrite flux_quad_bcoef; [reflexivity|lra|eapply right_on_src; eauto].
  - assert (~ right_on c t) by (intro L; apply right_on_iff in L; auto; congruence).
    rewrite sumn_zero by auto. now apply ir_vac.
Qed.

(** faces carry exactly one value *)
Lemma inflow_l_fun v w : inflow_l c t e refl v -> inflow_l c t e refl w -> v = w.
Proof. intros H1 H2. destruct H1, H2; try congruence; try contradiction; try reflexivity. Qed.
Lemma inflow_r_fun v w : inflow_r c t e v -> inflow_r c t e w -> v = w.
Proof. intros H1 H2. destruct H1, H2; try congruence; try contradiction; try reflexivity. Qed.
Lemma face_fun f v w : face c t e D u mul refl f v -> face c t e D u mul refl f w -> v = w.
Proof.
  intros H1 H2.
  inversion H1 as [v1 A1 B1 E1|f1 A1 B1 E1|f1 A1 B1 E1|v1 A1 B1 E1]; subst;
  inversion H2 as [v2 A2 B2 E2|f2 A2 B2 E2|f2 A2 B2 E2|v2 A2 B2 E2]; subst; auto; try lra; try lia;
   try (eapply inflow_l_fun; eauto; fail); try (eapply inflow_r_fun; eauto; fail);
   try (exfalso; match goal with H : S ?f = fN c |- _ => rewrite <- H in *; lra | H : fN c = S ?f |- _ => rewrite H in *; lra | H : 0%nat = fN c |- _ => lia | H : fN c = 0%nat |- _ => lia end).
Qed.

Lemma LU_formula st s i : (s < fN c)%nat ->
  exists vl vr, face c t e D u mul refl s vl /\ face c t e D u mul refl (S s) vr /\
  snd (make_LU c st t e D u s mul refl) i =
    basis g i (e (S s)) (e s) (e (S s)) * (wt g (e (S s)) * (mul - D (S s)) * vr)
    - basis g i (e s) (e s) (e (S s)) * (wt g (e s) * (mul - D s) * vl).
Proof.
  intros Hs.
  exists (if Rgeb (1 * mul - D s) 0 then v0_ (make_h c e s st) s else v1_ (make_h c e s st) s).
  exists (if Rgeb (1 * mul - D (S s)) 0 then v2_ (make_h c e s st) s else v3_ (make_h c e s st) s).
  split; [|split].
  - unfold Rgeb. rewrite Rmult_1_l. destruct (Rleb_spec 0 (mul - D s)).
    + destruct s as [|s]; [apply face_in_l; auto; apply v0_bd|]. rewrite v0_val by auto. apply face_from_left; auto; lia.
    + rewrite v1_val by auto. apply face_from_right; auto.
  - unfold Rgeb. rewrite Rmult_1_l. destruct (Rleb_spec 0 (mul - D (S s))).
    + rewrite v2_val by auto. apply face_from_left; auto.
    + destruct (Nat.eq_dec (S s) (fN c)) as [E|].
      * replace s with (fN c - 1)%nat by lia. replace (S (fN c - 1)) with (fN c) in * by lia. rewrite E in *.
        apply face_in_r; [lra|]. apply v3_bd.
      * rewrite v3_val by lia. apply face_from_right; auto; lia.
  - unfold make_LU, v0_, v1_, v2_, v3_. rewrite Nat.add_1_r.
    destruct (make_sol c (make_h c e s st) e s u t refl) as [[[v0 v1] v2] v3]. cbn [snd].
    rewrite sh_val, edge_values by (now apply He). rewrite Rmult_1_l. unfold g. destruct (fgeom c); cbn [wt]; ring.
Qed.

Lemma face_exists f : (f <= fN c)%nat -> exists v, face c t e D u mul refl f v.
Proof.
  intros Hf. destruct (Nat.eq_dec f (fN c)) as [->|].
  - destruct (LU_formula {| sh := 0; shp := 0; shm := 0 |} (fN c - 1) 0) as (vl & vr & _ & H & _); [lia|].
    replace (S (fN c - 1)) with (fN c) in H by lia. eauto.
  - destruct (LU_formula {| sh := 0; shp := 0; shm := 0 |} f 0) as (vl & vr & H & _); [lia|]. eauto.
Qed.
End Flux.
