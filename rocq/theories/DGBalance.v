(** Conservation: telescoping fluxes, free streaming on moving cells, particle and energy balance. *)
From Verif Require Import Py PyLemmas Legendre Cheb DGModel DGSpec DGProofs DGInt.

Definition kap (g : geom) : R := match g with Slab => 1 | Sphere => sqrt PI end.
Definition st0 := {| sh := 0; shp := 0; shm := 0 |}.
Lemma basis0_edge g x a b : a < b -> kap g * sqrt (b - a) * basis g 0 x a b = 1.
Proof.
  intros H. assert (0 < sqrt (b - a)) by (apply sqrt_lt_R0; lra). pose proof sqrt_pi_pos. destruct g; cbn [kap].
  - rewrite basis0 by auto. field. lra.
  - unfold basis. rewrite sqrt_c, cheb_0 by auto. cbn [Nat.eqb]. field. split; lra.
Qed.

Section Tele.
Variables (c : flux_cfg) (t : R) (e D : nat -> R) (u : nat -> nat -> R) (mul : R) (refl : nat -> R) (st : nat -> flux_state).
Hypothesis HN : (2 <= fN c)%nat.
Hypothesis He : increasing (fN c) e.
Let g := fgeom c.
Lemma cell_net s : (s < fN c)%nat -> exists vl vr, face c t e D u mul refl s vl /\ face c t e D u mul refl (S s) vr /\
  kap g * sqrt (e (S s) - e s) * snd (make_LU c (st s) t e D u s mul refl) 0%nat
   = wt g (e (S s)) * (mul - D (S s)) * vr - wt g (e s) * (mul - D s) * vl.
Proof.
  intros Hs. destruct (LU_formula c t e D u mul refl HN He (st s) s 0 Hs) as (vl & vr & H1 & H2 & E).
  exists vl, vr. split; [auto|split; [auto|]]. rewrite E. fold g.
  assert (Hlt := He s Hs).
  transitivity (kap g * sqrt (e (S s) - e s) * basis g 0 (e (S s)) (e s) (e (S s)) * (wt g (e (S s)) * (mul - D (S s)) * vr)
    - kap g * sqrt (e (S s) - e s) * basis g 0 (e s) (e s) (e (S s)) * (wt g (e s) * (mul - D s) * vl)); [ring|].
  rewrite !basis0_edge by auto. ring.
Qed.
Lemma telescope n : (n <= fN c)%nat -> exists v0 vn, face c t e D u mul refl 0 v0 /\ face c t e D u mul refl n vn /\
  sumn n (fun s => kap g * sqrt (e (S s) - e s) * snd (make_LU c (st s) t e D u s mul refl) 0%nat)
   = wt g (e n) * (mul - D n) * vn - wt g (e 0%nat) * (mul - D 0%nat) * v0.
Proof.
  induction n as [|n IH]; intros Hn.
  - destruct (face_exists c t e D u mul refl HN He 0) as (v & Hv); [lia|]. exists v, v. split; [auto|split; [auto|]]. simpl. ring.
  - destruct IH as (v0 & vn & H0 & H1 & E); [lia|]. destruct (cell_net n) as (vl & vr & H2 & H3 & E2); [lia|].
    exists v0, vr. split; [auto|split; [auto|]]. cbn [sumn]. rewrite E, E2.
    rewrite (face_fun c t e D u mul refl HN He n vn vl H1 H2). ring.
Qed.
End Tele.

(* ------------------------------------------------------------------ moving cells *)
Lemma locally_lt (a b : R -> R) t a' b' : is_derive a t a' -> is_derive b t b' -> a t < b t ->
  locally t (fun s => a s < b s).
Proof.
  intros Ha Hb H.
  assert (C : continuous (fun s => b s - a s) t).
  { apply (ex_derive_continuous (V := R_NormedModule)). exists (b' - a'). now apply dd_minus. }
  assert (L : locally t (fun s => 0 < b s - a s)).
  { apply (C (fun y => 0 < y)). apply (open_gt 0). lra. }
  revert L. apply filter_imp. intros; lra.
Qed.
Lemma dd_loc (f g : R -> R) (t l : R) : locally t (fun s => f s = g s) -> is_derive f t l -> is_derive g t l.
Proof. intros. eapply is_derive_ext_loc; eauto. Qed.

Lemma L_slab_row0 a b j : L_slab a b 0 j = 0.
Proof. unfold L_slab, L_const. cbn [Nat.ltb Nat.leb andb]. apply Rmult_0_l. Qed.
Lemma dotv_L0 n a b U : dotv n (L_slab a b) U 0 = 0.
Proof. unfold dotv. apply sumn_zero. intros. rewrite L_slab_row0. ring. Qed.
Lemma dotv_G0 n a b a' b' U : a < b -> (0 < n)%nat -> dotv n (G_slab a b a' b') U 0 = - (1 / 2) * ((b' - a') / (b - a)) * U 0%nat.
Proof.
  intros. unfold dotv. rewrite (sumn_single _ _ 0%nat); auto.
  - unfold G_slab. cbn [Nat.eqb INR]. field. lra.
  - intros i _ Hi. unfold G_slab. destruct (Nat.eqb_spec 0 i); [lia|]. cbn [Nat.ltb Nat.leb]. ring.
Qed.

(** the weak-form part shared by all slab updates *)
Definition core (c : flux_cfg) st t (e D : nat -> R) (u : nat -> nat -> R) (mul : R) (s i : nat) : R :=
  dotv (fM c + 1) (G_slab (e s) (e (S s)) (D s) (D (S s))) (u s) i
  - snd (make_LU c st t e D u s mul (fun _ => 0)) i
  + mul * dotv (fM c + 1) (L_slab (e s) (e (S s))) (u s) i.

Section Bal.
Variables (c : flux_cfg) (st : flux_state) (t : R) (E : nat -> R -> R) (D : nat -> R).
Hypothesis Hg : fgeom c = Slab.
Hypothesis HN : (2 <= fN c)%nat.
Let e := fun k => E k t.
Hypothesis He : increasing (fN c) e.
Hypothesis HD : forall k, (k <= fN c)%nat -> is_derive (E k) t (D k).

Lemma width_pos s : (s < fN c)%nat -> 0 < E (S s) t - E s t.
Proof. intros Hs. pose proof (He s Hs) as H. unfold e in H. lra. Qed.
Lemma sqrt_h_derive s : (s < fN c)%nat ->
  is_derive (fun w => sqrt (E (S s) w - E s w)) t ((D (S s) - D s) / (2 * sqrt (e (S s) - e s))).
Proof.
  intros Hs. apply (dd_sqrt (fun w => E (S s) w - E s w)); [|now apply width_pos].
  apply dd_minus; apply HD; lia.
Qed.
Lemma loc_order s : (s < fN c)%nat -> locally t (fun w => E s w < E (S s) w).
Proof. intros Hs. eapply locally_lt; [apply HD; lia|apply HD; lia|]. apply (He s Hs). Qed.

Lemma content_core (U : nat -> R -> R) (w0 : nat -> nat -> R) mul q s : (s < fN c)%nat ->
  (forall j, w0 s j = U j t) ->
  is_derive (U 0%nat) t (core c st t e D w0 mul s 0 + q) ->
  exists vl vr, face c t e D w0 mul (fun _ => 0) s vl /\ face c t e D w0 mul (fun _ => 0) (S s) vr /\
  is_derive (fun w => RInt (field Slab (fM c) (fun j => U j w) (E s w) (E (S s) w)) (E s w) (E (S s) w)) t
    ((mul - D s) * vl - (mul - D (S s)) * vr + sqrt (e (S s) - e s) * q).
Proof.
  intros Hs Hw HU.
  destruct (cell_net c t e D w0 mul (fun _ => 0) (fun _ => st) HN He s Hs) as (vl & vr & H1 & H2 & EQ).
  exists vl, vr. split; [auto|split; [auto|]].
  apply (dd_loc (fun w => sqrt (E (S s) w - E s w) * U 0%nat w)).
  { generalize (loc_order s Hs). apply filter_imp. intros w Hlt. symmetry.
    apply int_uniq. apply (int_field (fM c) (fun j => U j w)). auto. }
  eapply dd_eq; [apply dd_mult; [now apply sqrt_h_derive|exact HU]|]. cbv beta.
  pose proof (width_pos s Hs) as W. unfold core. rewrite dotv_L0, dotv_G0 by (unfold e; try lra; lia). rewrite Hw.
  rewrite Hg in EQ. cbn [kap wt] in EQ. rewrite !Rmult_1_l in EQ.
  assert (S0 : 0 < sqrt (E (S s) t - E s t)) by (apply sqrt_lt_R0; auto).
  pose proof (sqrt_sqrt (E (S s) t - E s t) (Rlt_le _ _ W)) as SS.
  unfold e in *.
  set (LU0 := snd (make_LU c st t (fun k => E k t) D w0 s mul (fun _ => 0)) 0%nat) in *.
  set (r := sqrt (E (S s) t - E s t)) in *.
  replace ((mul - D s) * vl - (mul - D (S s)) * vr) with (- (r * LU0)) by lra.
  rewrite <- SS. field. lra.
Qed.
End Bal.

(* ------------------------------------------------------------------ free streaming *)
Lemma const_coef c0 i a b : a < b -> RInt (fun x => c0 * basis Slab i x a b) a b = if (i =? 0)%nat then c0 * sqrt (b - a) else 0.
Proof. intros H. apply int_uniq. eapply int_eq; [apply int_scal, int_basis; auto|]. destruct (i =? 0)%nat; ring. Qed.
Lemma const_field M (w : nat -> R) c0 a b x : a < b -> (forall j, (j <= M)%nat -> w j = if (j =? 0)%nat then c0 * sqrt (b - a) else 0) ->
  field Slab M w a b x = c0.
Proof.
  intros H Hw. unfold field. rewrite (sumn_single _ _ 0%nat).
  - rewrite Hw, Nat.eqb_refl, basis0 by (auto; lia). assert (0 < sqrt (b - a)) by (apply sqrt_lt_R0; lra). field. lra.
  - lia.
  - intros i Hi Hn. rewrite Hw by lia. apply Nat.eqb_neq in Hn. rewrite Hn. ring.
Qed.

Section Free.
Variables (c : flux_cfg) (st : flux_state) (t : R) (E : nat -> R -> R) (D : nat -> R) (mul c0 : R).
Hypothesis Hg : fgeom c = Slab.
Let e := fun k => E k t.
Hypothesis He : increasing (fN c) e.
Hypothesis HD : forall k, (k <= fN c)%nat -> is_derive (E k) t (D k).
Let u := fun k j => RInt (fun x => c0 * basis Slab j x (e k) (e (S k))) (e k) (e (S k)).

Lemma face_const f v : (0 < f < fN c)%nat -> face c t e D u mul (fun _ => 0) f v -> v = c0.
Proof.
  intros Hf H. inversion H; subst; try lia; rewrite Hg; apply const_field; try (apply He; lia);
    intros; unfold u; apply const_coef; apply He; lia.
Qed.
Lemma free_stream s i : (0 < s < fN c - 1)%nat -> (i <= fM c)%nat ->
  is_derive (fun w => RInt (fun x => c0 * basis Slab i x (E s w) (E (S s) w)) (E s w) (E (S s) w)) t
    (core c st t e D u mul s i).
Proof.
  intros Hs Hi. assert (HN : (2 <= fN c)%nat) by lia.
  assert (Hlt : e s < e (S s)) by (apply He; lia).
  pose (h := e (S s) - e s). assert (Hh : 0 < h) by (unfold h; lra).
  assert (Hr : 0 < sqrt h) by (apply sqrt_lt_R0; auto). pose proof (sqrt_sqrt h (Rlt_le _ _ Hh)) as SS.
  apply (dd_loc (fun w => if (i =? 0)%nat then c0 * sqrt (E (S s) w - E s w) else 0)).
  { assert (L : locally t (fun w => E s w < E (S s) w)) by (eapply (loc_order c); eauto; lia).
    revert L. apply filter_imp. intros w Hw. now rewrite const_coef. }
  assert (Eq : core c st t e D u mul s i = if (i =? 0)%nat then c0 * ((D (S s) - D s) / (2 * sqrt h)) else 0).
  { unfold core.
    destruct (LU_formula c t e D u mul (fun _ => 0) HN He st s i) as (vl & vr & F1 & F2 & ->); [lia|].
    rewrite (face_const s vl) by (auto; lia). rewrite (face_const (S s) vr) by (auto; lia). rewrite Hg. cbn [wt].
    rewrite basis_slab_l, basis_slab_r by auto. fold h.
    assert (U0 : u s 0%nat = c0 * sqrt h) by (unfold u; rewrite const_coef by auto; reflexivity).
    assert (U1 : forall j, (j < fM c + 1)%nat -> j <> 0%nat -> u s j = 0).
    { intros j _ Hj. unfold u. rewrite const_coef by auto. apply Nat.eqb_neq in Hj. now rewrite Hj. }
    unfold dotv. rewrite (sumn_single _ (fun j => G_slab _ _ _ _ i j * u s j) 0%nat), (sumn_single _ (fun j => L_slab _ _ i j * u s j) 0%nat);
      try lia; try (intros j Hj Hn; rewrite U1 by auto; ring).
    rewrite U0. unfold G_slab, L_slab, L_const. cbv zeta. fold h. rewrite odd_of_mod, mod2_even, pow_m1, Nat.add_0_r, <- Nat.negb_even.
    clear U0 U1. revert Hr SS. generalize (sqrt h). intros r Hr SS.
    destruct (Nat.eqb_spec i 0) as [->|Hi0].
    - cbn [Nat.ltb Nat.leb andb Nat.even INR]. replace (2 * 0 + 1) with 1 by ring. rewrite sqrt_1. rewrite <- SS. field. lra.
    - destruct (Nat.ltb_spec 0 i); [|lia]. cbn [andb INR]. replace (2 * 0 + 1) with 1 by ring. rewrite sqrt_1. 
      destruct (Nat.even i); cbn [negb]; rewrite <- SS; field; lra. }
  rewrite Eq. destruct (i =? 0)%nat; [|apply dd_const].
  apply dd_scal. unfold h, e. eapply (sqrt_h_derive c); eauto; lia.
Qed.
End Free.
