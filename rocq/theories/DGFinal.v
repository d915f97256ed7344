(** Final lemmas for the DG kernel. *)
From Verif Require Import Py PyLemmas Legendre Cheb DGModel DGSpec DGProofs DGInt DGBalance.

(** particle content of cell s for direction a at time w *)
Definition content (c : flux_cfg) (E : nat -> R -> R) (U : nat -> R -> R) (s : nat) (w : R) : R :=
  RInt (field Slab (fM c) (fun j => U j w) (E s w) (E (S s) w)) (E s w) (E (S s) w).
Definition scontent (c : flux_cfg) (e : nat -> R) (S0 : nat -> R) (s : nat) : R :=
  RInt (field Slab (fM c) S0 (e s) (e (S s))) (e s) (e (S s)).

Lemma dd_sumn n (f : nat -> R -> R) (l : nat -> R) t : (forall k, (k < n)%nat -> is_derive (f k) t (l k)) ->
  is_derive (fun w => sumn n (fun k => f k w)) t (sumn n l).
Proof.
  induction n as [|n IH]; intros H; cbn [sumn]; [apply dd_const|].
  apply dd_plus; [apply IH; intros; apply H; lia|apply H; lia].
Qed.

Lemma slab_rhs_core c st N_ang ws mus cc t e D S0 V a s i :
  slab_rhs c st N_ang ws mus cc t e D S0 V a s i =
  core c st t e D (V a) (mus a) s i + (- V a s i + cc * make_P N_ang ws (fun l j => V l s j) i + 1 / 2 * S0 i).
Proof. unfold slab_rhs, core. cbv zeta. rewrite !Nat.add_1_r. ring. Qed.
Lemma slab_rhs_unc_core c st N_ang ws mus cc t e D S0 V a s i :
  slab_rhs_uncollided c st N_ang ws mus cc t e D S0 V a s i =
  core c st t e D (V a) (mus a) s i + (- V a s i + cc * (make_P N_ang ws (fun l j => V l s j) i + 1 / 2 * S0 i)).
Proof. unfold slab_rhs_uncollided, core. cbv zeta. rewrite !Nat.add_1_r. ring. Qed.
Lemma slab_thermal_core c st N_ang ws mus cc c_a l t e D H S0 V a s i : l <> 0 ->
  slab_rhs_thermal c st N_ang ws mus cc c_a l t e D H S0 V a s i =
  core c st t e D (V a) (mus a) s i +
   (- V a s i + cc * make_P N_ang ws (fun l j => V l s j) i + (if uncollided_on c then cc else 1) * (1 / 2 * S0 i) + c_a * (1 / 2) * H i) / l.
Proof.
  intros Hl. unfold slab_rhs_thermal, core. cbv zeta. rewrite !Nat.add_1_r.
  destruct (N_ang =? 2)%nat, (uncollided_on c); field; auto.
Qed.
Lemma slab_energy_core c st N_ang ws c_a l t e D H S0 V ee s i : l <> 0 ->
  slab_energy c st N_ang ws c_a l t e D H S0 V ee s i =
  core c st t e D ee 0 s i + (c_a * (2 * make_P N_ang ws (fun l j => V l s j) i - H i) + (if uncollided_on c then c_a else 0) * S0 i) / l.
Proof.
  intros Hl. unfold slab_energy, core. cbv zeta. rewrite !Nat.add_1_r.
  destruct (uncollided_on c); field; auto.
Qed.

Section B.
Variables (c : flux_cfg) (t : R) (E : nat -> R -> R) (D : nat -> R).
Hypothesis Hg : fgeom c = Slab.
Hypothesis HN : (2 <= fN c)%nat.
Hypothesis He : increasing (fN c) (fun k => E k t).
Hypothesis HD : forall k, (k <= fN c)%nat -> is_derive (E k) t (D k).

Lemma content_now U s : (s < fN c)%nat -> content c E U s t = sqrt (E (S s) t - E s t) * U 0%nat t.
Proof. intros Hs. apply int_uniq. apply (int_field (fM c) (fun j => U j t)). apply (He s Hs). Qed.
Lemma scontent_val S0 s : (s < fN c)%nat -> scontent c (fun k => E k t) S0 s = sqrt (E (S s) t - E s t) * S0 0%nat.
Proof. intros Hs. apply int_uniq. apply int_field. apply (He s Hs). Qed.

Lemma content_core2 st (U : nat -> R -> R) (w0 : nat -> nat -> R) mul q s vl vr : (s < fN c)%nat ->
  (forall j, w0 s j = U j t) ->
  is_derive (U 0%nat) t (core c st t (fun k => E k t) D w0 mul s 0 + q) ->
  face c t (fun k => E k t) D w0 mul (fun _ => 0) s vl -> face c t (fun k => E k t) D w0 mul (fun _ => 0) (S s) vr ->
  is_derive (content c E U s) t ((mul - D s) * vl - (mul - D (S s)) * vr + sqrt (E (S s) t - E s t) * q).
Proof.
  intros Hs Hw HU F1 F2.
  destruct (content_core c st t E D Hg HN He HD U w0 mul q s Hs Hw HU) as (vl' & vr' & G1 & G2 & H).
  rewrite (face_fun c t _ D w0 mul _ HN He s vl vl' F1 G1), (face_fun c t _ D w0 mul _ HN He (S s) vr vr' F2 G2). exact H.
Qed.

Variables (N_ang : nat) (ws mus : nat -> R).

Lemma P_content (V : nat -> nat -> nat -> R -> R) s : (s < fN c)%nat ->
  sqrt (E (S s) t - E s t) * make_P N_ang ws (fun l j => V l s j t) 0 = sumn N_ang (fun l => ws l * content c E (V l s) s t).
Proof.
  intros Hs. unfold make_P. rewrite <- sumn_scal. apply sumn_ext. intros l _. rewrite content_now by auto. ring.
Qed.

Lemma balance st cc S0 (V : nat -> nat -> nat -> R -> R) a s vl vr : (s < fN c)%nat ->
  is_derive (V a s 0%nat) t (slab_rhs c st N_ang ws mus cc t (fun k => E k t) D S0 (fun l k j => V l k j t) a s 0) ->
  face c t (fun k => E k t) D (fun k j => V a k j t) (mus a) (fun _ => 0) s vl ->
  face c t (fun k => E k t) D (fun k j => V a k j t) (mus a) (fun _ => 0) (S s) vr ->
  is_derive (content c E (V a s) s) t
    ((mus a - D s) * vl - (mus a - D (S s)) * vr
     - content c E (V a s) s t + cc * sumn N_ang (fun l => ws l * content c E (V l s) s t)
     + 1 / 2 * scontent c (fun k => E k t) S0 s).
Proof.
  intros Hs HV F1 F2. rewrite slab_rhs_core in HV. eapply dd_eq.
  - eapply (content_core2 st (V a s) (fun k j => V a k j t)); eauto.
  - rewrite <- P_content, content_now, scontent_val by auto. ring.
Qed.

Lemma balance_total st cc S0 (V : nat -> nat -> nat -> R -> R) a v0 vN :
  (forall s, (s < fN c)%nat -> is_derive (V a s 0%nat) t
      (slab_rhs c (st s) N_ang ws mus cc t (fun k => E k t) D (S0 s) (fun l k j => V l k j t) a s 0)) ->
  face c t (fun k => E k t) D (fun k j => V a k j t) (mus a) (fun _ => 0) 0 v0 ->
  face c t (fun k => E k t) D (fun k j => V a k j t) (mus a) (fun _ => 0) (fN c) vN ->
  is_derive (fun w => sumn (fN c) (fun s => content c E (V a s) s w)) t
    ((mus a - D 0%nat) * v0 - (mus a - D (fN c)) * vN
     + sumn (fN c) (fun s => - content c E (V a s) s t + cc * sumn N_ang (fun l => ws l * content c E (V l s) s t)
     + 1 / 2 * scontent c (fun k => E k t) (S0 s) s)).
Proof.
  intros HV F0 FN.
  assert (X : forall n, (n <= fN c)%nat -> exists vn, face c t (fun k => E k t) D (fun k j => V a k j t) (mus a) (fun _ => 0) n vn /\
     is_derive (fun w => sumn n (fun s => content c E (V a s) s w)) t
    ((mus a - D 0%nat) * v0 - (mus a - D n) * vn
     + sumn n (fun s => - content c E (V a s) s t + cc * sumn N_ang (fun l => ws l * content c E (V l s) s t)
     + 1 / 2 * scontent c (fun k => E k t) (S0 s) s))).
  { induction n as [|n IH]; intros Hn.
    - exists v0. split; auto. cbn [sumn]. eapply dd_eq; [apply dd_const|ring].
    - destruct IH as (vn & Fn & Dn); [lia|].
      destruct (face_exists c t (fun k => E k t) D (fun k j => V a k j t) (mus a) (fun _ => 0) HN He (S n)) as (vr & Fr); [lia|].
      exists vr. split; auto. cbn [sumn]. eapply dd_eq.
      + apply dd_plus; [exact Dn|]. eapply balance; eauto; lia.
      + ring. }
  destruct (X (fN c)) as (vn & Fn & H); [lia|].
  rewrite (face_fun c t _ D _ _ _ HN He _ vN vn FN Fn). exact H.
Qed.

(** energy: 2 sum_l ws_l psi_l + e *)
Lemma energy_balance st ste cc c_a l H S0 (V : nat -> nat -> nat -> R -> R) (ee : nat -> nat -> R -> R) s (vl vr : nat -> R) el er :
  (s < fN c)%nat -> l <> 0 -> sumn N_ang ws = 1 -> cc + c_a = 1 ->
  (forall a, (a < N_ang)%nat -> is_derive (V a s 0%nat) t
     (slab_rhs_thermal c (st a) N_ang ws mus cc c_a l t (fun k => E k t) D H S0 (fun l k j => V l k j t) a s 0)) ->
  is_derive (ee s 0%nat) t (slab_energy c ste N_ang ws c_a l t (fun k => E k t) D H S0 (fun l k j => V l k j t) (fun k j => ee k j t) s 0) ->
  (forall a, (a < N_ang)%nat -> face c t (fun k => E k t) D (fun k j => V a k j t) (mus a) (fun _ => 0) s (vl a)) ->
  (forall a, (a < N_ang)%nat -> face c t (fun k => E k t) D (fun k j => V a k j t) (mus a) (fun _ => 0) (S s) (vr a)) ->
  face c t (fun k => E k t) D (fun k j => ee k j t) 0 (fun _ => 0) s el ->
  face c t (fun k => E k t) D (fun k j => ee k j t) 0 (fun _ => 0) (S s) er ->
  is_derive (fun w => content c E (ee s) s w + 2 * sumn N_ang (fun a => ws a * content c E (V a s) s w)) t
    (D (S s) * er - D s * el + 2 * sumn N_ang (fun a => ws a * ((mus a - D s) * vl a - (mus a - D (S s)) * vr a))
     + scontent c (fun k => E k t) S0 s / l).
Proof.
  intros Hs Hl Hw Hc HV He' F1 F2 F3 F4.
  pose (P0 := make_P N_ang ws (fun l j => V l s j t) 0).
  eapply dd_eq.
  - apply dd_plus.
    + rewrite slab_energy_core in He' by auto. eapply (content_core2 ste (ee s) (fun k j => ee k j t)); eauto.
    + apply dd_scal. apply (dd_sumn N_ang (fun a w => ws a * content c E (V a s) s w)
         (fun a => ws a * ((mus a - D s) * vl a - (mus a - D (S s)) * vr a + sqrt (E (S s) t - E s t) *
           ((- V a s 0%nat t + cc * P0 + (if uncollided_on c then cc else 1) * (1 / 2 * S0 0%nat) + c_a * (1 / 2) * H 0%nat) / l)))).
      intros a Ha. apply dd_scal. specialize (HV a Ha). rewrite slab_thermal_core in HV by auto.
      eapply (content_core2 (st a) (V a s) (fun k j => V a k j t)); eauto.
  - rewrite scontent_val by auto. fold P0.
    set (r := sqrt (E (S s) t - E s t)).
    rewrite (sumn_ext N_ang _ (fun a => ws a * ((mus a - D s) * vl a - (mus a - D (S s)) * vr a)
        + ((- r / l) * (V a s 0%nat t * ws a) + (r / l * (cc * P0 + (if uncollided_on c then cc else 1) * (1 / 2 * S0 0%nat) + c_a * (1 / 2) * H 0%nat)) * ws a))).
    2:{ intros a _. field; auto. }
    rewrite !sumn_plus, !sumn_scal, Hw. change (sumn N_ang (fun a => V a s 0%nat t * ws a)) with P0.
    replace cc with (1 - c_a) by lra. destruct (uncollided_on c); field; auto.
Qed.

(** exact weak form *)
Lemma weak_form st cc S0 (V : nat -> nat -> nat -> R) a s i : (s < fN c)%nat -> (i <= fM c)%nat ->
  exists vl vr Iv,
   face c t (fun k => E k t) D (V a) (mus a) (fun _ => 0) s vl /\
   face c t (fun k => E k t) D (V a) (mus a) (fun _ => 0) (S s) vr /\
   is_RInt (fun x =>
      (Derive (fun w => basis Slab i x (E s w) (E (S s) w)) t + mus a * Derive (fun y => basis Slab i y (E s t) (E (S s) t)) x)
        * field Slab (fM c) (V a s) (E s t) (E (S s) t) x
      + (- field Slab (fM c) (V a s) (E s t) (E (S s) t) x
         + cc * sumn N_ang (fun l => ws l * field Slab (fM c) (V l s) (E s t) (E (S s) t) x)
         + 1 / 2 * field Slab (fM c) S0 (E s t) (E (S s) t) x) * basis Slab i x (E s t) (E (S s) t))
      (E s t) (E (S s) t) Iv /\
   slab_rhs c st N_ang ws mus cc t (fun k => E k t) D S0 V a s i =
     Iv - (basis Slab i (E (S s) t) (E s t) (E (S s) t) * ((mus a - D (S s)) * vr)
           - basis Slab i (E s t) (E s t) (E (S s) t) * ((mus a - D s) * vl)).
Proof.
  intros Hs Hi. pose proof (He s Hs) as Hlt. cbv beta in Hlt.
  destruct (LU_formula c t (fun k => E k t) D (V a) (mus a) (fun _ => 0) HN He st s i Hs) as (vl & vr & F1 & F2 & EQ).
  exists vl, vr.
  exists (dotv (fM c + 1) (G_slab (E s t) (E (S s) t) (D s) (D (S s))) (V a s) i
          + mus a * dotv (fM c + 1) (L_slab (E s t) (E (S s) t)) (V a s) i
          + (- V a s i + cc * make_P N_ang ws (fun l j => V l s j) i + 1 / 2 * S0 i)).
  split; [auto|split; [auto|split]].
  - set (A := E s t) in *. set (B := E (S s) t) in *.
    apply (int_ext (fun x =>
       sumn (fM c + 1) (fun j => V a s j * (Derive (fun w => basis Slab i x (E s w) (E (S s) w)) t * basis Slab j x A B))
       + mus a * sumn (fM c + 1) (fun j => V a s j * (Derive (fun y => basis Slab i y A B) x * basis Slab j x A B))
       + ((- 1) * (field Slab (fM c) (V a s) A B x * basis Slab i x A B)
          + cc * sumn N_ang (fun l => ws l * (field Slab (fM c) (V l s) A B x * basis Slab i x A B))
          + 1 / 2 * (field Slab (fM c) S0 A B x * basis Slab i x A B)))).
    + intro x.
      rewrite (sumn_ext _ (fun j => V a s j * (Derive (fun w => basis Slab i x (E s w) (E (S s) w)) t * basis Slab j x A B))
        (fun j => Derive (fun w => basis Slab i x (E s w) (E (S s) w)) t * (V a s j * basis Slab j x A B))) by (intros; ring).
      rewrite (sumn_ext _ (fun j => V a s j * (Derive (fun y => basis Slab i y A B) x * basis Slab j x A B))
        (fun j => Derive (fun y => basis Slab i y A B) x * (V a s j * basis Slab j x A B))) by (intros; ring).
      rewrite (sumn_ext N_ang (fun l => ws l * (field Slab (fM c) (V l s) A B x * basis Slab i x A B))
        (fun l => (ws l * field Slab (fM c) (V l s) A B x) * basis Slab i x A B)) by (intros; ring).
      rewrite !sumn_scal, sumn_scal_r. fold (field Slab (fM c) (V a s) A B x). ring.
    + apply int_plus; [apply int_plus|].
      * unfold dotv. rewrite (sumn_ext _ _ (fun j => V a s j * G_slab A B (D s) (D (S s)) i j)) by (intros; ring).
        apply (int_sumn (fM c + 1) (fun j x => V a s j * (Derive (fun w => basis Slab i x (E s w) (E (S s) w)) t * basis Slab j x A B))).
        intros j _. apply int_scal. apply (motion (E s) (E (S s)) t); auto; apply HD; lia.
      * unfold dotv. apply int_scal. rewrite (sumn_ext _ _ (fun j => V a s j * L_slab A B i j)) by (intros; ring).
        apply (int_sumn (fM c + 1) (fun j x => V a s j * (Derive (fun y => basis Slab i y A B) x * basis Slab j x A B))).
        intros j _. apply int_scal. apply stiffness; auto.
      * apply int_plus; [apply int_plus|].
        -- eapply int_eq; [apply int_scal, project_field; auto|ring].
        -- apply int_scal. unfold make_P. rewrite (sumn_ext _ _ (fun l => ws l * V l s i)) by (intros; ring).
           apply (int_sumn N_ang (fun l x => ws l * (field Slab (fM c) (V l s) A B x * basis Slab i x A B))).
           intros l _. apply int_scal, project_field; auto.
        -- apply int_scal, project_field; auto.
  - rewrite slab_rhs_core. unfold core. rewrite EQ, Hg. cbn [wt]. ring.
Qed.
End B.

(** flux does not depend on leftovers nor, in the slab, on the reflected vector *)
Lemma flux_state_free c st st' t e D u s mul refl i : (s < fN c)%nat ->
  snd (make_LU c st t e D u s mul refl) i = snd (make_LU c st' t e D u s mul refl) i.
Proof.
  intros Hs.
  assert (H1 : sh (make_h c e s st) = sh (make_h c e s st')) by (unfold make_h; destruct (negb (s =? fN c - 1)%nat); reflexivity).
  assert (H2 : shm (make_h c e s st) = shm (make_h c e s st')) by (unfold make_h; destruct (negb (s =? fN c - 1)%nat); reflexivity).
  assert (H3 : negb (s =? fN c - 1)%nat = true -> shp (make_h c e s st) = shp (make_h c e s st')).
  { intros Hb. unfold make_h. rewrite Hb. reflexivity. }
  assert (HS : make_sol c (make_h c e s st) e s u t refl = make_sol c (make_h c e s st') e s u t refl).
  { unfold make_sol. rewrite H1, H2. destruct (negb (s =? fN c - 1)%nat); [rewrite H3 by auto|]; reflexivity. }
  unfold make_LU. rewrite HS, H1. destruct (make_sol c (make_h c e s st') e s u t refl) as [[[v0 v1] v2] v3]. reflexivity.
Qed.
Lemma flux_refl_free c st t e D u s mul refl refl' i : fgeom c = Slab \/ (0 < s)%nat \/ mul - D s < 0 ->
  snd (make_LU c st t e D u s mul refl) i = snd (make_LU c st t e D u s mul refl') i.
Proof.
  intros H. unfold make_LU, make_sol. rewrite Rmult_1_l. cbn [snd]. unfold Rgeb.
  destruct (Rleb_spec 0 (mul - D s)); [|reflexivity].
  destruct H as [-> |[H|H]]; [reflexivity| |lra].
  destruct (Nat.eqb_spec s 0); [lia|]. reflexivity.
Qed.
(** linearity is not needed; dependence only through the upwind cells: *)
Lemma face_upwind c t e D u u' mul refl f v : face c t e D u mul refl f v ->
  (0 <= mul - D f -> f = 0%nat \/ forall j, (j <= fM c)%nat -> u (f - 1)%nat j = u' (f - 1)%nat j) ->
  (mul - D f < 0 -> f = fN c \/ forall j, (j <= fM c)%nat -> u f j = u' f j) ->
  face c t e D u' mul refl f v.
Proof.
  intros H A B.
  assert (X : forall w w' a b x, (forall j, (j <= fM c)%nat -> w j = w' j) -> field (fgeom c) (fM c) w a b x = field (fgeom c) (fM c) w' a b x).
  { intros w w' a b x Hj. apply sumn_ext. intros j Hlt. rewrite Hj by lia. reflexivity. }
  inversion H as [v1 A1 B1 E1|f1 A1 B1 E1|f1 A1 B1 E1|v1 A1 B1 E1]; subst.
  - now apply face_in_l.
  - destruct (A A1) as [?|Hj]; [lia|]. replace (S f1 - 1)%nat with f1 in Hj by lia.
    rewrite (X _ (u' f1)) by auto. now apply face_from_left.
  - destruct (B A1) as [?|Hj]; [lia|]. rewrite (X _ (u' f)) by auto. now apply face_from_right.
  - now apply face_in_r.
Qed.
Lemma upwind_only c st t e D u u' mul refl s i : (2 <= fN c)%nat -> increasing (fN c) e -> (s < fN c)%nat ->
  (forall f, f = s \/ f = S s -> 0 <= mul - D f -> f = 0%nat \/ forall j, (j <= fM c)%nat -> u (f - 1)%nat j = u' (f - 1)%nat j) ->
  (forall f, f = s \/ f = S s -> mul - D f < 0 -> f = fN c \/ forall j, (j <= fM c)%nat -> u f j = u' f j) ->
  snd (make_LU c st t e D u s mul refl) i = snd (make_LU c st t e D u' s mul refl) i.
Proof.
  intros HN He Hs A B.
  destruct (LU_formula c t e D u mul refl HN He st s i Hs) as (vl & vr & F1 & F2 & E1).
  destruct (LU_formula c t e D u' mul refl HN He st s i Hs) as (vl' & vr' & F1' & F2' & E1').
  rewrite E1, E1'.
  rewrite (face_fun c t e D u' mul refl HN He s vl vl'); auto; [|apply (face_upwind c t e D u u'); auto].
  rewrite (face_fun c t e D u' mul refl HN He (S s) vr vr'); auto. apply (face_upwind c t e D u u'); auto.
Qed.
