(** C146: the order of the time integration on a mesh at rest. *)
From Coquelicot Require Import Coquelicot.
From Coq Require Import FunctionalExtensionality.
From Verif Require Import Py PyLemmas Calc Legendre DGModel DGSpec DGProofs StabSpec StabThms StabProofs SymSpec ExistSpec ExistProofs RhsModel RhsProofs MatModel PosDef SphSpec SphExist SphExistThms ExistThms TimeModel TimeProofs TimeExist TimeOrder TimeThms TimeStabThms TimeSolveThms.

Lemma order_gen A N M (F : R -> (idx -> R) -> idx -> R) V t0 t1 T p : t0 <= t1 -> consistent T -> order_linear T p ->
  (forall a s i, (a < A)%nat -> (s < N)%nat -> (i <= M)%nat -> LF idx t0 t1 (fun t y => F t y (a, s, i))) ->
  (forall t y p, active A N M p = false -> F t y p = 0) ->
  (forall a s i, (a < A)%nat -> (s < N)%nat -> (i <= M)%nat -> AF (fun y => F t0 y (a, s, i))) ->
  (forall t y a s i, t0 <= t <= t1 -> (a < A)%nat -> (s < N)%nat -> (i <= M)%nat -> F t y (a, s, i) = F t0 y (a, s, i)) ->
  (forall t a s i, t0 <= t <= t1 -> (a < A)%nat -> (s < N)%nat -> (i <= M)%nat -> is_derive (V a s i) t (F t (fun q => trunc A N M V q t) (a, s, i))) ->
  exists C d0, 0 < C /\ 0 < d0 /\ forall d hs y y' e, 0 <= d <= d0 -> 0 <= e -> (forall h, In h hs -> 0 <= h <= d) -> t0 + total hs <= t1 ->
    vector A N M y -> rk_run T F t0 y hs y' ->
    (forall a s i, (a < A)%nat -> (s < N)%nat -> (i <= M)%nat -> Rabs (y (a, s, i) - V a s i t0) <= e) ->
    forall a s i, (a < A)%nat -> (s < N)%nat -> (i <= M)%nat -> Rabs (y' (a, s, i) - V a s i (t0 + total hs)) <= C * (e + d ^ p).
Proof.
  intros Hle HT HP HL H0 HA HS HV.
  destruct (rk_order idx t0 t1 Hle (actives A N M) F (F t0)) with (x := trunc A N M V) (T := T) (p := p) as (C & d0 & PC & Pd & H); auto.
  - intros t y [[a s] i] Ht. destruct (active A N M (a, s, i)) eqn:Q; [apply active_iff in Q; destruct Q as (Ha & Hs & Hi); now apply HS|now rewrite !H0].
  - intros [[a s] i] Hp. apply actives_in in Hp. destruct Hp as (Ha & Hs & Hi). now apply HL.
  - intros [[a s] i]. destruct (active A N M (a, s, i)) eqn:Q; [left; apply actives_in; now apply active_iff in Q|right; intros; now apply H0].
  - intros [[a s] i]. destruct (active A N M (a, s, i)) eqn:Q; [left; apply actives_in; now apply active_iff in Q|right; intros; now apply H0].
  - intros [[a s] i] x z k. destruct (active A N M (a, s, i)) eqn:Q; [apply active_iff in Q; destruct Q as (Ha & Hs & Hi); apply (HA a s i Ha Hs Hi)|rewrite !H0 by auto; ring].
  - intros t [[a s] i] Ht. destruct (active A N M (a, s, i)) eqn:Q.
    + apply active_iff in Q. destruct Q as (Ha & Hs & Hi). apply (is_derive_ext (V a s i)); [intros; symmetry; now apply trunc_in|]. now apply HV.
    + rewrite H0 by auto. apply (is_derive_ext (fun _ => 0)); [intros; unfold trunc; now rewrite Q|apply dd_const].
  - exists C, d0. split; auto. split; auto. intros d hs y y' e Hd He Hh Hs Hv Hr Hy a s i Ha Hs' Hi. rewrite <- (trunc_in A N M V a s i) by auto. apply (H d hs y y' e); auto.
    intros [[a' s'] i']. destruct (active A N M (a', s', i')) eqn:Q.
    + apply active_iff in Q. destruct Q as (Ha' & Hs'' & Hi'). rewrite trunc_in by auto. now apply Hy.
    + rewrite Hv by auto. unfold trunc. rewrite Q, Rminus_0_r, Rabs_R0. lra.
Qed.

(** the mesh does not move, the source does not change, the boundary data are not the manufactured ones *)
Definition at_rest (c : flux_cfg) (D : nat -> R -> R) (S0 : nat -> nat -> R -> R) (t0 t1 : R) : Prop :=
  (forall k t, (k <= fN c)%nat -> t0 <= t <= t1 -> D k t = 0) /\
  (forall s i t, (s < fN c)%nat -> (i <= fM c)%nat -> t0 <= t <= t1 -> S0 s i t = S0 s i t0) /\ src4 c = false.
Lemma rest_edges (f : R -> R) t0 t1 : (forall t, t0 <= t <= t1 -> is_derive f t 0) -> forall t, t0 <= t <= t1 -> f t = f t0.
Proof.
  intros H t Ht. destruct (MVT_gen f t0 t (fun _ => 0)) as (c & Hc & E).
  - intros u Hu. rewrite Rmin_left, Rmax_right in Hu by lra. apply H. lra.
  - intros u Hu. rewrite Rmin_left, Rmax_right in Hu by lra. apply continuity_pt_filterlim, (ex_derive_continuous f). eexists. apply H. lra.
  - lra.
Qed.
Section Rest.
Variables (c : flux_cfg) (E D : nat -> R -> R) (t0 t1 : R).
Hypothesis HN : (2 <= fN c)%nat.
Hypothesis Hs4 : src4 c = false.
Hypothesis HD : forall k t, (k <= fN c)%nat -> t0 <= t <= t1 -> D k t = D k t0.
Hypothesis HE : forall k t, (k <= fN c)%nat -> t0 <= t <= t1 -> E k t = E k t0.
Hypothesis Hst : steady c t0 t1.
Hypothesis Hle : t0 <= t1.
Lemma on_same space t : (space = 0 \/ space = fN c - 1)%nat -> t0 <= t <= t1 -> is_boundary_source_on c space t = is_boundary_source_on c space t0.
Proof.
  intros Hsp Ht. destruct Hst as (HL & HR & _). destruct Hsp as [->| ->].
  - destruct HL as [H|H].
    + rewrite (proj2 (left_on_iff c t) (H t Ht)), (proj2 (left_on_iff c t0) (H t0 ltac:(lra))). reflexivity.
    + destruct (is_boundary_source_on c 0 t) eqn:Q; [exfalso; apply (H t Ht), left_on_iff; auto|]. destruct (is_boundary_source_on c 0 t0) eqn:Q0; auto. exfalso. apply (H t0 ltac:(lra)), left_on_iff. auto.
  - destruct HR as [H|H].
    + rewrite (proj2 (right_on_iff c t HN) (H t Ht)), (proj2 (right_on_iff c t0 HN) (H t0 ltac:(lra))). reflexivity.
    + destruct (is_boundary_source_on c (fN c - 1) t) eqn:Q; [exfalso; apply (H t Ht), right_on_iff; auto|]. destruct (is_boundary_source_on c (fN c - 1) t0) eqn:Q0; auto. exfalso. apply (H t0 ltac:(lra)), right_on_iff; auto.
Qed.
Lemma bdata_same t x : bdata c t x = bdata c t0 x.
Proof. unfold bdata. now rewrite Hs4. Qed.
Lemma bcoef_same t a b j : bcoef c t a b j = bcoef c t0 a b j.
Proof. unfold bcoef. f_equal. f_equal. apply map_ext. intros xw. cbv zeta. now rewrite bdata_same. Qed.
Lemma field_ext M u v a b x : (forall j, u j = v j) -> field Slab M u a b x = field Slab M v a b x.
Proof. intros H. unfold field. apply sumn_ext. intros. now rewrite H. Qed.
Lemma flux_same u mul f t : (f <= fN c)%nat -> t0 <= t <= t1 ->
  flux c t (fun k => E k t) (fun k => D k t) u mul f = flux c t0 (fun k => E k t0) (fun k => D k t0) u mul f.
Proof.
  intros Hf Ht. unfold flux. rewrite (HD f t) by auto. f_equal; f_equal.
  - destruct f as [|k]; cbn [val_l].
    + unfold in_l. rewrite (on_same 0 t) by auto. destruct (is_boundary_source_on c 0 t0); auto. unfold ghost_l. cbv zeta.
      rewrite (HE 0%nat t), (HE 1%nat t) by (auto; lia). apply field_ext. intros; apply bcoef_same.
    + now rewrite (HE k t), (HE (S k) t) by (auto; lia).
  - unfold val_r. destruct (Nat.ltb_spec f (fN c)).
    + now rewrite (HE f t), (HE (S f) t) by (auto; lia).
    + unfold in_r. rewrite (on_same (fN c - 1) t) by auto. destruct (is_boundary_source_on c (fN c - 1) t0); auto. unfold ghost_r. cbv zeta.
      rewrite (HE (fN c) t), (HE (fN c - 1)%nat t) by (auto; lia). apply field_ext. intros; apply bcoef_same.
Qed.
Lemma LUf_same u s mul i t : (s < fN c)%nat -> t0 <= t <= t1 ->
  LUf c t (fun k => E k t) (fun k => D k t) u s mul i = LUf c t0 (fun k => E k t0) (fun k => D k t0) u s mul i.
Proof. intros Hs Ht. unfold LUf. now rewrite (flux_same u mul (S s) t), (flux_same u mul s t), (HE s t), (HE (S s) t) by (auto; lia). Qed.
Lemma rhsF_rest A ws mus cc (S0 S1 : nat -> R) y a s i t : (s < fN c)%nat -> t0 <= t <= t1 -> S0 i = S1 i ->
  rhsF c E D A ws mus cc t S0 y a s i = rhsF c E D A ws mus cc t0 S1 y a s i.
Proof. intros Hs Ht H. unfold rhsF. now rewrite (LUf_same _ s _ i t), H, (HE s t), (HE (S s) t), (HD s t), (HD (S s) t) by (auto; lia). Qed.
Lemma thermF_rest A ws mus cc c_a l (S0 S1 : nat -> R) y a s i t : (s < fN c)%nat -> t0 <= t <= t1 -> S0 i = S1 i ->
  thermF c E D A ws mus cc c_a l t S0 y a s i = thermF c E D A ws mus cc c_a l t0 S1 y a s i.
Proof. intros Hs Ht H. unfold thermF. cbv zeta. now rewrite (LUf_same _ s _ i t), H, (HE s t), (HE (S s) t), (HD s t), (HD (S s) t) by (auto; lia). Qed.
Lemma enerF_rest A ws c_a l (S0 S1 : nat -> R) y s i t : (s < fN c)%nat -> t0 <= t <= t1 -> S0 i = S1 i ->
  enerF c E D A ws c_a l t S0 y s i = enerF c E D A ws c_a l t0 S1 y s i.
Proof. intros Hs Ht H. unfold enerF. cbv zeta. now rewrite (LUf_same _ s _ i t), H, (HE s t), (HE (S s) t), (HD s t), (HD (S s) t) by (auto; lia). Qed.
End Rest.

(* ---------------------------------------------------------------- the methods *)
Lemma order_euler : order_linear euler 1 /\ order_linear implicit_euler 1.
Proof. split; intros m Hm; replace m with 0%nat by lia; cbn; field. Qed.
Lemma rk23_ok : explicit rk23 /\ consistent rk23.
Proof.
  split.
  - intros i j Hi Hj. cbn in Hi, Hj. unfold rk23. cbn [rA]. do 3 (destruct i as [|i]; [do 3 (destruct j as [|j]; [try lia; reflexivity|]); lia|]). lia.
  - split; [unfold rk23; cbn; field|]. intros i Hi. cbn in Hi. do 3 (destruct i as [|i]; [unfold rk23; cbn; lra|]). lia.
Qed.
Lemma facts : INR (fact 1) = 1 /\ INR (fact 2) = 2 /\ INR (fact 3) = 6 /\ INR (fact 4) = 24 /\ INR (fact 5) = 120 /\ INR (fact 6) = 720.
Proof. repeat split; rewrite INR_IZR_INZ; reflexivity. Qed.
Lemma order_rk23 : order_linear rk23 3.
Proof.
  destruct facts as (f1 & f2 & f3 & _). intros m Hm. destruct m as [|[|[|m]]]; [rewrite f1|rewrite f2|rewrite f3|lia]; unfold rk23; cbn; field.
Qed.
Definition rk45_pow (m : nat) : nat -> R := fun i => nth i (nth m
  [[1; 1; 1; 1; 1; 1]; [0; 1/5; 3/10; 4/5; 8/9; 1]; [0; 0; 9/200; 8/25; 32/81; 1/2]; [0; 0; 0; 4/25; 424/1215; 21/55]; [0; 0; 0; 0; -848/18225; -14/275]; [0; 0; 0; 0; 0; 7/550]] []) 0.
Lemma rk45_powers m i : (m < 6)%nat -> (i < 6)%nat -> rpow rk45 m i = rk45_pow m i.
Proof.
  revert i. induction m as [|m IH]; intros i Hm Hi.
  - do 6 (destruct i as [|i]; [reflexivity|]). lia.
  - cbn [rpow]. rewrite (sumn_ext (rs rk45) _ (fun j => rA rk45 i j * rk45_pow m j)) by (intros j Hj; rewrite IH; auto; lia). clear IH.
    do 5 (destruct m as [|m]; [do 6 (destruct i as [|i]; [unfold rk45, rk45_pow, rk45_rows; cbn [rs rA sumn nth]; field|]); lia|]). lia.
Qed.
Lemma order_rk45 : order_linear rk45 5.
Proof.
  destruct facts as (f1 & f2 & f3 & f4 & f5 & _). intros m Hm. rewrite (sumn_ext (rs rk45) _ (fun i => rb rk45 i * rk45_pow m i)) by (intros i Hi; rewrite rk45_powers; auto; lia).
  do 5 (destruct m as [|m]; [rewrite ?f1, ?f2, ?f3, ?f4, ?f5; unfold rk45, rk45_pow; cbn [rs rb sumn nth]; field|]). lia.
Qed.
Lemma order_radau : order_linear radau 5.
Proof.
  destruct facts as (f1 & f2 & f3 & f4 & f5 & _). destruct sqrt6 as [S2 _]. set (q := sqrt 6) in *.
  assert (P1 : forall i, (i < 3)%nat -> rpow radau 1 i = rc radau i).
  { intros i Hi. do 3 (destruct i as [|i]; [unfold radau; fold q; cbn [rpow rs rA rc sumn nth]; field|]). lia. }
  assert (PS : forall m v w, (forall i, (i < 3)%nat -> rpow radau m i = v i) -> (forall i, (i < 3)%nat -> sumn 3 (fun j => rA radau i j * v j) = w i) -> forall i, (i < 3)%nat -> rpow radau (S m) i = w i).
  { intros m v w Hv Hw i Hi. cbn [rpow]. rewrite <- Hw by auto. apply sumn_ext. intros j Hj. rewrite Hv; auto. }
  assert (P2 : forall i, (i < 3)%nat -> rpow radau 2 i = nth i [(22 - 8 * q) / 200; (22 + 8 * q) / 200; 1 / 2] 0).
  { apply (PS 1%nat _ _ P1). intros i Hi. do 3 (destruct i as [|i]; [unfold radau; fold q; cbn [rA rc sumn nth]; nra|]). lia. }
  assert (P3 : forall i, (i < 3)%nat -> rpow radau 3 i = nth i [17 / 750 - 9 / 1000 * q; 17 / 750 + 9 / 1000 * q; 1 / 6] 0).
  { apply (PS 2%nat _ _ P2). intros i Hi. do 3 (destruct i as [|i]; [unfold radau; fold q; cbn [rA rc sumn nth]; nra|]). lia. }
  assert (P4 : forall i, (i < 3)%nat -> rpow radau 4 i = nth i [113 / 30000 - 2 / 1875 * q; 113 / 30000 + 2 / 1875 * q; 1 / 24] 0).
  { apply (PS 3%nat _ _ P3). intros i Hi. do 3 (destruct i as [|i]; [unfold radau; fold q; cbn [rA rc sumn nth]; nra|]). lia. }
  intros m Hm. destruct m as [|[|[|[|[|m]]]]]; [rewrite f1|rewrite f2|rewrite f3|rewrite f4|rewrite f5|lia].
  - unfold radau; fold q; cbn [rs rb rpow sumn nth]; field.
  - rewrite (sumn_ext _ _ (fun i => rb radau i * rc radau i)) by (intros i Hi; rewrite P1; auto). unfold radau; fold q; cbn [rs rb rc sumn nth]. nra.
  - etransitivity; [apply sumn_ext; intros i Hi; rewrite (P2 i Hi); reflexivity|]. unfold radau; fold q; cbn [rs rb rc sumn nth]. nra.
  - etransitivity; [apply sumn_ext; intros i Hi; rewrite (P3 i Hi); reflexivity|]. unfold radau; fold q; cbn [rs rb rc sumn nth]. nra.
  - etransitivity; [apply sumn_ext; intros i Hi; rewrite (P4 i Hi); reflexivity|]. unfold radau; fold q; cbn [rs rb rc sumn nth]. nra.
Qed.
(** The methods scipy offers reach these orders. *)
(** the methods of [C138]: their weights have sum one, their times lie in the step and are the sums of the rows *)
Theorem C138_methods : (explicit euler /\ consistent euler) /\ (explicit rk23 /\ consistent rk23) /\ (explicit rk45 /\ consistent rk45) /\
  (forall i, (i < rs rk23)%nat -> sumn (rs rk23) (rA rk23 i) = rc rk23 i) /\ (forall i, (i < rs rk45)%nat -> sumn (rs rk45) (rA rk45 i) = rc rk45 i).
Proof.
  split; [apply euler_ok|]. split; [apply rk23_ok|]. split; [apply rk45_ok|]. split.
  - intros i Hi. cbn in Hi. do 3 (destruct i as [|i]; [unfold rk23; cbn; field|]). lia.
  - intros i Hi. cbn in Hi. do 6 (destruct i as [|i]; [unfold rk45; cbn; field|]). lia.
Qed.
Print Assumptions C138_methods.
Theorem C146_methods : order_linear euler 1 /\ order_linear implicit_euler 1 /\ order_linear rk23 3 /\ order_linear rk45 5 /\ order_linear radau 5 /\
  (consistent euler /\ consistent implicit_euler /\ consistent rk23 /\ consistent rk45 /\ consistent radau).
Proof.
  split; [apply order_euler|]. split; [apply order_euler|]. split; [apply order_rk23|]. split; [apply order_rk45|]. split; [apply order_radau|].
  split; [apply euler_ok|]. split; [apply implicit_euler_stable|]. split; [apply rk23_ok|]. split; [apply rk45_ok|apply C139_radau].
Qed.
Print Assumptions C146_methods.

(* ---------------------------------------------------------------- C146 *)
(** On a mesh at rest with a steady source the numbers differ from the trajectory by at most a constant times the power p
    of the longest step, when the method has order p for linear equations. *)
Theorem C146_slab : forall T p c E D N_ang ws mus cc S0 st st' V t0 t1, consistent T -> order_linear T p ->
  fgeom c = Slab -> (2 <= fN c)%nat -> t0 <= t1 -> mesh_ok c E D t0 t1 -> at_rest c D S0 t0 t1 -> steady c t0 t1 ->
  solves c E D N_ang ws mus cc S0 st' V t0 t1 ->
  exists C d0, 0 < C /\ 0 < d0 /\ forall d hs y y' e, 0 <= d <= d0 -> 0 <= e -> (forall h, In h hs -> 0 <= h <= d) -> t0 + total hs <= t1 ->
    vector N_ang (fN c) (fM c) y -> rk_run T (slabR c E D N_ang ws mus cc S0 st) t0 y hs y' ->
    (forall a s i, (a < N_ang)%nat -> (s < fN c)%nat -> (i <= fM c)%nat -> Rabs (y (a, s, i) - V a s i t0) <= e) ->
    forall a s i, (a < N_ang)%nat -> (s < fN c)%nat -> (i <= fM c)%nat -> Rabs (y' (a, s, i) - V a s i (t0 + total hs)) <= C * (e + d ^ p).
Proof.
  intros T p c E D N_ang ws mus cc S0 st st' V t0 t1 HT HP Hg HN Hle HM (RD & RS & R4) Hst HV.
  assert (HE : forall k t, (k <= fN c)%nat -> t0 <= t <= t1 -> E k t = E k t0).
  { intros k t Hk Ht. apply (rest_edges (E k) t0 t1); auto. intros w Hw. destruct (HM w Hw) as [_ H]. rewrite <- (RD k w Hk Hw). now apply H. }
  assert (HD : forall k t, (k <= fN c)%nat -> t0 <= t <= t1 -> D k t = D k t0) by (intros k t Hk Ht; rewrite !RD by (auto; lra); reflexivity).
  assert (MK : forall t y a s i, t0 <= t <= t1 -> (a < N_ang)%nat -> (s < fN c)%nat -> (i <= fM c)%nat -> slabR c E D N_ang ws mus cc S0 st t y (a, s, i) = slabR c E D N_ang ws mus cc S0 st t0 y (a, s, i)).
  { intros t y a s i Ht Ha Hs Hi. unfold slabR. rewrite (proj2 (active_iff _ _ _ a s i) (conj Ha (conj Hs Hi))).
    rewrite !(rhsF_is c E D t0 t1 Hg HN HM) by (auto; lra). apply (rhsF_rest c E D t0 t1); auto. }
  apply (order_gen N_ang (fN c) (fM c) (slabR c E D N_ang ws mus cc S0 st) V t0 t1 T p Hle HT HP).
  - intros a s i Ha Hs Hi. set (E' := fun k (_ : R) => E k t0). set (D' := fun k (_ : R) => D k t0). set (S' := fun s i (_ : R) => S0 s i t0).
    assert (HM' : mesh_ok c E' D' t0 t1).
    { intros t Ht. split; [apply (HM t0); lra|]. intros k Hk. unfold E', D'. rewrite RD by (auto; lra). apply dd_const. }
    apply (LF_ext idx t0 t1 (fun t y => slabR c E' D' N_ang ws mus cc S' st t y (a, s, i))); auto.
    + intros t y Ht. rewrite MK by auto. unfold slabR. rewrite (proj2 (active_iff _ _ _ a s i) (conj Ha (conj Hs Hi))).
      rewrite (rhsF_is c E D t0 t1 Hg HN HM), (rhsF_is c E' D' t0 t1 Hg HN HM') by (auto; lra).
      now rewrite (rhsF_rest c E' D' t0 t1 HN R4 (fun k w _ _ => eq_refl) (fun k w _ _ => eq_refl) Hst Hle N_ang ws mus cc (fun j => S' s j t) (fun j => S0 s j t0) y a s i t).
    + apply slabR_LF; auto; intros; intros w Hw; apply cconst.
  - intros t y [[a s] i] Q. unfold slabR. now rewrite Q.
  - intros a s i Ha Hs Hi. apply (AF_ext (fun y => rhsF c E D N_ang ws mus cc t0 (fun j => S0 s j t0) y a s i)); [|apply rhsF_AF].
    intros y. unfold slabR. rewrite (proj2 (active_iff _ _ _ a s i) (conj Ha (conj Hs Hi))). symmetry. apply (rhsF_is c E D t0 t1 Hg HN HM); auto. lra.
  - exact MK.
  - intros t a s i Ht Ha Hs Hi. eapply dd_eq; [now apply HV|]. unfold slabR. rewrite (proj2 (active_iff _ _ _ a s i) (conj Ha (conj Hs Hi))).
    rewrite (rhsF_is c E D t0 t1 Hg HN HM (st t a s) N_ang ws mus cc t (fun j => S0 s j t) (fun q => trunc N_ang (fN c) (fM c) V q t) a s i Ht Hs).
    rewrite <- (rhsF_same c E D HN N_ang ws mus cc t (fun j => S0 s j t) (fun p => let '(a, s, i) := p in V a s i t)); auto.
    + apply (rhsF_is c E D t0 t1 Hg HN HM (st' t a s) N_ang ws mus cc t (fun j => S0 s j t) (fun p => let '(a, s, i) := p in V a s i t)); auto.
    + intros l k j Hl Hk Hj. symmetry. now apply trunc_in.
Qed.
Print Assumptions C146_slab.

Definition joint (N_ang : nat) (V : nat -> nat -> nat -> R -> R) (ee : nat -> nat -> R -> R) (a s i : nat) : R -> R := if (a =? N_ang)%nat then ee s i else V a s i.
Lemma coupled_traj c E D N_ang ws mus cc c_a l S0 st ste st' ste' V ee t0 t1 : fgeom c = Slab -> (2 <= fN c)%nat -> mesh_ok c E D t0 t1 ->
  solves_thermal c E D N_ang ws mus cc c_a l ee S0 st' ste' V ee t0 t1 ->
  forall t a s i, t0 <= t <= t1 -> (a < S N_ang)%nat -> (s < fN c)%nat -> (i <= fM c)%nat ->
  is_derive (joint N_ang V ee a s i) t (coupledR c E D N_ang ws mus cc c_a l S0 st ste t (fun q => trunc (S N_ang) (fN c) (fM c) (joint N_ang V ee) q t) (a, s, i)).
Proof.
  intros Hg HN HM HV t a s i Ht Ha Hs Hi. set (J := joint N_ang V ee).
  unfold coupledR. rewrite (proj2 (active_iff _ _ _ a s i) (conj Ha (conj Hs Hi))).
    pose (Y := fun p : idx => let '(a, s, i) := p in J a s i t).
    assert (SM : same c (S N_ang) Y (fun q => trunc (S N_ang) (fN c) (fM c) J q t)) by (intros l0 k j Hl Hk Hj; symmetry; now apply trunc_in).
    destruct (HV t Ht s i Hs Hi) as [D1 D2].
    assert (YE : (fun j => Y (N_ang, s, j)) = (fun j => ee s j t)) by (unfold Y, J, joint; rewrite Nat.eqb_refl; reflexivity).
    assert (JV : forall l0 k j, (l0 < N_ang)%nat -> V l0 k j t = Y (l0, k, j)) by (intros l0 k j Hl; unfold Y, J, joint; destruct (Nat.eqb_spec l0 N_ang); [lia|reflexivity]).
    unfold J at 1, joint at 1. destruct (Nat.eqb_spec a N_ang) as [->|Na].
    + eapply dd_eq; [exact D2|].
      rewrite (enerF_is c E D t0 t1 Hg HN HM (ste t s) N_ang ws c_a l t (fun j => S0 s j t) (fun q => trunc (S N_ang) (fN c) (fM c) J q t) s i) by auto.
      rewrite <- (enerF_same c E D HN N_ang ws c_a l t (fun j => S0 s j t) Y) by auto.
      rewrite <- (enerF_is c E D t0 t1 Hg HN HM (ste' t s) N_ang ws c_a l t (fun j => S0 s j t) Y s i) by auto. rewrite YE.
      unfold slab_energy. cbv zeta.
      replace (make_P N_ang ws (fun l0 j => Y (l0, s, j)) i) with (make_P N_ang ws (fun l0 j => V l0 s j t) i).
      2: { unfold make_P. apply sumn_ext. intros l0 Hl. cbv beta. now rewrite (JV l0 s i Hl). }
      replace (fun k j => Y (N_ang, k, j)) with (fun k j => ee k j t) by (unfold Y, J, joint; rewrite Nat.eqb_refl; reflexivity). cbv beta. rewrite ?YE. reflexivity.
    + eapply dd_eq; [apply D1; lia|].
      rewrite (thermF_is c E D t0 t1 Hg HN HM (st t a s) N_ang ws mus cc c_a l t (fun j => S0 s j t) (fun q => trunc (S N_ang) (fN c) (fM c) J q t) a s i) by auto.
      rewrite <- (thermF_same c E D HN N_ang ws mus cc c_a l t (fun j => S0 s j t) Y) by (auto; lia).
      rewrite <- (thermF_is c E D t0 t1 Hg HN HM (st' t a s) N_ang ws mus cc c_a l t (fun j => S0 s j t) Y a s i) by auto. rewrite YE.
      unfold slab_rhs_thermal. cbv zeta.
      replace (make_P N_ang ws (fun l0 j => Y (l0, s, j)) i) with (make_P N_ang ws (fun l0 j => V l0 s j t) i).
      2: { unfold make_P. apply sumn_ext. intros l0 Hl. cbv beta. now rewrite (JV l0 s i Hl). }
      replace (fun k j => Y (a, k, j)) with (fun k j => V a k j t) by (unfold Y, J, joint; rewrite (proj2 (Nat.eqb_neq a N_ang) Na); reflexivity).
      unfold Y, J, joint. rewrite (proj2 (Nat.eqb_neq a N_ang) Na). reflexivity.
Qed.
(** Likewise for radiation coupled to a material. *)
Theorem C146_coupled : forall T p c E D N_ang ws mus cc c_a l S0 st ste st' ste' V ee t0 t1, consistent T -> order_linear T p ->
  fgeom c = Slab -> (2 <= fN c)%nat -> t0 <= t1 -> mesh_ok c E D t0 t1 -> at_rest c D S0 t0 t1 -> steady c t0 t1 ->
  solves_thermal c E D N_ang ws mus cc c_a l ee S0 st' ste' V ee t0 t1 ->
  exists C d0, 0 < C /\ 0 < d0 /\ forall d hs y y' e, 0 <= d <= d0 -> 0 <= e -> (forall h, In h hs -> 0 <= h <= d) -> t0 + total hs <= t1 ->
    vector (S N_ang) (fN c) (fM c) y -> rk_run T (coupledR c E D N_ang ws mus cc c_a l S0 st ste) t0 y hs y' ->
    (forall s i, (s < fN c)%nat -> (i <= fM c)%nat -> Rabs (y (N_ang, s, i) - ee s i t0) <= e /\ forall a, (a < N_ang)%nat -> Rabs (y (a, s, i) - V a s i t0) <= e) ->
    forall s i, (s < fN c)%nat -> (i <= fM c)%nat -> Rabs (y' (N_ang, s, i) - ee s i (t0 + total hs)) <= C * (e + d ^ p) /\
      forall a, (a < N_ang)%nat -> Rabs (y' (a, s, i) - V a s i (t0 + total hs)) <= C * (e + d ^ p).
Proof.
  intros T p c E D N_ang ws mus cc c_a l S0 st ste st' ste' V ee t0 t1 HT HP Hg HN Hle HM (RD & RS & R4) Hst HV.
  assert (HE : forall k t, (k <= fN c)%nat -> t0 <= t <= t1 -> E k t = E k t0).
  { intros k t Hk Ht. apply (rest_edges (E k) t0 t1); auto. intros w Hw. destruct (HM w Hw) as [_ H]. rewrite <- (RD k w Hk Hw). now apply H. }
  assert (HD : forall k t, (k <= fN c)%nat -> t0 <= t <= t1 -> D k t = D k t0) by (intros k t Hk Ht; rewrite !RD by (auto; lra); reflexivity).
  assert (UF : forall E D S0, mesh_ok c E D t0 t1 -> forall t y a s i, t0 <= t <= t1 -> (a < S N_ang)%nat -> (s < fN c)%nat -> (i <= fM c)%nat ->
    coupledR c E D N_ang ws mus cc c_a l S0 st ste t y (a, s, i) = if (a =? N_ang)%nat then enerF c E D N_ang ws c_a l t (fun j => S0 s j t) y s i else thermF c E D N_ang ws mus cc c_a l t (fun j => S0 s j t) y a s i).
  { intros E1 D1 S1 M1 t y a s i Ht Ha Hs Hi. unfold coupledR. rewrite (proj2 (active_iff _ _ _ a s i) (conj Ha (conj Hs Hi))).
    destruct (a =? N_ang)%nat; [now apply (enerF_is c E1 D1 t0 t1 Hg HN M1)|now apply (thermF_is c E1 D1 t0 t1 Hg HN M1)]. }
  assert (MK : forall t y a s i, t0 <= t <= t1 -> (a < S N_ang)%nat -> (s < fN c)%nat -> (i <= fM c)%nat -> coupledR c E D N_ang ws mus cc c_a l S0 st ste t y (a, s, i) = coupledR c E D N_ang ws mus cc c_a l S0 st ste t0 y (a, s, i)).
  { intros t y a s i Ht Ha Hs Hi. rewrite !UF by (auto; lra). destruct (a =? N_ang)%nat; [apply (enerF_rest c E D t0 t1); auto|apply (thermF_rest c E D t0 t1); auto]. }
  destruct (order_gen (S N_ang) (fN c) (fM c) (coupledR c E D N_ang ws mus cc c_a l S0 st ste) (joint N_ang V ee) t0 t1 T p Hle HT HP) as (C & d0 & PC & Pd & H).
  - intros a s i Ha Hs Hi. set (E' := fun k (_ : R) => E k t0). set (D' := fun k (_ : R) => D k t0). set (S' := fun s i (_ : R) => S0 s i t0).
    assert (HM' : mesh_ok c E' D' t0 t1).
    { intros t Ht. split; [apply (HM t0); lra|]. intros k Hk. unfold E', D'. rewrite RD by (auto; lra). apply dd_const. }
    apply (LF_ext idx t0 t1 (fun t y => coupledR c E' D' N_ang ws mus cc c_a l S' st ste t y (a, s, i))); auto.
    + intros t y Ht. rewrite MK by auto. rewrite !UF by (auto; lra).
      destruct (a =? N_ang)%nat.
      * now rewrite (enerF_rest c E' D' t0 t1 HN R4 (fun k w _ _ => eq_refl) (fun k w _ _ => eq_refl) Hst Hle N_ang ws c_a l (fun j => S' s j t) (fun j => S0 s j t0) y s i t).
      * now rewrite (thermF_rest c E' D' t0 t1 HN R4 (fun k w _ _ => eq_refl) (fun k w _ _ => eq_refl) Hst Hle N_ang ws mus cc c_a l (fun j => S' s j t) (fun j => S0 s j t0) y a s i t).
    + apply coupledR_LF; auto; intros; intros w Hw; apply cconst.
  - intros t y [[a s] i] Q. unfold coupledR. now rewrite Q.
  - intros a s i Ha Hs Hi. apply (AF_ext (fun y => if (a =? N_ang)%nat then enerF c E D N_ang ws c_a l t0 (fun j => S0 s j t0) y s i else thermF c E D N_ang ws mus cc c_a l t0 (fun j => S0 s j t0) y a s i)).
    + intros y. symmetry. apply UF; auto. lra.
    + destruct (a =? N_ang)%nat; [apply enerF_AF|apply thermF_AF].
  - exact MK.
  - intros t a s i. now apply (coupled_traj c E D N_ang ws mus cc c_a l S0 st ste st' ste' V ee t0 t1).
  - exists C, d0. split; auto. split; auto. intros d hs y y' e Hd He Hh Hs Hv Hr Hy s i Hs' Hi.
    assert (K : forall a, (a < S N_ang)%nat -> Rabs (y' (a, s, i) - joint N_ang V ee a s i (t0 + total hs)) <= C * (e + d ^ p)).
    { intros a Ha. apply (H d hs y y' e); auto. intros a' s' i' Ha' Hs'' Hi'. destruct (Hy s' i' Hs'' Hi') as [A B]. unfold joint. destruct (Nat.eqb_spec a' N_ang) as [->|N]; [auto|apply B; lia]. }
    split; [specialize (K N_ang ltac:(lia)); unfold joint in K; now rewrite Nat.eqb_refl in K|].
    intros a Ha. specialize (K a ltac:(lia)). unfold joint in K. now rewrite (proj2 (Nat.eqb_neq a N_ang) ltac:(lia)) in K.
Qed.
Print Assumptions C146_coupled.

(* ---------------------------------------------------------------- the sphere *)
Lemma dotf_AF n (A : nat -> nat -> R) (f : nat -> (idx -> R) -> R) i : (forall j, (j < n)%nat -> AF (f j)) -> AF (fun y => dotv n A (fun j => f j y) i).
Proof. intros H. unfold dotv. apply (AF_sumn n (fun j y => A i j * f j y)). intros j Hj. apply AF_mult, H, Hj. Qed.
Lemma aterm_AF K mus s j a : AF (fun y => aterm K mus (fun l => y (l, s, j)) a).
Proof.
  unfold aterm, finite_diff_uneven. cbv zeta.
  assert (Q : forall p q u v : nat, AF (fun y : idx -> R => 1 / 2 * (y (p, u, j) + y (q, v, j)))) by (intros; apply AF_mult, AF_plus; apply AF_proj).
  destruct (negb _ && negb _); [|destruct (a =? 0)%nat]; apply AF_div.
  - apply AF_minus; apply AF_mult, Q.
  - apply AF_mult, Q.
  - apply AF_mult, Q.
Qed.
Lemma sfield_AF M a k e e' x : AF (fun y => field Sphere M (fun j => y (a, k, j)) e e' x).
Proof. unfold field. apply (AF_sumn (M + 1) (fun j y => y (a, k, j) * basis Sphere j x e e')). intros j _. apply AF_multr, AF_proj. Qed.
Lemma sflux_AF c E t a s : AF (fun y => sflux c E t y a s).
Proof.
  unfold sflux. apply AF_mult, AF_plus; apply AF_mult; [apply sfield_AF|]. destruct (S s =? fN (rflux c))%nat; [apply AF_const|apply sfield_AF].
Qed.
Lemma sLU_AF c E t a s i : AF (fun y => sLU c E t y a s i).
Proof. unfold sLU. apply AF_minus; apply AF_mult; [apply sflux_AF|]. destruct s; [apply AF_const|apply sflux_AF]. Qed.
Lemma srhs_AF c E t a s i : AF (fun y => srhs c E t y a s i).
Proof.
  unfold srhs. apply AF_minus; [|apply AF_proj]. apply AF_plus; [|apply AF_multr, P_AF].
  apply (dotf_AF _ _ (fun k y => srhs0 c E t y a s k)). intros k _. unfold srhs0.
  apply AF_minus; [|apply (dotf_AF _ _ (fun j y => y (a, s, j))); intros; apply AF_proj].
  apply AF_plus; [|apply AF_const].
  apply AF_plus; [|apply (dotf_AF _ _ (fun j y => y (a, s, j))); intros; apply AF_proj].
  apply AF_minus; [|apply (dotf_AF _ _ (fun j y => aterm (N_ang c) (mus c) (fun l => y (l, s, j)) a)); intros; apply aterm_AF].
  apply AF_plus; [|apply AF_mult, (dotf_AF _ _ (fun j y => y (a, s, j))); intros; apply AF_proj].
  apply (AF_ext (fun y => -1 * sLU c E t y a s k)); [intros; ring|]. apply AF_mult, sLU_AF.
Qed.

Theorem C146_sphere : forall T p c E st st' V t0 t1, consistent T -> order_linear T p ->
  fgeom (rflux c) = Sphere -> (2 <= fN (rflux c))%nat -> (2 <= N_ang c)%nat -> t0 <= t1 -> sph_data c E t0 t1 ->
  (forall k t, (k <= fN (rflux c))%nat -> t0 <= t <= t1 -> r_Dedges c t k = 0) ->
  (forall s i t, (s < fN (rflux c))%nat -> (i <= fM (rflux c))%nat -> t0 <= t <= t1 -> Src c t (E s t) (E (S s) t) i = Src c t0 (E s t0) (E (S s) t0) i) ->
  sph_run c E st' V t0 t1 ->
  exists C d0, 0 < C /\ 0 < d0 /\ forall d hs y y' e, 0 <= d <= d0 -> 0 <= e -> (forall h, In h hs -> 0 <= h <= d) -> t0 + total hs <= t1 ->
    vector (N_ang c) (fN (rflux c)) (fM (rflux c)) y -> rk_run T (sphereR c st) t0 y hs y' ->
    (forall a s i, (a < N_ang c)%nat -> (s < fN (rflux c))%nat -> (i <= fM (rflux c))%nat -> Rabs (y (a, s, i) - V a s i t0) <= e) ->
    forall a s i, (a < N_ang c)%nat -> (s < fN (rflux c))%nat -> (i <= fM (rflux c))%nat -> Rabs (y' (a, s, i) - V a s i (t0 + total hs)) <= C * (e + d ^ p).
Proof.
  intros T p c E st st' V t0 t1 HT HP Hg HN HK Hle Hd RD RS HV.
  destruct (proj1 (C136_runs_iff c E st' t0 t1 Hg HN Hle Hd) (ex_intro _ V HV)) as [H10 Hok].
  pose proof Hd as Hd'. destruct Hd as (HA & HD & HS).
  assert (HM : forall t, t0 <= t <= t1 -> sph_mesh_at c E t) by (intros t Ht; apply (HA t Ht)).
  assert (HTb : forall t, t0 <= t <= t1 -> sph_tables_at c E t) by (intros t Ht; apply (HA t Ht)).
  assert (HR : forall t, t0 <= t <= t1 -> ~ right_on (rflux c) t) by (intros t Ht; apply (HA t Ht)).
  assert (HE : forall k t, (k <= fN (rflux c))%nat -> t0 <= t <= t1 -> E k t = E k t0).
  { intros k t Hk Ht. apply (rest_edges (E k) t0 t1); auto. intros w Hw. destruct (HM w Hw) as (_ & _ & _ & H). rewrite <- (RD k w Hk Hw). now apply H. }
  assert (UF : forall t y a s i, t0 <= t <= t1 -> (a < N_ang c)%nat -> (s < fN (rflux c))%nat -> (i <= fM (rflux c))%nat -> sphereR c st t y (a, s, i) = srhs c E t y a s i).
  { intros t y a s i Ht Ha Hs Hi. unfold sphereR. rewrite (proj2 (active_iff _ _ _ a s i) (conj Ha (conj Hs Hi))).
    destruct (srhs_is c E t0 t1 Hg HN H10 HM HTb HR Hok (st t s) t y s Ht Hs) as (W & EW & HW). rewrite EW. apply HW. lia. }
  assert (FL : forall t y a s, t0 <= t <= t1 -> (s < fN (rflux c))%nat -> sflux c E t y a s = sflux c E t0 y a s).
  { intros t y a s Ht Hs. unfold sflux. rewrite (RD (S s) t), (RD (S s) t0), (HE s t), (HE (S s) t) by (auto; lra || lia).
    destruct (Nat.eqb_spec (S s) (fN (rflux c))); [reflexivity|]. now rewrite (HE (S (S s)) t) by (auto; lia). }
  assert (MK0 : forall t y a s k, t0 <= t <= t1 -> (s < fN (rflux c))%nat -> (k <= fM (rflux c))%nat -> srhs0 c E t y a s k = srhs0 c E t0 y a s k).
  { intros t y a s k Ht Hs Hk. unfold srhs0, sG, sMP, sLU. rewrite (RS s k t) by auto. rewrite (FL t) by auto.
    rewrite (RD (S s) t), (RD (S s) t0), (RD s t), (RD s t0), (HE s t), (HE (S s) t) by (auto; lra || lia).
    destruct s as [|s']; [reflexivity|]. now rewrite (FL t y a s') by (auto; lia). }
  assert (MK : forall t y a s i, t0 <= t <= t1 -> (a < N_ang c)%nat -> (s < fN (rflux c))%nat -> (i <= fM (rflux c))%nat -> sphereR c st t y (a, s, i) = sphereR c st t0 y (a, s, i)).
  { intros t y a s i Ht Ha Hs Hi. rewrite !UF by (auto; lra). unfold srhs, smass. rewrite (HE s t), (HE (S s) t) by (auto; lia). f_equal. f_equal.
    unfold dotv. apply sumn_ext. intros j Hj. rewrite MK0; auto. lia. }
  apply (order_gen (N_ang c) (fN (rflux c)) (fM (rflux c)) (sphereR c st) V t0 t1 T p Hle HT HP).
  - intros a s i Ha Hs Hi. now apply (sphereR_LF c E).
  - intros t y [[a s] i] Q. unfold sphereR. now rewrite Q.
  - intros a s i Ha Hs Hi. apply (AF_ext (fun y => srhs c E t0 y a s i)); [|apply srhs_AF]. intros y. symmetry. apply UF; auto. lra.
  - exact MK.
  - intros t a s i Ht Ha Hs Hi. unfold sphereR. rewrite (proj2 (active_iff _ _ _ a s i) (conj Ha (conj Hs Hi))).
    destruct (HV t Ht) as (_ & _ & S0). destruct (S0 s Hs) as (W & EW & DW). eapply dd_eq; [now apply DW|].
    destruct (srhs_is c E t0 t1 Hg HN H10 HM HTb HR Hok (st t s) t (fun q => trunc (N_ang c) (fN (rflux c)) (fM (rflux c)) V q t) s Ht Hs) as (W1 & E1 & H1). rewrite E1.
    destruct (srhs_is c E t0 t1 Hg HN H10 HM HTb HR Hok (st' t s) t (fun p => let '(a, s, i) := p in V a s i t) s Ht Hs) as (W2 & E2 & H2).
    cbv beta iota in E2. rewrite EW in E2. injection E2 as <-. rewrite H1, H2 by lia. apply srhs_ext; auto.
    intros l k j Hl Hk Hj. symmetry. now apply trunc_in.
Qed.
Print Assumptions C146_sphere.

(* ---------------------------------------------------------------- the order is not exceeded *)
Lemma slopes_powers T z m i : slopes T m i z = sumn m (fun k => z ^ k * rpow T k i).
Proof.
  revert i. induction m as [|m IH]; intros i; [reflexivity|]. cbn [slopes]. rewrite sumn_S_l. cbn [pow rpow]. rewrite Rmult_1_r. f_equal.
  rewrite (sumn_ext (rs T) _ (fun j => sumn m (fun k => z ^ k * (rA T i j * rpow T k j)))) by (intros j _; rewrite IH, <- sumn_scal; apply sumn_ext; intros; ring).
  rewrite sumn_swap, <- sumn_scal. apply sumn_ext. intros k _. rewrite sumn_scal. ring.
Qed.
Lemma growth_rk45 z : growth rk45 z = 1 + z + z ^ 2 / 2 + z ^ 3 / 6 + z ^ 4 / 24 + z ^ 5 / 120 + z ^ 6 / 600.
Proof.
  unfold growth. rewrite (sumn_ext (rs rk45) _ (fun i => rb rk45 i * sumn 6 (fun k => z ^ k * rk45_pow k i))).
  2: { intros i Hi. rewrite slopes_powers. f_equal. change (rs rk45) with 6%nat in *. apply sumn_ext. intros k Hk. now rewrite rk45_powers. }
  unfold rk45, rk45_pow. cbn [rs rb sumn nth]. field.
Qed.
Lemma alternating k h : 0 <= h -> 0 <= (-1) ^ k * (exp (- h) - sumn k (fun j => (- h) ^ j * / INR (fact j))).
Proof.
  revert h. induction k as [|k IH]; intros h Hh; [cbn [pow sumn]; pose proof (exp_pos (- h)); lra|].
  set (f := fun h => (-1) ^ S k * (exp (- h) - sumn (S k) (fun j => (- h) ^ j * / INR (fact j)))).
  assert (Df : forall u, is_derive f u ((-1) ^ k * (exp (- u) - sumn k (fun j => (- u) ^ j * / INR (fact j))))).
  { intros u. unfold f. eapply dd_eq.
    - apply dd_scal. apply dd_minus; [apply (dd_exp (fun h => - h)), (dd_opp (fun h => h)), dd_id|].
      apply (dd_ext (fun h => 1 + sumn k (fun j => (- h) ^ S j * / INR (fact (S j)) * 1))).
      { intros w. rewrite sumn_S_l. f_equal; [cbn; field|]. apply sumn_ext. intros; ring. }
      apply dd_plus; [apply dd_const|]. apply (dd_sumn k (fun j h => (- h) ^ S j * / INR (fact (S j)) * 1)). intros j _.
      apply (dd_comp (fun z => z ^ S j * / INR (fact (S j)) * 1) (fun h => - h)); [apply dd_term|apply (dd_opp (fun h => h)), dd_id].
    - cbv beta. match goal with |- ?a = ?b => change (@eq R a b) end. rewrite sumn_scal. cbn [pow].
      rewrite (sumn_ext k (fun j => (- u) ^ j * / INR (fact j) * 1) (fun j => (- u) ^ j * / INR (fact j))) by (intros; ring). ring. }
  destruct (MVT_gen f 0 h (fun u => (-1) ^ k * (exp (- u) - sumn k (fun j => (- u) ^ j * / INR (fact j))))) as (c & Hc & E).
  - intros u _. apply Df.
  - intros u _. apply continuity_pt_filterlim, (ex_derive_continuous f). eexists. apply Df.
  - rewrite Rmin_left, Rmax_right in Hc by lra.
    assert (f0 : f 0 = 0).
    { unfold f. rewrite sumn_S_l, sumn_zero by (intros; cbn [pow]; ring). rewrite Ropp_0, exp_0. cbn. field. }
    change (0 <= f h). rewrite f0, !Rminus_0_r in E. rewrite E. apply Rmult_le_pos; auto. apply IH. lra.
Qed.
Lemma growth_excess u : 0 <= u -> exp (- u) + u ^ 6 / 3600 <= growth rk45 (- u).
Proof.
  intros Hu. destruct facts as (f1 & f2 & f3 & f4 & f5 & f6). pose proof (alternating 7 u Hu) as H. cbn [sumn] in H. rewrite f1, f2, f3, f4, f5, f6 in H.
  replace (INR (fact 0)) with 1 in H by reflexivity. rewrite growth_rk45.
  replace ((-1) ^ 7) with (-1) in H by ring.
  replace ((- u) ^ 0 * / 1) with 1 in H by field. replace ((- u) ^ 1 * / 1) with (- u) in H by field.
  replace ((- u) ^ 2) with (u ^ 2) in * by ring. replace ((- u) ^ 3) with (- u ^ 3) in * by ring. replace ((- u) ^ 4) with (u ^ 4) in * by ring.
  replace ((- u) ^ 5) with (- u ^ 5) in * by ring. replace ((- u) ^ 6) with (u ^ 6) in * by ring. lra.
Qed.
Lemma right_step t h x : rk_step rk45 (slabR sC sE (fun _ _ => 0) 1 (fun _ => 1) (fun _ => 1) (1 / 2) (fun _ _ _ => 0) (fun _ _ _ => s0)) t h (right_cell x) (right_cell (growth rk45 (- (3 / 2) * h) * x)).
Proof.
  assert (HE : explicit rk45) by apply rk45_ok. set (z := - (3 / 2) * h). set (T := rk45) in *.
  exists (fun i => right_cell (- (3 / 2) * slopes T (rs T) i z * x)). split.
  - intros i p Hi.
    replace (stage T h (right_cell x) (fun i => right_cell (- (3 / 2) * slopes T (rs T) i z * x)) i) with (right_cell (slopes T (rs T) i z * x)).
    + rewrite right_rhs. f_equal. ring.
    + apply functional_extensionality. intros [[a s] j]. unfold stage, right_cell. destruct ((a =? 0) && (s =? 1) && (j =? 0))%nat.
      * rewrite <- (slopes_stable T z HE (rs T) i Hi Hi). cbn [slopes].
        rewrite (sumn_ext (rs T) (fun j => rA T i j * (- (3 / 2) * slopes T (rs T) j z * x)) (fun j => - (3 / 2) * x * (rA T i j * slopes T (rs T) j z))) by (intros; ring).
        rewrite sumn_scal. unfold z. ring.
      * rewrite sumn_zero; [ring|]. intros; ring.
  - intros [[a s] j]. unfold right_cell. destruct ((a =? 0) && (s =? 1) && (j =? 0))%nat.
    + unfold growth. rewrite (sumn_ext (rs T) (fun i => rb T i * (- (3 / 2) * slopes T (rs T) i z * x)) (fun i => - (3 / 2) * x * (rb T i * slopes T (rs T) i z))) by (intros; ring).
      rewrite sumn_scal. unfold z. ring.
    + rewrite sumn_zero; [ring|]. intros; ring.
Qed.
Lemma right_run h n t x : rk_run rk45 (slabR sC sE (fun _ _ => 0) 1 (fun _ => 1) (fun _ => 1) (1 / 2) (fun _ _ _ => 0) (fun _ _ _ => s0)) t (right_cell x) (repeat h n) (right_cell (growth rk45 (- (3 / 2) * h) ^ n * x)).
Proof.
  revert t x. induction n as [|n IH]; intros t x; cbn [repeat rk_run].
  - intros p. now rewrite pow_O, Rmult_1_l.
  - exists (right_cell (growth rk45 (- (3 / 2) * h) * x)). split; [apply right_step|].
    replace (growth rk45 (- (3 / 2) * h) ^ S n * x) with (growth rk45 (- (3 / 2) * h) ^ n * (growth rk45 (- (3 / 2) * h) * x)) by (cbn [pow]; ring). apply IH.
Qed.
Lemma pow_excess a b n : 0 <= a -> a <= b -> INR n * a ^ pred n * (b - a) <= b ^ n - a ^ n.
Proof.
  intros Ha Hab. induction n as [|n IH]; [cbn; lra|]. rewrite S_INR. cbn [pred pow].
  assert (P : 0 <= a ^ n) by now apply pow_le. assert (Q : a ^ n <= b ^ n) by (apply pow_incr; lra).
  assert (K : INR n * a ^ n = a * (INR n * a ^ pred n)) by (destruct n; [cbn; ring|cbn [pred pow]; ring]).
  replace (b * b ^ n - a * a ^ n) with ((b - a) * b ^ n + a * (b ^ n - a ^ n)) by ring.
  assert (a * (INR n * a ^ pred n * (b - a)) <= a * (b ^ n - a ^ n)) by now apply Rmult_le_compat_l.
  assert ((b - a) * a ^ n <= (b - a) * b ^ n) by (apply Rmult_le_compat_l; lra).
  replace ((INR n + 1) * a ^ n * (b - a)) with ((b - a) * a ^ n + a * (INR n * a ^ pred n * (b - a))) by (replace ((INR n + 1) * a ^ n) with (a ^ n + INR n * a ^ n) by ring; rewrite K; ring). lra.
Qed.
(** the fifth order of the driver's method is not exceeded: on the one-angle problem of [C103_example], n steps of length (2/3)/n leave an error of at least the fifth power of 1/n over 10800 *)
Theorem C146_order_exact : forall n, (0 < n)%nat -> exists y',
  rk_run rk45 (slabR sC sE (fun _ _ => 0) 1 (fun _ => 1) (fun _ => 1) (1 / 2) (fun _ _ _ => 0) (fun _ _ _ => s0)) 0 (fun p => if (fst (fst p) =? 0)%nat && (snd (fst p) =? 1)%nat && (snd p =? 0)%nat then 1 else 0) (repeat (2 / 3 * / INR n) n) y' /\
  (/ INR n) ^ 5 / 10800 <= y' (0%nat, 1%nat, 0%nat) - exp (- (3 / 2) * (2 / 3)).
Proof.
  intros n Hn. assert (N : 1 <= INR n) by (change 1 with (INR 1); apply le_INR; lia).
  exists (right_cell (growth rk45 (- (3 / 2) * (2 / 3 * / INR n)) ^ n * 1)). split.
  - match goal with |- rk_run _ _ _ ?y _ _ => replace y with (right_cell 1) end; [exact (right_run (2 / 3 * / INR n) n 0 1)|].
    apply functional_extensionality. now intros [[a s] j].
  - cbn [right_cell Nat.eqb andb]. rewrite Rmult_1_r. set (u := / INR n).
    assert (Hu : 0 < u <= 1) by (unfold u; split; [apply Rinv_0_lt_compat; lra|rewrite <- Rinv_1; apply Rinv_le_contravar; lra]).
    replace (- (3 / 2) * (2 / 3 * u)) with (- u) by field. replace (- (3 / 2) * (2 / 3)) with (-1) by field.
    assert (En : forall m, exp (- u) ^ m = exp (- (INR m * u))).
    { induction m as [|m IHm]; [cbn [pow INR]; rewrite Rmult_0_l, Ropp_0, exp_0; reflexivity|]. cbn [pow]. rewrite IHm, <- exp_plus, S_INR. f_equal. ring. }
    assert (Nu : INR n * u = 1) by (unfold u; field; lra).
    replace (exp (-1)) with (exp (- u) ^ n) by (rewrite En, Nu; f_equal; lra).
    pose proof (growth_excess u ltac:(lra)) as G. assert (U6 : 0 < u ^ 6) by (apply pow_lt; lra).
    eapply Rle_trans; [|apply (pow_excess (exp (- u)) (growth rk45 (- u)) n); [left; apply exp_pos|lra]].
    assert (E1 : exp (-1) <= exp (- u) ^ pred n).
    { rewrite En. destruct (Req_dec (-1) (- (INR (pred n) * u))) as [->|X]; [lra|]. left. apply exp_increasing.
      assert (INR (pred n) * u <= INR n * u) by (apply Rmult_le_compat_r; [lra|apply le_INR; lia]). lra. }
    assert (E3 : 1 / 3 <= exp (-1)).
    { replace (-1) with (Ropp 1) by ring. rewrite exp_Ropp. pose proof exp_le_3. pose proof (exp_pos 1). unfold Rdiv. rewrite Rmult_1_l. apply Rinv_le_contravar; lra. }
    apply Rle_trans with (INR n * (1 / 3) * (u ^ 6 / 3600)).
    + replace (INR n * (1 / 3) * (u ^ 6 / 3600)) with (INR n * u * u ^ 5 / 10800) by field. rewrite Nu. lra.
    + apply Rmult_le_compat; [nra|lra| |lra]. apply Rmult_le_compat_l; lra.
Qed.
Print Assumptions C146_order_exact.
(** the premises of [C146_slab] hold for that problem, whose exact trajectory is exp (-3t/2) in the right cell *)
Example C146_example t0 t1 : t0 <= t1 -> fgeom sC = Slab /\ (2 <= fN sC)%nat /\ mesh_ok sC sE (fun _ _ => 0) t0 t1 /\ at_rest sC (fun _ _ => 0) (fun _ _ _ => 0) t0 t1 /\ steady sC t0 t1 /\
  solves sC sE (fun _ _ => 0) 1 (fun _ => 1) (fun _ => 1) (1 / 2) (fun _ _ _ => 0) (fun _ _ _ => s0) sV t0 t1 /\ order_linear rk45 5 /\ consistent rk45 /\ ~ order_linear rk45 6.
Proof.
  intros _. split; [reflexivity|]. split; [cbn; lia|]. split; [apply C103_example_mesh|].
  split; [repeat split; intros; try reflexivity; cbn; auto; discriminate|].
  split; [apply C131_steady_when; right; split; [reflexivity|left; reflexivity]|]. split; [apply C103_example|]. split; [apply order_rk45|]. split; [apply rk45_ok|].
  intros H. specialize (H 5%nat ltac:(lia)). rewrite (sumn_ext (rs rk45) _ (fun i => rb rk45 i * rk45_pow 5 i)) in H by (intros i Hi; change (rs rk45) with 6%nat in Hi; now rewrite rk45_powers by lia).
  destruct facts as (_ & _ & _ & _ & _ & f6). rewrite f6 in H. unfold rk45, rk45_pow in H. cbn [rs rb sumn nth] in H. lra.
Qed.
