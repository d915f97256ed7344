(** C131: the equations of the slab scheme have exactly one trajectory for every initial state. *)
From Coquelicot Require Import Coquelicot.
From Verif Require Import Py PyLemmas Calc Legendre DGModel DGSpec DGProofs StabSpec StabThms SymSpec DepThms Picard ExistSpec ExistProofs UniqueFin.

Section Index.
Variables (A N M : nat).
Definition active (p : nat * nat * nat) : bool := let '(a, s, i) := p in (a <? A)%nat && (s <? N)%nat && (i <=? M)%nat.
Definition actives : list (nat * nat * nat) := list_prod (list_prod (seq 0 A) (seq 0 N)) (seq 0 (M + 1)).
Lemma actives_in a s i : In (a, s, i) actives <-> ((a < A)%nat /\ (s < N)%nat /\ (i <= M)%nat).
Proof. unfold actives. rewrite in_prod_iff, in_prod_iff, !in_seq. lia. Qed.
Lemma active_iff a s i : active (a, s, i) = true <-> ((a < A)%nat /\ (s < N)%nat /\ (i <= M)%nat).
Proof. unfold active. rewrite !andb_true_iff, !Nat.ltb_lt, Nat.leb_le. tauto. Qed.
End Index.

Lemma solves_sub c E D A ws mus cc S0 st V t0 t1 t : t <= t1 -> solves c E D A ws mus cc S0 st V t0 t1 -> solves c E D A ws mus cc S0 st V t0 t.
Proof. intros H HV s Hs. apply HV. lra. Qed.
Lemma thermal_sub c E D A ws mus cc c_a l H S0 st ste V ee t0 t1 t : t <= t1 ->
  solves_thermal c E D A ws mus cc c_a l H S0 st ste V ee t0 t1 -> solves_thermal c E D A ws mus cc c_a l H S0 st ste V ee t0 t.
Proof. intros K HV s Hs. apply HV. lra. Qed.
Lemma mesh_sub c E D t0 t1 t : t <= t1 -> mesh_ok c E D t0 t1 -> mesh_ok c E D t0 t.
Proof. intros K HV s Hs. apply HV. lra. Qed.

Theorem C131_exists : forall c E D N_ang ws mus cc S0 st V0 t0 t1,
  fgeom c = Slab -> (2 <= fN c)%nat -> t0 <= t1 -> mesh_ok c E D t0 t1 ->
  (forall k, (k <= fN c)%nat -> continuous_on (D k) t0 t1) ->
  (forall s i, (s < fN c)%nat -> (i <= fM c)%nat -> continuous_on (S0 s i) t0 t1) -> steady c t0 t1 ->
  exists V : nat -> nat -> nat -> R -> R, solves c E D N_ang ws mus cc S0 st V t0 t1 /\ forall a s i, V a s i t0 = V0 a s i.
Proof.
  intros c E D N_ang ws mus cc S0 st V0 t0 t1 Hg HN Hle HM HD HS Hst.
  pose (F := fun t (y : nat * nat * nat -> R) p => if active N_ang (fN c) (fM c) p then
    let '(a, s, i) := p in rhsF c E D N_ang ws mus cc t (fun j => S0 s j t) y a s i else 0).
  destruct (exists_fin (nat * nat * nat) t0 t1 Hle (actives N_ang (fN c) (fM c)) F (fun p => let '(a, s, i) := p in V0 a s i)) as (x & X0 & X).
  - intros [[a s] i] Hi. apply actives_in in Hi. unfold F. rewrite (proj2 (active_iff N_ang (fN c) (fM c) a s i) Hi).
    destruct Hi as (Ha & Hs & Hi). apply rhsF_LF; auto. apply Cc_of; auto. now apply HS.
  - intros [[a s] i]. destruct (active N_ang (fN c) (fM c) (a, s, i)) eqn:Q.
    + left. apply actives_in. now apply active_iff in Q.
    + right. intros. unfold F. now rewrite Q.
  - exists (fun a s i => x (a, s, i)). split; [|intros; apply (X0 (a, s, i))].
    intros t Ht a s i Ha Hs Hi. eapply dd_eq; [apply (X t Ht (a, s, i))|].
    unfold F. rewrite (proj2 (active_iff N_ang (fN c) (fM c) a s i) (conj Ha (conj Hs Hi))).
    symmetry. now apply (rhsF_is c E D t0 t1 Hg HN HM (st t a s) N_ang ws mus cc t (fun j => S0 s j t) (fun p => x p t)).
Qed.
Print Assumptions C131_exists.

(** every trajectory from the same initial state is this one, whatever the weights and the albedo *)
Definition trunc A N M (V : nat -> nat -> nat -> R -> R) (p : nat * nat * nat) (t : R) : R :=
  if active A N M p then let '(a, s, i) := p in V a s i t else 0.
Lemma trunc_in A N M V a s i t : (a < A)%nat -> (s < N)%nat -> (i <= M)%nat -> trunc A N M V (a, s, i) t = V a s i t.
Proof. intros Ha Hs Hi. unfold trunc. now rewrite (proj2 (active_iff A N M a s i) (conj Ha (conj Hs Hi))). Qed.
Lemma trunc_out A N M V V' p : In p (actives A N M) \/ forall t, trunc A N M V p t = trunc A N M V' p t.
Proof.
  destruct p as [[a s] i]. destruct (active A N M (a, s, i)) eqn:Q.
  - left. apply actives_in. now apply active_iff in Q.
  - right. intros. unfold trunc. now rewrite Q.
Qed.
Theorem C131_unique : forall c E D N_ang ws mus cc S0 st st' V W t0 t1,
  fgeom c = Slab -> (2 <= fN c)%nat -> t0 <= t1 -> mesh_ok c E D t0 t1 ->
  (forall k, (k <= fN c)%nat -> continuous_on (D k) t0 t1) ->
  (forall s i, (s < fN c)%nat -> (i <= fM c)%nat -> continuous_on (S0 s i) t0 t1) -> steady c t0 t1 ->
  solves c E D N_ang ws mus cc S0 st V t0 t1 -> solves c E D N_ang ws mus cc S0 st' W t0 t1 ->
  (forall a s i, (a < N_ang)%nat -> (s < fN c)%nat -> (i <= fM c)%nat -> W a s i t0 = V a s i t0) ->
  forall t a s i, t0 <= t <= t1 -> (a < N_ang)%nat -> (s < fN c)%nat -> (i <= fM c)%nat -> W a s i t = V a s i t.
Proof.
  intros c E D N_ang ws mus cc S0 st st' V W t0 t1 Hg HN Hle HM HD HS Hst HV HW H0 t a s i Ht Ha Hs Hi.
  set (T := trunc N_ang (fN c) (fM c)).
  assert (DV : forall st V, solves c E D N_ang ws mus cc S0 st V t0 t1 -> forall t p, t0 <= t <= t1 -> In p (actives N_ang (fN c) (fM c)) ->
     is_derive (T V p) t (let '(a, s, i) := p in rhsF c E D N_ang ws mus cc t (fun j => S0 s j t) (fun q => T V q t) a s i)).
  { clear - Hg HN HM. intros st V HV t [[a s] i] Ht Hp. apply actives_in in Hp. destruct Hp as (Ha & Hs & Hi).
    apply (is_derive_ext (V a s i)); [intros w; symmetry; now apply trunc_in|]. eapply dd_eq; [now apply HV|].
    rewrite <- (rhsF_same c E D HN N_ang ws mus cc t (fun j => S0 s j t) (fun p => let '(a, s, i) := p in V a s i t) (fun q => T V q t) a s i); auto.
    - apply (rhsF_is c E D t0 t1 Hg HN HM (st t a s) N_ang ws mus cc t (fun j => S0 s j t) (fun p => let '(a, s, i) := p in V a s i t)); auto.
    - intros l k j Hl Hk Hj. symmetry. now apply trunc_in. }
  rewrite <- (trunc_in N_ang (fN c) (fM c) W a s i t Ha Hs Hi), <- (trunc_in N_ang (fN c) (fM c) V a s i t Ha Hs Hi).
  apply (unique_fin (nat * nat * nat) t0 t1 (actives N_ang (fN c) (fM c)) (fun t y p => let '(a, s, i) := p in rhsF c E D N_ang ws mus cc t (fun j => S0 s j t) y a s i) (T W) (T V)); auto.
  - intros [[a' s'] i'] Hp. apply actives_in in Hp. destruct Hp as (Ha' & Hs' & Hi'). apply rhsF_LF; auto. apply Cc_of; auto. now apply HS.
  - intros p. destruct (trunc_out N_ang (fN c) (fM c) W V p); auto.
  - intros u p Hu Hp. apply (DV st' W HW u p Hu Hp).
  - intros u p Hu Hp. apply (DV st V HV u p Hu Hp).
  - intros [[a' s'] i'] Hp. apply actives_in in Hp. destruct Hp as (Ha' & Hs' & Hi'). unfold T. rewrite !trunc_in by auto. now apply H0.
  - now apply actives_in.
Qed.
Print Assumptions C131_unique.
Theorem C131_exactly_one : forall c E D N_ang ws mus cc S0 st V0 t0 t1,
  fgeom c = Slab -> (2 <= fN c)%nat -> t0 <= t1 -> mesh_ok c E D t0 t1 ->
  (forall k, (k <= fN c)%nat -> continuous_on (D k) t0 t1) ->
  (forall s i, (s < fN c)%nat -> (i <= fM c)%nat -> continuous_on (S0 s i) t0 t1) -> steady c t0 t1 ->
  exists V : nat -> nat -> nat -> R -> R, solves c E D N_ang ws mus cc S0 st V t0 t1 /\ (forall a s i, V a s i t0 = V0 a s i) /\
  forall st' W, solves c E D N_ang ws mus cc S0 st' W t0 t1 ->
   (forall a s i, (a < N_ang)%nat -> (s < fN c)%nat -> (i <= fM c)%nat -> W a s i t0 = V0 a s i) ->
   forall t a s i, t0 <= t <= t1 -> (a < N_ang)%nat -> (s < fN c)%nat -> (i <= fM c)%nat -> W a s i t = V a s i t.
Proof.
  intros c E D N_ang ws mus cc S0 st V0 t0 t1 Hg HN Hle HM HD HS Hst.
  destruct (C131_exists c E D N_ang ws mus cc S0 st V0 t0 t1 Hg HN Hle HM HD HS Hst) as (V & HV & H0).
  exists V. split; auto. split; auto. intros st' W HW W0.
  apply (C131_unique c E D N_ang ws mus cc S0 st st' V W t0 t1 Hg HN Hle HM HD HS Hst HV HW). intros. now rewrite W0, H0.
Qed.
Print Assumptions C131_exactly_one.

(** the same for radiation coupled to a material whose emission is its energy *)
Theorem C131_coupled_exists : forall c E D N_ang ws mus cc c_a l S0 st ste V0 e0 t0 t1,
  fgeom c = Slab -> (2 <= fN c)%nat -> t0 <= t1 -> mesh_ok c E D t0 t1 ->
  (forall k, (k <= fN c)%nat -> continuous_on (D k) t0 t1) ->
  (forall s i, (s < fN c)%nat -> (i <= fM c)%nat -> continuous_on (S0 s i) t0 t1) -> steady c t0 t1 ->
  exists V ee, solves_thermal c E D N_ang ws mus cc c_a l ee S0 st ste V ee t0 t1 /\
   forall s i, ee s i t0 = e0 s i /\ forall a, (a < N_ang)%nat -> V a s i t0 = V0 a s i.
Proof.
  intros c E D N_ang ws mus cc c_a l S0 st ste V0 e0 t0 t1 Hg HN Hle HM HD HS Hst.
  pose (F := fun t (y : nat * nat * nat -> R) p => if active (S N_ang) (fN c) (fM c) p then
    let '(a, s, i) := p in if (a =? N_ang)%nat then enerF c E D N_ang ws c_a l t (fun j => S0 s j t) y s i
    else thermF c E D N_ang ws mus cc c_a l t (fun j => S0 s j t) y a s i else 0).
  destruct (exists_fin (nat * nat * nat) t0 t1 Hle (actives (S N_ang) (fN c) (fM c)) F
    (fun p => let '(a, s, i) := p in if (a =? N_ang)%nat then e0 s i else V0 a s i)) as (x & X0 & X).
  - intros [[a s] i] Hi. apply actives_in in Hi. unfold F. rewrite (proj2 (active_iff (S N_ang) (fN c) (fM c) a s i) Hi).
    destruct Hi as (Ha & Hs & Hi). assert (Cc t0 t1 (S0 s i)) by (apply Cc_of; auto; now apply HS).
    destruct (a =? N_ang)%nat; [now apply enerF_LF|now apply thermF_LF].
  - intros [[a s] i]. destruct (active (S N_ang) (fN c) (fM c) (a, s, i)) eqn:Q.
    + left. apply actives_in. now apply active_iff in Q.
    + right. intros. unfold F. now rewrite Q.
  - exists (fun a s i => x (a, s, i)), (fun s i => x (N_ang, s, i)). split.
    + intros t Ht s i Hs Hi. split.
      * intros a Ha. eapply dd_eq; [apply (X t Ht (a, s, i))|].
        unfold F. rewrite (proj2 (active_iff (S N_ang) (fN c) (fM c) a s i) (conj (Nat.lt_lt_succ_r _ _ Ha) (conj Hs Hi))).
        destruct (Nat.eqb_spec a N_ang); [lia|].
        symmetry. now apply (thermF_is c E D t0 t1 Hg HN HM (st t a s) N_ang ws mus cc c_a l t (fun j => S0 s j t) (fun p => x p t)).
      * eapply dd_eq; [apply (X t Ht (N_ang, s, i))|].
        unfold F. rewrite (proj2 (active_iff (S N_ang) (fN c) (fM c) N_ang s i) (conj (Nat.lt_succ_diag_r _) (conj Hs Hi))).
        rewrite Nat.eqb_refl.
        symmetry. now apply (enerF_is c E D t0 t1 Hg HN HM (ste t s) N_ang ws c_a l t (fun j => S0 s j t) (fun p => x p t)).
    + intros s i. split.
      * rewrite (X0 (N_ang, s, i)). now rewrite Nat.eqb_refl.
      * intros a Ha. rewrite (X0 (a, s, i)). destruct (Nat.eqb_spec a N_ang); [lia|auto].
Qed.
Print Assumptions C131_coupled_exists.

Theorem C131_coupled_exactly_one : forall c E D N_ang ws mus cc c_a l S0 st ste V0 e0 t0 t1,
  fgeom c = Slab -> (2 <= fN c)%nat -> t0 <= t1 -> mesh_ok c E D t0 t1 ->
  (forall k, (k <= fN c)%nat -> continuous_on (D k) t0 t1) ->
  (forall s i, (s < fN c)%nat -> (i <= fM c)%nat -> continuous_on (S0 s i) t0 t1) -> steady c t0 t1 ->
  exists V ee, solves_thermal c E D N_ang ws mus cc c_a l ee S0 st ste V ee t0 t1 /\
   (forall s i, ee s i t0 = e0 s i /\ forall a, (a < N_ang)%nat -> V a s i t0 = V0 a s i) /\
   forall st' ste' W ff, solves_thermal c E D N_ang ws mus cc c_a l ff S0 st' ste' W ff t0 t1 ->
    (forall s i, (s < fN c)%nat -> (i <= fM c)%nat -> ff s i t0 = e0 s i /\ forall a, (a < N_ang)%nat -> W a s i t0 = V0 a s i) ->
    forall t s i, t0 <= t <= t1 -> (s < fN c)%nat -> (i <= fM c)%nat -> ff s i t = ee s i t /\ forall a, (a < N_ang)%nat -> W a s i t = V a s i t.
Proof.
  intros c E D N_ang ws mus cc c_a l S0 st ste V0 e0 t0 t1 Hg HN Hle HM HD HS Hst.
  destruct (C131_coupled_exists c E D N_ang ws mus cc c_a l S0 st ste V0 e0 t0 t1 Hg HN Hle HM HD HS Hst) as (V & ee & HV & H0).
  exists V, ee. split; auto. split; auto. intros st' ste' W ff HW W0.
  pose (join := fun (V : nat -> nat -> nat -> R -> R) (e : nat -> nat -> R -> R) (a s i : nat) => if (a =? N_ang)%nat then e s i else V a s i).
  set (T := fun V e => trunc (S N_ang) (fN c) (fM c) (join V e)).
  pose (F := fun t (y : nat * nat * nat -> R) p => let '(a, s, i) := p in if (a =? N_ang)%nat then enerF c E D N_ang ws c_a l t (fun j => S0 s j t) y s i
    else thermF c E D N_ang ws mus cc c_a l t (fun j => S0 s j t) y a s i).
  assert (DV : forall st ste V e, solves_thermal c E D N_ang ws mus cc c_a l e S0 st ste V e t0 t1 -> forall t p, t0 <= t <= t1 -> In p (actives (S N_ang) (fN c) (fM c)) ->
     is_derive (T V e p) t (F t (fun q => T V e q t) p)).
  { clear - Hg HN HM. intros st ste V e HV t [[a s] i] Ht Hp. apply actives_in in Hp. destruct Hp as (Ha & Hs & Hi).
    apply (is_derive_ext (join V e a s i)); [intros w; symmetry; now apply trunc_in|].
    pose (Y := fun p => let '(a, s, i) := p in join V e a s i t).
    assert (SM : same c (S N_ang) Y (fun q => T V e q t)) by (intros l0 k j Hl Hk Hj; symmetry; now apply trunc_in).
    destruct (HV t Ht s i Hs Hi) as [D1 D2]. unfold F, join. 
    assert (YE : (fun j => Y (N_ang, s, j)) = (fun j => e s j t)) by (unfold Y, join; rewrite Nat.eqb_refl; reflexivity).
    assert (JV : forall l0 k j, (l0 < N_ang)%nat -> V l0 k j t = Y (l0, k, j)) by (intros l0 k j Hl; unfold Y, join; destruct (Nat.eqb_spec l0 N_ang); [lia|reflexivity]).
    destruct (Nat.eqb_spec a N_ang) as [->|Na].
    - eapply dd_eq; [exact D2|]. rewrite <- (enerF_same c E D HN N_ang ws c_a l t (fun j => S0 s j t) Y) by auto.
      rewrite <- (enerF_is c E D t0 t1 Hg HN HM (ste t s) N_ang ws c_a l t (fun j => S0 s j t) Y s i) by auto. rewrite YE.
      unfold slab_energy. cbv zeta.
      replace (make_P N_ang ws (fun l0 j => Y (l0, s, j)) i) with (make_P N_ang ws (fun l0 j => V l0 s j t) i).
      2: { unfold make_P. apply sumn_ext. intros l0 Hl. cbv beta. now rewrite (JV l0 s i Hl). }
      replace (fun k j => Y (N_ang, k, j)) with (fun k j => e k j t) by (unfold Y, join; rewrite Nat.eqb_refl; reflexivity). cbv beta. rewrite ?YE. reflexivity.
    - eapply dd_eq; [apply D1; lia|]. rewrite <- (thermF_same c E D HN N_ang ws mus cc c_a l t (fun j => S0 s j t) Y) by (auto; lia).
      rewrite <- (thermF_is c E D t0 t1 Hg HN HM (st t a s) N_ang ws mus cc c_a l t (fun j => S0 s j t) Y a s i) by auto. rewrite YE.
      unfold slab_rhs_thermal. cbv zeta.
      replace (make_P N_ang ws (fun l0 j => Y (l0, s, j)) i) with (make_P N_ang ws (fun l0 j => V l0 s j t) i).
      2: { unfold make_P. apply sumn_ext. intros l0 Hl. cbv beta. now rewrite (JV l0 s i Hl). }
      replace (fun k j => Y (a, k, j)) with (fun k j => V a k j t) by (unfold Y, join; rewrite (proj2 (Nat.eqb_neq a N_ang) Na); reflexivity).
      unfold Y, join. rewrite (proj2 (Nat.eqb_neq a N_ang) Na). reflexivity. }
  assert (U : forall t p, t0 <= t <= t1 -> In p (actives (S N_ang) (fN c) (fM c)) -> T W ff p t = T V ee p t).
  { intros t p Ht Hp. apply (unique_fin (nat * nat * nat) t0 t1 (actives (S N_ang) (fN c) (fM c)) F (T W ff) (T V ee)); [| | | | |exact Ht|exact Hp]; clear p t Ht Hp.
    - intros [[a' s'] i'] Hp. apply actives_in in Hp. destruct Hp as (Ha' & Hs' & Hi'). assert (Cc t0 t1 (S0 s' i')) by (apply Cc_of; auto; now apply HS).
      unfold F. destruct (a' =? N_ang)%nat; [now apply enerF_LF|now apply thermF_LF].
    - intros p. destruct (trunc_out (S N_ang) (fN c) (fM c) (join W ff) (join V ee) p) as [Q|Q]; [now left|right; intros u _; exact (Q u)].
    - intros u q Hu Hq. apply (DV st' ste' W ff HW u q Hu Hq).
    - intros u q Hu Hq. apply (DV st ste V ee HV u q Hu Hq).
    - intros [[a' s'] i'] Hp. apply actives_in in Hp. destruct Hp as (Ha' & Hs' & Hi'). unfold T. rewrite !trunc_in by auto. unfold join.
      destruct (W0 s' i' Hs' Hi') as [A1 A2]. destruct (H0 s' i') as [B1 B2]. destruct (Nat.eqb_spec a' N_ang); [congruence|]. rewrite A2, B2 by lia. reflexivity. }
  intros t s i Ht Hs Hi. split.
  - specialize (U t (N_ang, s, i) Ht (proj2 (actives_in _ _ _ _ _ _) (conj (Nat.lt_succ_diag_r _) (conj Hs Hi)))). unfold T in U. rewrite !trunc_in in U by auto.
    unfold join in U. now rewrite Nat.eqb_refl in U.
  - intros a Ha. specialize (U t (a, s, i) Ht (proj2 (actives_in _ _ _ _ _ _) (conj (Nat.lt_lt_succ_r _ _ Ha) (conj Hs Hi)))). unfold T in U. rewrite !trunc_in in U by (auto; lia).
    unfold join in U. rewrite (proj2 (Nat.eqb_neq a N_ang) ltac:(lia)) in U. exact U.
Qed.
Print Assumptions C131_coupled_exactly_one.

(** when the boundary sources are steady *)
Theorem C131_steady_when : forall c t0 t1,
  (src4 c = true /\ -1 < t0) \/ (src4 c = false /\ (boundary_source c = false \/ uncollided_on c = true \/ t1 <= ft0 c \/ ft0 c < t0)) ->
  steady c t0 t1.
Proof.
  intros c t0 t1 [[H1 H2]|[H1 H2]]; unfold steady, left_on, right_on; rewrite H1.
  - split; [left; auto|split; [left; auto|auto]].
  - split; [|split; [|discriminate]].
    + destruct H2 as [H2|[H2|[H2|H2]]]; [right; intros t Ht [Q|(Q & _)]; congruence|right; intros t Ht [Q|(_ & Q & _)]; congruence| |].
      * destruct (boundary_source c) eqn:B1, (uncollided_on c) eqn:B2, (bon_left c) eqn:B3;
        try (right; intros t Ht [Q|(Q1 & Q2 & Q3 & Q4)]; congruence).
        left. intros t Ht. right. repeat split; lra.
      * right. intros t Ht [Q|(_ & _ & Q & _)]; [discriminate|lra].
    + destruct H2 as [H2|[H2|[H2|H2]]]; [right; intros t Ht [Q|(Q & _)]; congruence|right; intros t Ht [Q|(_ & Q & _)]; congruence| |].
      * destruct (boundary_source c) eqn:B1, (uncollided_on c) eqn:B2, (bon_right c) eqn:B3;
        try (right; intros t Ht [Q|(Q1 & Q2 & Q3 & Q4)]; congruence).
        left. intros t Ht. right. repeat split; lra.
      * right. intros t Ht [Q|(_ & _ & Q & _)]; [discriminate|lra].
Qed.
Print Assumptions C131_steady_when.

(** two cells whose edges move apart, a source of strength 1 at the left end up to time 1 *)
Definition wC : flux_cfg :=
  {| fgeom := Slab; fM := 0; fN := 2; src4 := false; boundary_source := true; uncollided_on := false; ft0 := 1;
     bon_left := true; bon_right := false; strength := 1; fquad := (0, 2) :: nil |}.
Example C131_example : exists V : nat -> nat -> nat -> R -> R,
  solves wC (fun k t => INR k * (1 + t)) (fun k _ => INR k) 2 (fun _ => 1 / 2) (fun a => if (a =? 0)%nat then -1 else 1) 1
    (fun _ _ t => t) (fun _ _ _ => {| sh := 0; shp := 0; shm := 0 |}) V 0 1 /\ forall a s i, V a s i 0 = INR s.
Proof.
  apply C131_exists; try reflexivity; try (cbn; lia); try lra.
  - intros t Ht. split.
    + intros k Hk. cbn [fN wC] in Hk. rewrite S_INR. assert (0 < 1 + t) by lra. lra.
    + intros k Hk. eapply dd_eq; [apply (dd_scal (fun t => 1 + t)); apply dd_plus; [apply dd_const|apply dd_id]|]. ring.
  - intros k Hk t Ht. apply cconst.
  - intros s i Hs Hi t Ht. apply cid.
  - apply C131_steady_when. right. split; [reflexivity|]. right. right. left. cbn. lra.
Qed.

(** an interval across the time at which the source is switched off: there is no trajectory, the rate of change would
    jump *)
Lemma wC_in t : in_l wC t INR = if Rleb t 1 then 1 else 0.
Proof.
  unfold in_l, is_boundary_source_on. cbn [wC src4 boundary_source uncollided_on negb ft0 Nat.eqb bon_left]. destruct (Rleb t 1); auto.
  unfold ghost_l, field, bcoef. cbn [wC fM Nat.add sumn fquad map rsum fold_right fst snd bdata src4 strength basis leg]. cbn [INR].
  replace (1 - 0) with 1 by ring. replace (0 - 1) with (-1) by ring. replace ((2 * 0 + 1) / (0 - -1)) with 1 by field. rewrite sqrt_1. unfold bdata. cbn [wC src4 strength]. rewrite !leg_0. field.
Qed.
Theorem C131_across_a_switch_refuted : exists c E D ws mus t0 t1,
  fgeom c = Slab /\ (2 <= fN c)%nat /\ t0 < t1 /\ mesh_ok c E D t0 t1 /\ ~ steady c t0 t1 /\
  forall st, ~ exists V : nat -> nat -> nat -> R -> R, solves c E D 1 ws mus 0 (fun _ _ _ => 0) st V t0 t1.
Proof.
  exists wC, (fun k _ => INR k), (fun _ _ => 0), (fun _ => 1), (fun _ => 1), 0, 2.
  assert (HM : mesh_ok wC (fun k _ => INR k) (fun _ _ => 0) 0 2).
  { intros t Ht. split; [intros k Hk; rewrite S_INR; lra|intros k Hk; apply dd_const]. }
  split; [reflexivity|]. split; [cbn; lia|]. split; [lra|]. split; [auto|]. split.
  - intros ([H|H] & _).
    + destruct (H 2 ltac:(lra)) as [Q|(_ & _ & Q & _)]; [discriminate|cbn in Q; lra].
    + apply (H 0 ltac:(lra)). right. cbn. repeat split; lra.
  - intros st [V HV].
    assert (HD : forall t, 0 <= t <= 2 -> is_derive (V 0 0 0)%nat t ((if Rleb t 1 then 1 else 0) - 2 * V 0%nat 0%nat 0%nat t)).
    { intros t Ht. eapply dd_eq; [apply (HV t Ht 0%nat 0%nat 0%nat); cbn; lia|].
      unfold slab_rhs. cbv zeta. rewrite (LU_is wC eq_refl ltac:(cbn; lia)); [|destruct (HM t Ht); auto|cbn; lia].
      change (fun k : nat => INR k) with INR. unfold LUf, flux, val_l. rewrite wC_in.
      cbn [wC fM fN Nat.add dotv sumn G_slab L_slab L_const Nat.eqb Nat.ltb Nat.leb andb make_P field basis INR val_r].
      unfold dotv, make_P. cbn [sumn]. unfold G_slab, L_slab, L_const. cbn [Nat.eqb Nat.ltb Nat.leb andb INR].
      rewrite !leg_0. replace (1 - 0) with 1 by ring. replace ((2 * 0 + 1) / 1) with 1 by field. rewrite sqrt_1.
      rewrite Rmax_right by lra. rewrite Rmin_left by lra. unfold field. cbn [wC fM Nat.add sumn basis INR]. rewrite ?leg_0.
      field. }
    pose (v := V 0%nat 0%nat 0%nat). fold v in HD.
    pose (W := fun t => v t * exp (2 * t)).
    assert (HW : forall t, 0 <= t <= 2 -> is_derive W t ((if Rleb t 1 then 1 else 0) * exp (2 * t))).
    { intros t Ht. eapply dd_eq; [apply dd_mult; [apply (HD t Ht)|apply dd_exp; apply dd_scal; apply dd_id]|]. cbv beta. ring. }
    assert (K : forall t, 1 < t <= 2 -> W t = W 1).
    { intros t Ht. destruct (MVT_cor2 W (fun t => (if Rleb t 1 then 1 else 0) * exp (2 * t)) 1 t) as (z & Q & Hz); [lra|intros z Hz; apply is_derive_Reals; apply HW; lra|].
      destruct (Rleb_spec z 1); [lra|]. lra. }
    pose proof (HW 1 ltac:(lra)) as H1. destruct (Rleb_spec 1 1) as [_|]; [|lra]. rewrite Rmult_1_l in H1. apply is_derive_Reals in H1.
    pose proof (exp_pos (2 * 1)) as P.
    destruct (H1 (exp (2 * 1)) P) as [d Hd].
    pose proof (Hd (Rmin (d / 2) 1)) as Q. pose proof (cond_pos d) as Pd.
    assert (B : 0 < Rmin (d / 2) 1 <= 1) by (unfold Rmin; destruct (Rle_dec _ _); lra).
    assert (B2 : Rmin (d / 2) 1 < d) by (unfold Rmin; destruct (Rle_dec _ _); lra).
    specialize (Q ltac:(lra)). rewrite (Rabs_pos_eq (Rmin (d / 2) 1)) in Q by lra. specialize (Q B2).
    rewrite (K (1 + Rmin (d / 2) 1)) in Q by lra.
    replace ((W 1 - W 1) / Rmin (d / 2) 1 - exp (2 * 1)) with (- exp (2 * 1)) in Q by (field; lra).
    rewrite Rabs_Ropp, Rabs_pos_eq in Q by lra. lra.
Qed.
Print Assumptions C131_across_a_switch_refuted.
