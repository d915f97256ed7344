(** The error of a Runge-Kutta method on moving meshes is at most proportional to the longest step. *)
From Coquelicot Require Import Coquelicot.
From Verif Require Import Py PyLemmas Calc DGModel DGSpec DGProofs StabSpec StabProofs SymSpec Picard ExistSpec ExistProofs ExistThms TimeModel TimeProofs TimeExist TimeThms TimeRate.

Lemma LL_ext I t0 t1 f g : (forall t y, t0 <= t <= t1 -> f t y = g t y) -> LL I t0 t1 f -> LL I t0 t1 g.
Proof. intros H F x Hx. apply (Lp_ext t0 t1 (fun t => f t (fun j => x j t))); [intros; now apply H|now apply F]. Qed.
Lemma slabR_LL c E D N_ang ws mus cc S0 st t0 t1 a s i :
  fgeom c = Slab -> (2 <= fN c)%nat -> t0 <= t1 -> mesh_ok c E D t0 t1 ->
  (forall k, (k <= fN c)%nat -> lipschitz_on (D k) t0 t1) ->
  (forall s i, (s < fN c)%nat -> (i <= fM c)%nat -> lipschitz_on (S0 s i) t0 t1) -> steady c t0 t1 ->
  (a < N_ang)%nat -> (s < fN c)%nat -> (i <= fM c)%nat -> LL idx t0 t1 (fun t y => slabR c E D N_ang ws mus cc S0 st t y (a, s, i)).
Proof.
  intros Hg HN Hle HM HD HS Hst Ha Hs Hi. apply (LL_ext idx t0 t1 (fun t y => rhsF c E D N_ang ws mus cc t (fun j => S0 s j t) y a s i)); auto.
  - intros t y Ht. unfold slabR. rewrite (proj2 (active_iff _ _ _ a s i) (conj Ha (conj Hs Hi))). symmetry. now apply (rhsF_is c E D t0 t1 Hg HN HM).
  - apply rhsF_LL; auto. now apply HS.
Qed.
Lemma coupledR_LL c E D N_ang ws mus cc c_a l S0 st ste t0 t1 a s i :
  fgeom c = Slab -> (2 <= fN c)%nat -> t0 <= t1 -> mesh_ok c E D t0 t1 ->
  (forall k, (k <= fN c)%nat -> lipschitz_on (D k) t0 t1) ->
  (forall s i, (s < fN c)%nat -> (i <= fM c)%nat -> lipschitz_on (S0 s i) t0 t1) -> steady c t0 t1 ->
  (a < S N_ang)%nat -> (s < fN c)%nat -> (i <= fM c)%nat -> LL idx t0 t1 (fun t y => coupledR c E D N_ang ws mus cc c_a l S0 st ste t y (a, s, i)).
Proof.
  intros Hg HN Hle HM HD HS Hst Ha Hs Hi. assert (C : Lp t0 t1 (S0 s i)) by now apply HS.
  apply (LL_ext idx t0 t1 (fun t y => if (a =? N_ang)%nat then enerF c E D N_ang ws c_a l t (fun j => S0 s j t) y s i else thermF c E D N_ang ws mus cc c_a l t (fun j => S0 s j t) y a s i)); auto.
  - intros t y Ht. unfold coupledR. rewrite (proj2 (active_iff _ _ _ a s i) (conj Ha (conj Hs Hi))). symmetry.
    destruct (a =? N_ang)%nat; [now apply (enerF_is c E D t0 t1 Hg HN HM)|now apply (thermF_is c E D t0 t1 Hg HN HM)].
  - destruct (a =? N_ang)%nat; [now apply enerF_LL|now apply thermF_LL].
Qed.
Lemma rate_gen A N M (F : R -> (idx -> R) -> idx -> R) V t0 t1 T : t0 <= t1 -> consistent T ->
  (forall a s i, (a < A)%nat -> (s < N)%nat -> (i <= M)%nat -> LF idx t0 t1 (fun t y => F t y (a, s, i))) ->
  (forall a s i, (a < A)%nat -> (s < N)%nat -> (i <= M)%nat -> LL idx t0 t1 (fun t y => F t y (a, s, i))) ->
  (forall t y p, active A N M p = false -> F t y p = 0) ->
  (forall t a s i, t0 <= t <= t1 -> (a < A)%nat -> (s < N)%nat -> (i <= M)%nat -> is_derive (V a s i) t (F t (fun q => trunc A N M V q t) (a, s, i))) ->
  exists C d0, 0 <= C /\ 0 < d0 /\ forall d e hs y y', 0 <= d <= d0 -> 0 <= e -> (forall h, In h hs -> 0 <= h <= d) -> t0 + total hs <= t1 ->
    vector A N M y -> rk_run T F t0 y hs y' ->
    (forall a s i, (a < A)%nat -> (s < N)%nat -> (i <= M)%nat -> Rabs (y (a, s, i) - V a s i t0) <= e) ->
    forall a s i, (a < A)%nat -> (s < N)%nat -> (i <= M)%nat -> Rabs (y' (a, s, i) - V a s i (t0 + total hs)) <= C * (e + d).
Proof.
  intros Hle HT HL HLL H0 HV.
  destruct (rk_rate idx t0 t1 Hle (actives A N M) F) with (x := trunc A N M V) (T := T) as (C & d0 & PC & Pd & H); auto.
  - intros [[a s] i] Hp. apply actives_in in Hp. destruct Hp as (Ha & Hs & Hi). now apply HL.
  - intros [[a s] i]. destruct (active A N M (a, s, i)) eqn:Q; [left; apply actives_in; now apply active_iff in Q|right; intros; now apply H0].
  - intros [[a s] i] Hp. apply actives_in in Hp. destruct Hp as (Ha & Hs & Hi). now apply HLL.
  - intros t [[a s] i] Ht. destruct (active A N M (a, s, i)) eqn:Q.
    + apply active_iff in Q. destruct Q as (Ha & Hs & Hi). apply (is_derive_ext (V a s i)); [intros; symmetry; now apply trunc_in|]. now apply HV.
    + rewrite H0 by auto. apply (is_derive_ext (fun _ => 0)); [intros; unfold trunc; now rewrite Q|apply dd_const].
  - exists C, d0. split; auto. split; auto. intros d e hs y y' Hd He Hh Hs Hv Hr Hy a s i Ha Hs' Hi. rewrite <- (trunc_in A N M V a s i) by auto. apply (H d e hs y y'); auto.
    intros [[a' s'] i']. destruct (active A N M (a', s', i')) eqn:Q.
    + apply active_iff in Q. destruct Q as (Ha' & Hs'' & Hi'). rewrite trunc_in by auto. now apply Hy.
    + rewrite Hv by auto. unfold trunc. rewrite Q, Rminus_0_r, Rabs_R0. lra.
Qed.
(** Whatever the method, the steps and the moving mesh: once the edge velocities and the source coefficients are Lipschitz
    in time, the error at every time is at most a constant times the error of the start plus the longest step.  The
    constant does not depend on the steps. *)
Theorem C184_slab : forall T c E D N_ang ws mus cc S0 st st' V t0 t1, consistent T ->
  fgeom c = Slab -> (2 <= fN c)%nat -> t0 <= t1 -> mesh_ok c E D t0 t1 ->
  (forall k, (k <= fN c)%nat -> continuous_on (D k) t0 t1 /\ lipschitz_on (D k) t0 t1) ->
  (forall s i, (s < fN c)%nat -> (i <= fM c)%nat -> continuous_on (S0 s i) t0 t1 /\ lipschitz_on (S0 s i) t0 t1) -> steady c t0 t1 ->
  solves c E D N_ang ws mus cc S0 st' V t0 t1 ->
  exists C d0, 0 <= C /\ 0 < d0 /\ forall d e hs y y', 0 <= d <= d0 -> 0 <= e -> (forall h, In h hs -> 0 <= h <= d) -> t0 + total hs <= t1 ->
    vector N_ang (fN c) (fM c) y -> rk_run T (slabR c E D N_ang ws mus cc S0 st) t0 y hs y' ->
    (forall a s i, (a < N_ang)%nat -> (s < fN c)%nat -> (i <= fM c)%nat -> Rabs (y (a, s, i) - V a s i t0) <= e) ->
    forall a s i, (a < N_ang)%nat -> (s < fN c)%nat -> (i <= fM c)%nat -> Rabs (y' (a, s, i) - V a s i (t0 + total hs)) <= C * (e + d).
Proof.
  intros T c E D N_ang ws mus cc S0 st st' V t0 t1 HT Hg HN Hle HM HD HS Hst HV.
  apply (rate_gen N_ang (fN c) (fM c) (slabR c E D N_ang ws mus cc S0 st) V t0 t1 T Hle HT).
  - intros a s i Ha Hs Hi. apply slabR_LF; auto; intros; [now apply HD|now apply HS].
  - intros a s i Ha Hs Hi. apply slabR_LL; auto; intros; [now apply HD|now apply HS].
  - intros t y [[a s] i] Q. unfold slabR. now rewrite Q.
  - intros t a s i Ht Ha Hs Hi. eapply dd_eq; [now apply HV|]. unfold slabR. rewrite (proj2 (active_iff _ _ _ a s i) (conj Ha (conj Hs Hi))).
    rewrite (rhsF_is c E D t0 t1 Hg HN HM (st t a s) N_ang ws mus cc t (fun j => S0 s j t) (fun q => trunc N_ang (fN c) (fM c) V q t) a s i Ht Hs).
    rewrite <- (rhsF_same c E D HN N_ang ws mus cc t (fun j => S0 s j t) (fun p => let '(a, s, i) := p in V a s i t)); auto.
    + apply (rhsF_is c E D t0 t1 Hg HN HM (st' t a s) N_ang ws mus cc t (fun j => S0 s j t) (fun p => let '(a, s, i) := p in V a s i t)); auto.
    + intros l k j Hl Hk Hj. symmetry. now apply trunc_in.
Qed.
Print Assumptions C184_slab.
Theorem C184_coupled : forall T c E D N_ang ws mus cc c_a l S0 st ste st' ste' V ee t0 t1, consistent T ->
  fgeom c = Slab -> (2 <= fN c)%nat -> t0 <= t1 -> mesh_ok c E D t0 t1 ->
  (forall k, (k <= fN c)%nat -> continuous_on (D k) t0 t1 /\ lipschitz_on (D k) t0 t1) ->
  (forall s i, (s < fN c)%nat -> (i <= fM c)%nat -> continuous_on (S0 s i) t0 t1 /\ lipschitz_on (S0 s i) t0 t1) -> steady c t0 t1 ->
  solves_thermal c E D N_ang ws mus cc c_a l ee S0 st' ste' V ee t0 t1 ->
  exists C d0, 0 <= C /\ 0 < d0 /\ forall d e hs y y', 0 <= d <= d0 -> 0 <= e -> (forall h, In h hs -> 0 <= h <= d) -> t0 + total hs <= t1 ->
    vector (S N_ang) (fN c) (fM c) y -> rk_run T (coupledR c E D N_ang ws mus cc c_a l S0 st ste) t0 y hs y' ->
    (forall s i, (s < fN c)%nat -> (i <= fM c)%nat -> Rabs (y (N_ang, s, i) - ee s i t0) <= e /\ forall a, (a < N_ang)%nat -> Rabs (y (a, s, i) - V a s i t0) <= e) ->
    forall s i, (s < fN c)%nat -> (i <= fM c)%nat -> Rabs (y' (N_ang, s, i) - ee s i (t0 + total hs)) <= C * (e + d) /\ forall a, (a < N_ang)%nat -> Rabs (y' (a, s, i) - V a s i (t0 + total hs)) <= C * (e + d).
Proof.
  intros T c E D N_ang ws mus cc c_a l S0 st ste st' ste' V ee t0 t1 HT Hg HN Hle HM HD HS Hst HV.
  pose (J := fun a s i => if (a =? N_ang)%nat then ee s i else V a s i).
  destruct (rate_gen (S N_ang) (fN c) (fM c) (coupledR c E D N_ang ws mus cc c_a l S0 st ste) J t0 t1 T Hle HT) as (C & d0 & PC & Pd & H); auto.
  - intros a s i Ha Hs Hi. apply coupledR_LF; auto; intros; [now apply HD|now apply HS].
  - intros a s i Ha Hs Hi. apply coupledR_LL; auto; intros; [now apply HD|now apply HS].
  - intros t y [[a s] i] Q. unfold coupledR. now rewrite Q.
  - intros t a s i Ht Ha Hs Hi. unfold coupledR. rewrite (proj2 (active_iff _ _ _ a s i) (conj Ha (conj Hs Hi))).
    pose (Y := fun p : idx => let '(a, s, i) := p in J a s i t).
    assert (SM : same c (S N_ang) Y (fun q => trunc (S N_ang) (fN c) (fM c) J q t)) by (intros l0 k j Hl Hk Hj; symmetry; now apply trunc_in).
    destruct (HV t Ht s i Hs Hi) as [D1 D2].
    assert (YE : (fun j => Y (N_ang, s, j)) = (fun j => ee s j t)) by (unfold Y, J; rewrite Nat.eqb_refl; reflexivity).
    assert (JV : forall l0 k j, (l0 < N_ang)%nat -> V l0 k j t = Y (l0, k, j)) by (intros l0 k j Hl; unfold Y, J; destruct (Nat.eqb_spec l0 N_ang); [lia|reflexivity]).
    unfold J at 1. destruct (Nat.eqb_spec a N_ang) as [->|Na].
    + eapply dd_eq; [exact D2|].
      rewrite (enerF_is c E D t0 t1 Hg HN HM (ste t s) N_ang ws c_a l t (fun j => S0 s j t) (fun q => trunc (S N_ang) (fN c) (fM c) J q t) s i) by auto.
      rewrite <- (enerF_same c E D HN N_ang ws c_a l t (fun j => S0 s j t) Y) by auto.
      rewrite <- (enerF_is c E D t0 t1 Hg HN HM (ste' t s) N_ang ws c_a l t (fun j => S0 s j t) Y s i) by auto. rewrite YE.
      unfold slab_energy. cbv zeta.
      replace (make_P N_ang ws (fun l0 j => Y (l0, s, j)) i) with (make_P N_ang ws (fun l0 j => V l0 s j t) i).
      2: { unfold make_P. apply sumn_ext. intros l0 Hl. cbv beta. now rewrite (JV l0 s i Hl). }
      replace (fun k j => Y (N_ang, k, j)) with (fun k j => ee k j t) by (unfold Y, J; rewrite Nat.eqb_refl; reflexivity). cbv beta. rewrite ?YE. reflexivity.
    + eapply dd_eq; [apply D1; lia|].
      rewrite (thermF_is c E D t0 t1 Hg HN HM (st t a s) N_ang ws mus cc c_a l t (fun j => S0 s j t) (fun q => trunc (S N_ang) (fN c) (fM c) J q t) a s i) by auto.
      rewrite <- (thermF_same c E D HN N_ang ws mus cc c_a l t (fun j => S0 s j t) Y) by (auto; lia).
      rewrite <- (thermF_is c E D t0 t1 Hg HN HM (st' t a s) N_ang ws mus cc c_a l t (fun j => S0 s j t) Y a s i) by auto. rewrite YE.
      unfold slab_rhs_thermal. cbv zeta.
      replace (make_P N_ang ws (fun l0 j => Y (l0, s, j)) i) with (make_P N_ang ws (fun l0 j => V l0 s j t) i).
      2: { unfold make_P. apply sumn_ext. intros l0 Hl. cbv beta. now rewrite (JV l0 s i Hl). }
      replace (fun k j => Y (a, k, j)) with (fun k j => V a k j t) by (unfold Y, J; rewrite (proj2 (Nat.eqb_neq a N_ang) Na); reflexivity).
      unfold Y, J. rewrite (proj2 (Nat.eqb_neq a N_ang) Na). reflexivity.
  - exists C, d0. split; auto. split; auto. intros d e hs y y' Hd He Hh Hs Hv Hr Hy s i Hs' Hi.
    assert (K : forall a, (a < S N_ang)%nat -> Rabs (y' (a, s, i) - J a s i (t0 + total hs)) <= C * (e + d)).
    { intros a Ha. apply (H d e hs y y'); auto. intros a' s' i' Ha' Hs'' Hi'. destruct (Hy s' i' Hs'' Hi') as [A B]. unfold J. destruct (Nat.eqb_spec a' N_ang) as [->|N]; [auto|apply B; lia]. }
    split; [specialize (K N_ang ltac:(lia)); unfold J in K; now rewrite Nat.eqb_refl in K|].
    intros a Ha. specialize (K a ltac:(lia)). unfold J in K. now rewrite (proj2 (Nat.eqb_neq a N_ang) ltac:(lia)) in K.
Qed.
Print Assumptions C184_coupled.
Lemma total_repeat h n : total (repeat h n) = INR n * h.
Proof. induction n as [|n IH]; [cbn; ring|]. rewrite S_INR. cbn [repeat total]. rewrite IH. ring. Qed.
(** Equal steps from the exact start: n of them leave an error of at most a constant over n, at every time reached on the way. *)
Theorem C184_equal_steps : forall T c E D N_ang ws mus cc S0 st y t0 t1, explicit T -> consistent T ->
  fgeom c = Slab -> (2 <= fN c)%nat -> t0 <= t1 -> mesh_ok c E D t0 t1 ->
  (forall k, (k <= fN c)%nat -> continuous_on (D k) t0 t1 /\ lipschitz_on (D k) t0 t1) ->
  (forall s i, (s < fN c)%nat -> (i <= fM c)%nat -> continuous_on (S0 s i) t0 t1 /\ lipschitz_on (S0 s i) t0 t1) -> steady c t0 t1 ->
  vector N_ang (fN c) (fM c) y ->
  exists V, solves c E D N_ang ws mus cc S0 st V t0 t1 /\ (forall a s i, V a s i t0 = y (a, s, i)) /\
  exists C n0, 0 <= C /\ forall n m, (n0 <= n)%nat -> (0 < n)%nat -> (m <= n)%nat ->
    (exists y', rk_run T (slabR c E D N_ang ws mus cc S0 st) t0 y (repeat ((t1 - t0) / INR n) m) y') /\
    forall y', rk_run T (slabR c E D N_ang ws mus cc S0 st) t0 y (repeat ((t1 - t0) / INR n) m) y' ->
      forall a s i, (a < N_ang)%nat -> (s < fN c)%nat -> (i <= fM c)%nat -> Rabs (y' (a, s, i) - V a s i (t0 + INR m / INR n * (t1 - t0))) <= C / INR n.
Proof.
  intros T c E D N_ang ws mus cc S0 st y t0 t1 HX HT Hg HN Hle HM HD HS Hst Hy.
  destruct (C131_exists c E D N_ang ws mus cc S0 st (fun a s i => y (a, s, i)) t0 t1) as (V & HV & H0); auto.
  { intros k Hk. now apply HD. } { intros s i Hs Hi. now apply HS. }
  exists V. split; auto. split; auto.
  destruct (C184_slab T c E D N_ang ws mus cc S0 st st V t0 t1 HT Hg HN Hle HM HD HS Hst HV) as (C & d0 & PC & Pd & H).
  destruct (nfloor_ex ((t1 - t0) / d0)) as (q & _ & Hq). { apply Rle_div_r; lra. }
  exists (C * (t1 - t0)), (S q). split; [apply Rmult_le_pos; lra|]. intros n m Hn Hn0 Hm.
  assert (Pn : 0 < INR n) by now apply lt_0_INR. assert (Mn : INR m <= INR n) by now apply le_INR.
  assert (P1 : 0 <= (t1 - t0) / INR n) by (apply Rle_div_r; lra).
  assert (P2 : (t1 - t0) / INR n <= d0).
  { apply (proj2 (Rle_div_l _ _ _ Pn)). apply le_INR in Hn. rewrite S_INR in Hn. assert ((t1 - t0) / d0 < INR n) by lra.
    apply Rlt_le. rewrite Rmult_comm. now apply (proj1 (Rlt_div_l _ _ _ Pd)). }
  assert (TT : total (repeat ((t1 - t0) / INR n) m) = INR m / INR n * (t1 - t0)) by (rewrite total_repeat; field; lra).
  split; [now apply explicit_run|]. intros y' Hr a s i Ha Hs Hi. rewrite <- TT.
  replace (C * (t1 - t0) / INR n) with (C * (0 + (t1 - t0) / INR n)) by (field; lra).
  apply (H ((t1 - t0) / INR n) 0 (repeat ((t1 - t0) / INR n) m) y y'); auto; try lra.
  - intros h Hh. apply repeat_spec in Hh. subst h. lra.
  - rewrite TT. assert (INR m / INR n <= 1) by (apply (proj2 (Rle_div_l _ _ _ Pn)); lra).
    assert (INR m / INR n * (t1 - t0) <= 1 * (t1 - t0)) by (apply Rmult_le_compat_r; lra). lra.
  - intros a' s' i' _ _ _. rewrite H0, Rminus_eq_0, Rabs_R0. lra.
Qed.
Print Assumptions C184_equal_steps.
(** the growing mesh with a source at its left end, started from nothing, by the method of 'RK45' *)
Example C184_example : exists V C n0, forall n, (n0 <= n)%nat -> (0 < n)%nat ->
  exists y', rk_run rk45 (slabR wC (fun k t => INR k * (1 + t)) (fun k _ => INR k) 2 (fun _ => 1 / 2) (fun a => if (a =? 0)%nat then -1 else 1) 1
    (fun _ _ t => t) (fun _ _ _ => {| sh := 0; shp := 0; shm := 0 |})) 0 (fun _ => 0) (repeat (1 / INR n) n) y' /\ Rabs (y' (1, 0, 0)%nat - V) <= C / INR n.
Proof.
  destruct (C184_equal_steps rk45 wC (fun k t => INR k * (1 + t)) (fun k _ => INR k) 2 (fun _ => 1 / 2) (fun a => if (a =? 0)%nat then -1 else 1) 1
    (fun _ _ t => t) (fun _ _ _ => {| sh := 0; shp := 0; shm := 0 |}) (fun _ => 0) 0 1) as (V & _ & _ & C & n0 & _ & H); try apply rk45_ok; try reflexivity; try (intros p _; reflexivity); try (cbn; lia); try lra.
  - intros t Ht. split.
    + intros k Hk. rewrite S_INR. assert (0 < 1 + t) by lra. lra.
    + intros k Hk. eapply dd_eq; [apply (dd_scal (fun t => 1 + t)); apply dd_plus; [apply dd_const|apply dd_id]|]. ring.
  - intros k Hk. split; [intros t Ht; apply cconst|apply Lp_const].
  - intros s i Hs Hi. split; [intros t Ht; apply cid|apply Lp_id].
  - apply C131_steady_when. right. split; [reflexivity|]. right. right. left. cbn. lra.
  - exists (V 1%nat 0%nat 0%nat 1), C, n0. intros n Hn Hn0. destruct (H n n Hn Hn0 (le_n n)) as [[y' Hr] Hc]. rewrite Rminus_0_r in Hr, Hc.
    exists y'. split; auto. specialize (Hc y' Hr 1 0 0)%nat.
    replace (0 + INR n / INR n * 1) with 1 in Hc by (field; apply not_0_INR; lia). apply Hc; cbn; lia.
Qed.
