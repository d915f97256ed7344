(** C139 for the coupled equations, and C141: steps of the implicit methods exist and are unique whatever their length. *)
From Coquelicot Require Import Coquelicot.
From Coq Require Import FunctionalExtensionality Classical_Prop.
From Verif Require Import Py PyLemmas Calc Legendre DGModel DGSpec DGProofs DGInt DGBalance StabSpec StabThms StabProofs SymSpec DepProofs DepThms ExistSpec ExistProofs RhsModel SphSpec SphExist ExistThms TimeModel TimeProofs TimeStab TimeSolve TimeThms TimeStabThms.

(** the weights of the coupled norm: a quarter for the material energy *)
Definition cws (A : nat) (ws : nat -> R) (a : nat) : R := if (a =? A)%nat then 1 / 4 else ws a.
Lemma cws_lt A ws a : (a < A)%nat -> cws A ws a = ws a.
Proof. intros H. unfold cws. destruct (Nat.eqb_spec a A); [lia|auto]. Qed.
Lemma cws_A A ws : cws A ws A = 1 / 4.
Proof. unfold cws. now rewrite Nat.eqb_refl. Qed.
Lemma coupled_wsum c A ws e (y z : idx -> R) : increasing (fN c) e ->
  energy c A ws e (fun a s j => y (a, s, j) - z (a, s, j)) + 1 / 4 * normsq c e (fun s j => y (A, s, j) - z (A, s, j)) =
  wsum c (S A) (cws A ws) (fun p => (y p - z p) * (y p - z p)).
Proof.
  intros He. unfold wsum. cbn [sumn]. rewrite cws_A, (energy_wsum c A ws e y z He). unfold wsum. f_equal.
  - apply sumn_ext. intros a Ha. now rewrite cws_lt.
  - f_equal. rewrite normsq_coef by exact He. apply sumn_ext. intros s _. apply sumn_ext. intros i _. ring.
Qed.
Lemma coupled_diss c E D A ws mus cc c_a l S0 st st' ste ste' t y z : fgeom c = Slab -> (2 <= fN c)%nat -> increasing (fN c) (fun k => E k t) ->
  (forall k, (k <= fN c)%nat -> is_derive (E k) t (D k t)) -> (forall a, (a < A)%nat -> 0 <= ws a) -> sumn A ws = 1 -> 0 <= c_a -> cc + c_a <= 1 -> 0 < l ->
  wsum c (S A) (cws A ws) (fun p => (y p - z p) * (coupledR c E D A ws mus cc c_a l S0 st ste t y p - coupledR c E D A ws mus cc c_a l S0 st' ste' t z p)) <= 0.
Proof.
  intros Hg HN He HD Hw H1 Hca Hcc Hl.
  pose (d := fun a s i => y (a, s, i) - z (a, s, i)).
  pose (r := fun a s i => slab_rhs_thermal (closed c) (st t a s) A ws mus cc c_a l t (fun k => E k t) (fun k => D k t) (fun j => d A s j) (fun _ => 0) d a s i).
  pose (q := fun s i => slab_energy (closed c) (ste t s) A ws c_a l t (fun k => E k t) (fun k => D k t) (fun j => d A s j) (fun _ => 0) d (d A) s i).
  pose (V := fun a s i w => d a s i + (w - t) * r a s i).
  pose (ee := fun s i w => d A s i + (w - t) * q s i).
  assert (Vt : (fun l k j => V l k j t) = d) by (unfold V; do 3 (apply functional_extensionality; intro); ring).
  assert (Et : (fun k j => ee k j t) = d A) by (unfold ee; do 2 (apply functional_extensionality; intro); ring).
  assert (Ej : forall s, (fun j => ee s j t) = d A s) by (intros s; unfold ee; apply functional_extensionality; intro; ring).
  assert (line : forall a b, is_derive (fun w => a + (w - t) * b) t b).
  { intros a b. eapply dd_eq; [apply dd_plus; [apply dd_const|apply (dd_mult (fun w => w - t) (fun _ => b)); [apply dd_minus; [apply dd_id|apply dd_const]|apply dd_const]]|]. ring. }
  assert (SV : solves_thermal (closed c) E D A ws mus cc c_a l ee (fun _ _ _ => 0) st ste V ee t t).
  { intros t' Ht' s i Hs Hi. replace t' with t in * by lra. rewrite Vt, Et, Ej. split; [intros a Ha; apply line|apply line]. }
  assert (MO : mesh_ok (closed c) E D t t) by (intros t' Ht'; replace t' with t in * by lra; split; auto).
  pose proof (C128_coupled_balance (closed c) E D A ws mus cc c_a l st ste V ee t t t Hg HN MO ltac:(lra) (closed_l c t) (closed_r c t) Hl SV) as HB. cbv zeta in HB.
  match type of HB with is_derive _ _ ?x => set (rate := x) in HB end.
  assert (Hn : rate <= 0).
  { unfold rate. 
    assert (JP : forall u mul, 0 <= sumn (S (fN (closed c))) (fun f => Rabs (mul - D f t) * (side_r (closed c) (fun k => E k t) u f - side_l (closed c) (fun k => E k t) u f) ^ 2)).
    { intros u mul. apply sumn_nonneg. intros f _. apply Rmult_le_pos; [apply Rabs_pos|apply pow2_ge_0]. }
    assert (JS : 0 <= sumn A (fun a => ws a * sumn (S (fN (closed c))) (fun f => Rabs (mus a - D f t) * (side_r (closed c) (fun k => E k t) (fun s j => V a s j t) f - side_l (closed c) (fun k => E k t) (fun s j => V a s j t) f) ^ 2))).
    { apply sumn_nonneg. intros a Hb. apply Rmult_le_pos; [auto|apply JP]. }
    assert (MN := mean_norm (closed c) t E He A ws V Hw H1). fold (energy (closed c) A ws (fun k => E k t) (fun a s j => V a s j t)) in MN.
    assert (N1 := normsq_nonneg (closed c) (fun k => E k t) (fun s j => sumn A (fun a => ws a * V a s j t)) He).
    assert (N2 := normsq_nonneg (closed c) (fun k => E k t) (fun s j => sumn A (fun a => ws a * V a s j t) - ee s j t / 2) He).
    specialize (JP (fun s j => ee s j t) 0).
    assert (P1 : 0 <= 2 / l) by (apply Rlt_le, Rdiv_lt_0_compat; lra).
    assert (P2 : 0 <= 2 * (1 - cc - c_a) / l) by (apply Rmult_le_pos; [lra|left; now apply Rinv_0_lt_compat]).
    assert (P3 : 0 <= 2 * c_a / l) by (apply Rmult_le_pos; [lra|left; now apply Rinv_0_lt_compat]).
    assert (Q1 := Rmult_le_pos _ _ P1 (proj1 (Rminus_le_0 _ _) MN)). assert (Q2 := Rmult_le_pos _ _ P2 N1). assert (Q3 := Rmult_le_pos _ _ P3 N2). lra. }
  clearbody rate.
  assert (Hd2 : is_derive (fun w => energy (closed c) A ws (fun k => E k w) (fun a s j => V a s j w) + 1 / 4 * normsq (closed c) (fun k => E k w) (fun s j => ee s j w)) t
     (2 * wsum c (S A) (cws A ws) (fun p => (y p - z p) * (coupledR c E D A ws mus cc c_a l S0 st ste t y p - coupledR c E D A ws mus cc c_a l S0 st' ste' t z p)))).
  { eapply dd_eq.
    - apply dd_plus; [|apply dd_scal; apply (norm_derive (closed c) t E (fun k => D k t) HN He HD ee q); intros s i Hs Hi; apply line].
      unfold energy. apply (dd_sumn A (fun a w => ws a * normsq (closed c) (fun k => E k w) (fun s j => V a s j w))). intros a Ha. apply dd_scal.
      apply (norm_derive (closed c) t E (fun k => D k t) HN He HD (fun s j => V a s j) (r a)). intros s i Hs Hi. apply line.
    - cbv beta. unfold wsum. cbn [sumn]. rewrite cws_A, Rmult_plus_distr_l. f_equal.
      + rewrite <- sumn_scal. apply sumn_ext. intros a Ha. rewrite cws_lt by auto. rewrite <- Rmult_assoc, (Rmult_comm 2), Rmult_assoc. f_equal.
        rewrite <- sumn_scal. apply sumn_ext. intros s Hs. rewrite <- sumn_scal. apply sumn_ext. intros i Hi. cbn [fM closed] in Hi. cbn [fN closed] in Hs.
        assert (Hi' : (i <= fM c)%nat) by lia. assert (Ha' : (a < S A)%nat) by lia. unfold coupledR. rewrite (proj2 (active_iff _ _ _ a s i) (conj Ha' (conj Hs Hi'))).
        destruct (Nat.eqb_spec a A); [lia|].
        rewrite (thermal_minus c t (fun k => E k t) (fun k => D k t) Hg HN He (st t a s) (st' t a s) A ws mus cc c_a l) by (auto; lra).
        unfold V. change (y (a, s, i) - z (a, s, i)) with (d a s i). unfold r, d. ring.
      + rewrite <- Rmult_assoc, (Rmult_comm 2), Rmult_assoc. f_equal.
        rewrite <- sumn_scal. apply sumn_ext. intros s Hs. rewrite <- sumn_scal. apply sumn_ext. intros i Hi. cbn [fM closed] in Hi. cbn [fN closed] in Hs.
        assert (Hi' : (i <= fM c)%nat) by lia. assert (Ha' : (A < S A)%nat) by lia. unfold coupledR. rewrite (proj2 (active_iff _ _ _ A s i) (conj Ha' (conj Hs Hi'))).
        rewrite Nat.eqb_refl. rewrite (energy_minus c t (fun k => E k t) (fun k => D k t) Hg HN He (ste t s) (ste' t s) A ws c_a l) by (auto; lra).
        unfold ee. change (y (A, s, i) - z (A, s, i)) with (d A s i). unfold q, d. ring. }
  assert (EQ := is_derive_unique _ _ _ HB). rewrite (is_derive_unique _ _ _ Hd2) in EQ. lra.
Qed.
(** The coupled equations with the emission of the Su-Olson closure: two runs of an algebraically stable method never move
    apart in the norm of C128. *)
Theorem C139_coupled_contractive : forall T c E D N_ang ws mus cc c_a l S0 st st' ste ste' t0 t1 hs y y' z z', algebraically_stable T -> consistent T ->
  fgeom c = Slab -> (2 <= fN c)%nat -> mesh_ok c E D t0 t1 ->
  (forall a, (a < N_ang)%nat -> 0 <= ws a) -> sumn N_ang ws = 1 -> 0 <= c_a -> cc + c_a <= 1 -> 0 < l ->
  (forall h, In h hs -> 0 <= h) -> t0 + total hs <= t1 ->
  rk_run T (coupledR c E D N_ang ws mus cc c_a l S0 st ste) t0 y hs y' -> rk_run T (coupledR c E D N_ang ws mus cc c_a l S0 st' ste') t0 z hs z' ->
  energy c N_ang ws (fun k => E k (t0 + total hs)) (fun a s j => y' (a, s, j) - z' (a, s, j)) + 1 / 4 * normsq c (fun k => E k (t0 + total hs)) (fun s j => y' (N_ang, s, j) - z' (N_ang, s, j)) <=
  energy c N_ang ws (fun k => E k t0) (fun a s j => y (a, s, j) - z (a, s, j)) + 1 / 4 * normsq c (fun k => E k t0) (fun s j => y (N_ang, s, j) - z (N_ang, s, j)).
Proof.
  intros T c E D N_ang ws mus cc c_a l S0 st st' ste ste' t0 t1 hs y y' z z' HA [_ Hc] Hg HN HM Hw H1 Hca Hcc Hl Hh Hs Ry Rz.
  assert (P : 0 <= total hs). { clear -Hh. induction hs as [|a hs IH]; cbn [total]; [lra|]. assert (0 <= a) by (apply Hh; now left). assert (0 <= total hs) by (apply IH; intros x Hx; apply Hh; now right). lra. }
  rewrite !coupled_wsum by (apply HM; lra).
  assert (Hw' : forall a, (a < S N_ang)%nat -> 0 <= cws N_ang ws a) by (intros a Ha; unfold cws; destruct (Nat.eqb_spec a N_ang); [lra|apply Hw; lia]).
  apply (run_dist idx (wsum c (S N_ang) (cws N_ang ws)) (wsum_plus c (S N_ang) (cws N_ang ws)) (wsum_scal c (S N_ang) (cws N_ang ws)) (fun f => wsum_nonneg c (S N_ang) (cws N_ang ws) f Hw') (wsum_ext c (S N_ang) (cws N_ang ws))
    (coupledR c E D N_ang ws mus cc c_a l S0 st ste) (coupledR c E D N_ang ws mus cc c_a l S0 st' ste') t0 t1 0) with (T := T) (hs := hs) (t := t0); auto; try lra.
  intros t u v Ht. destruct (HM t Ht). rewrite Ropp_0, Rmult_0_l. apply coupled_diss; auto.
Qed.
Print Assumptions C139_coupled_contractive.

(* ---------------------------------------------------------------- C141 *)
(** affine in the state *)
Definition AF (f : (idx -> R) -> R) : Prop := forall x z k, f (fun q => x q + k * z q) = f x + k * (f z - f (fun _ => 0)).
Lemma AF_proj p : AF (fun y => y p). Proof. intros x z k. ring. Qed.
Lemma AF_const a : AF (fun _ => a). Proof. intros x z k. ring. Qed.
Lemma AF_plus f g : AF f -> AF g -> AF (fun y => f y + g y). Proof. intros F G x z k. rewrite (F x z k), (G x z k). ring. Qed.
Lemma AF_minus f g : AF f -> AF g -> AF (fun y => f y - g y). Proof. intros F G x z k. rewrite (F x z k), (G x z k). ring. Qed.
Lemma AF_mult a f : AF f -> AF (fun y => a * f y). Proof. intros F x z k. rewrite (F x z k). ring. Qed.
Lemma AF_multr a f : AF f -> AF (fun y => f y * a). Proof. intros F x z k. rewrite (F x z k). ring. Qed.
Lemma AF_div a f : AF f -> AF (fun y => f y / a). Proof. intros F x z k. rewrite (F x z k). unfold Rdiv. ring. Qed.
Lemma AF_sumn n (f : nat -> (idx -> R) -> R) : (forall j, (j < n)%nat -> AF (f j)) -> AF (fun y => sumn n (fun j => f j y)).
Proof. intros H. induction n as [|n IH]; cbn [sumn]; [apply AF_const|]. apply AF_plus; [apply IH; intros; apply H; lia|apply H; lia]. Qed.
Lemma AF_ext f g : (forall y, f y = g y) -> AF f -> AF g. Proof. intros H F x z k. rewrite <- !H. apply F. Qed.
Section Aff.
Variables (c : flux_cfg) (E D : nat -> R -> R) (t : R).
Lemma field_AF a k e e' x : AF (fun y => field Slab (fM c) (fun j => y (a, k, j)) e e' x).
Proof. unfold field. apply (AF_sumn (fM c + 1) (fun j y => y (a, k, j) * basis Slab j x e e')). intros j _. apply AF_multr, AF_proj. Qed.
Lemma flux_AF a mul f : AF (fun y => flux c t (fun k => E k t) (fun k => D k t) (fun k j => y (a, k, j)) mul f).
Proof.
  unfold flux. apply AF_plus; apply AF_mult.
  - destruct f as [|k]; cbn [val_l]; [apply AF_const|apply field_AF].
  - unfold val_r. destruct (f <? fN c)%nat; [apply field_AF|apply AF_const].
Qed.
Lemma LUf_AF a s mul i : AF (fun y => LUf c t (fun k => E k t) (fun k => D k t) (fun k j => y (a, k, j)) s mul i).
Proof. unfold LUf. apply AF_minus; apply AF_mult, flux_AF. Qed.
Lemma dot_AF a s i A : AF (fun y => dotv (fM c + 1) A (fun j => y (a, s, j)) i).
Proof. unfold dotv. apply (AF_sumn (fM c + 1) (fun j y => A i j * y (a, s, j))). intros. apply AF_mult, AF_proj. Qed.
Lemma P_AF A ws s i : AF (fun y => make_P A ws (fun l j => y (l, s, j)) i).
Proof. unfold make_P. apply (AF_sumn A (fun l y => y (l, s, i) * ws l)). intros. apply AF_multr, AF_proj. Qed.
Lemma rhsF_AF A ws mus cc S0 a s i : AF (fun y => rhsF c E D A ws mus cc t S0 y a s i).
Proof.
  unfold rhsF. apply AF_plus; [|apply AF_const]. apply AF_plus; [|apply AF_mult, P_AF]. apply AF_minus; [|apply AF_proj].
  apply AF_plus; [|apply AF_mult, dot_AF]. apply AF_minus; [apply dot_AF|apply LUf_AF].
Qed.
Lemma thermF_AF A ws mus cc c_a l S0 a s i : AF (fun y => thermF c E D A ws mus cc c_a l t S0 y a s i).
Proof.
  unfold thermF. cbv zeta.
  assert (T : AF (fun y => dotv (fM c + 1) (G_slab (E s t) (E (S s) t) (D s t) (D (S s) t)) (fun j => y (a, s, j)) i
    - LUf c t (fun k => E k t) (fun k => D k t) (fun k j => y (a, k, j)) s (mus a) i
    + mus a * dotv (fM c + 1) (L_slab (E s t) (E (S s) t)) (fun j => y (a, s, j)) i - y (a, s, i) / l)).
  { apply AF_minus; [|apply (AF_div l (fun y => y (a, s, i))), AF_proj]. apply AF_plus; [|apply AF_mult, dot_AF]. apply AF_minus; [apply dot_AF|apply LUf_AF]. }
  assert (H : AF (fun y => c_a * (1 / 2) * y (A, s, i) / l)) by (apply (AF_div l (fun y => c_a * (1 / 2) * y (A, s, i))), AF_mult, AF_proj).
  destruct (uncollided_on c).
  - apply AF_plus; auto. apply AF_plus; auto. apply (AF_div l (fun y => cc * (make_P A ws (fun l0 j => y (l0, s, j)) i + S0 i * (1 / 2)))), AF_mult, AF_plus; [apply P_AF|apply AF_const].
  - apply AF_plus; auto. apply AF_plus; [|apply AF_const]. apply AF_plus; auto. apply (AF_div l (fun y => cc * make_P A ws (fun l0 j => y (l0, s, j)) i)), AF_mult, P_AF.
Qed.
Lemma enerF_AF A ws c_a l S0 s i : AF (fun y => enerF c E D A ws c_a l t S0 y s i).
Proof.
  unfold enerF. cbv zeta.
  assert (T : AF (fun y => dotv (fM c + 1) (G_slab (E s t) (E (S s) t) (D s t) (D (S s) t)) (fun j => y (A, s, j)) i
    - LUf c t (fun k => E k t) (fun k => D k t) (fun k j => y (A, k, j)) s 0 i
    + c_a * (2 * make_P A ws (fun l j => y (l, s, j)) i - y (A, s, i)) / l)).
  { apply AF_plus; [apply AF_minus; [apply dot_AF|apply LUf_AF]|].
    apply (AF_div l (fun y => c_a * (2 * make_P A ws (fun l j => y (l, s, j)) i - y (A, s, i)))), AF_mult, AF_minus; [apply AF_mult, P_AF|apply AF_proj]. }
  destruct (uncollided_on c); auto. apply AF_plus; auto. apply AF_const.
Qed.
End Aff.
Lemma actives_nodup A N M : NoDup (actives A N M).
Proof. unfold actives. apply NoDup_prod; [apply NoDup_prod|]; apply seq_NoDup. Qed.
Lemma idx_eqd : forall p q : idx, {p = q} + {p <> q}.
Proof. repeat decide equality. Qed.
Lemma wsum_lsum c A ws f : wsum c A ws f = lsum (actives A (fN c) (fM c)) (fun p => ws (fst (fst p)) * f p).
Proof.
  unfold actives, wsum. rewrite lsum_prod, lsum_prod, lsum_seq. apply sumn_ext. intros a Ha. rewrite lsum_seq, <- sumn_scal. apply sumn_ext. intros s Hs.
  rewrite lsum_seq, <- sumn_scal. reflexivity.
Qed.
Lemma vector_supported A N M y : vector A N M y <-> supported (actives A N M) y.
Proof.
  split; intros H [[a s] i] Hp; apply H.
  - destruct (active A N M (a, s, i)) eqn:Q; auto. exfalso. apply Hp. apply actives_in. now apply active_iff in Q.
  - intros X. apply actives_in in X. apply active_iff in X. congruence.
Qed.
(** every list of steps has exactly one run *)
Definition all_runs (T : tableau) (F : R -> (idx -> R) -> idx -> R) (A N M : nat) (t0 t1 : R) : Prop :=
  forall hs t y, t0 <= t -> (forall h, In h hs -> 0 <= h) -> t + total hs <= t1 -> vector A N M y ->
  (exists y', vector A N M y' /\ rk_run T F t y hs y') /\ forall y' y'', rk_run T F t y hs y' -> rk_run T F t y hs y'' -> forall p, y' p = y'' p.
Lemma all_runs_gen T F c A ws t0 t1 : coercive T -> consistent T -> (forall a, (a < A)%nat -> 0 < ws a) ->
  (forall t y p, active A (fN c) (fM c) p = false -> F t y p = 0) ->
  (forall t a s i, t0 <= t <= t1 -> (a < A)%nat -> (s < fN c)%nat -> (i <= fM c)%nat -> AF (fun y => F t y (a, s, i))) ->
  (forall t y z, t0 <= t <= t1 -> wsum c A ws (fun p => (y p - z p) * (F t y p - F t z p)) <= 0) -> all_runs T F A (fN c) (fM c) t0 t1.
Proof.
  intros HC [_ HT] Hw HO HF HD hs t y Ht Hh Hs Hy.
  destruct (coercive_run (0%nat, 0%nat, 0%nat) idx_eqd (actives A (fN c) (fM c)) (actives_nodup _ _ _) (fun p => ws (fst (fst p)))) with (F := F) (t0 := t0) (t1 := t1) (T := T) (hs := hs) (t := t) (y := y) as [(y' & Sy & Ry) U]; auto.
  - intros [[a s] i] Hp. apply actives_in in Hp. apply Hw. apply Hp.
  - intros t' u [[a s] i] Hp. apply HO. destruct (active A (fN c) (fM c) (a, s, i)) eqn:Q; auto. exfalso. apply Hp, actives_in. now apply active_iff in Q.
  - intros t' x z k [[a s] i] Ht' Hp. apply actives_in in Hp. destruct Hp as (Ha & Hs' & Hi). apply (HF t' a s i Ht' Ha Hs' Hi).
  - intros t' u v Ht'. specialize (HD t' u v Ht'). rewrite wsum_lsum in HD. exact HD.
  - now apply vector_supported.
  - split; auto. exists y'. split; auto. now apply vector_supported.
Qed.
(** Radau and implicit Euler are coercive *)
Lemma implicit_euler_coercive : coercive implicit_euler.
Proof.
  exists (fun _ _ => 1), (fun _ => 1). cbn [rs implicit_euler rA sumn]. repeat split.
  - intros i k Hi Hk. destruct (Nat.eqb_spec i k); [ring|lia].
  - intros i k Hi Hk. destruct (Nat.eqb_spec i k); [ring|lia].
  - intros; lra.
  - intros v (i & Hi & N). replace i with 0%nat in N by lia. assert (0 < v 0%nat * v 0%nat) by nra. lra.
Qed.
Lemma radau_coercive : coercive radau.
Proof.
  destruct sqrt6 as [S2 B]. set (s := sqrt 6) in *.
  exists (fun i j => nth j (nth i [[2 + s / 2; -6 / 5 + 29 / 30 * s; 2 / 5 - 4 / 15 * s]; [-6 / 5 - 29 / 30 * s; 2 - s / 2; 2 / 5 + 4 / 15 * s]; [-1 + 8 / 3 * s; -1 - 8 / 3 * s; 5]] []) 0),
    (fun i => nth i [29 / 18 + s / 3; 29 / 18 - s / 3; 1 / 9] 0).
  unfold radau. fold s. cbn [rs rA]. repeat split.
  - intros i k Hi Hk. do 3 (destruct i as [|i]; [do 3 (destruct k as [|k]; [cbn [sumn nth Nat.eqb]; nra|]); lia|]). lia.
  - intros i k Hi Hk. do 3 (destruct i as [|i]; [do 3 (destruct k as [|k]; [cbn [sumn nth Nat.eqb]; nra|]); lia|]). lia.
  - intros i Hi. do 3 (destruct i as [|i]; [cbn [nth]; nra|]). lia.
  - intros v H. cbn [sumn nth].
    match goal with |- 0 < ?x => replace x with ((38 / 9 + 53 / 36 * s) * (v 0%nat * v 0%nat) + (38 / 9 - 53 / 36 * s) * (v 1%nat * v 1%nat) + 5 / 9 * (v 2%nat * v 2%nat)) end.
    + assert (s < 5 / 2) by nra.
      assert (P : forall x : R, 0 <= x * x) by (intros; nra). assert (P' : forall x : R, x <> 0 -> 0 < x * x) by (intros; nra).
      pose proof (P (v 0%nat)). pose proof (P (v 1%nat)). pose proof (P (v 2%nat)).
      assert (0 <= (38 / 9 + 53 / 36 * s) * (v 0%nat * v 0%nat)) by (apply Rmult_le_pos; lra).
      assert (0 <= (38 / 9 - 53 / 36 * s) * (v 1%nat * v 1%nat)) by (apply Rmult_le_pos; lra).
      destruct H as (i & Hi & N). apply P' in N. destruct i as [|[|[|i]]]; [| | |lia].
      * assert (0 < (38 / 9 + 53 / 36 * s) * (v 0%nat * v 0%nat)) by (apply Rmult_lt_0_compat; lra). lra.
      * assert (0 < (38 / 9 - 53 / 36 * s) * (v 1%nat * v 1%nat)) by (apply Rmult_lt_0_compat; lra). lra.
      * lra.
    + assert (S3 : s ^ 2 = 6) by (cbn; rewrite Rmult_1_r; auto). field_simplify. rewrite ?S3. field.
Qed.
Theorem C141_methods : (coercive implicit_euler /\ consistent implicit_euler) /\ coercive radau /\ consistent radau.
Proof.
  split; [split; [apply implicit_euler_coercive|]|split; [apply radau_coercive|apply C139_radau]].
  split; [cbn; lra|intros; cbn; lra].
Qed.
Print Assumptions C141_methods.
Theorem C141_slab : forall T c E D N_ang ws mus cc S0 st t0 t1, coercive T -> consistent T ->
  fgeom c = Slab -> (2 <= fN c)%nat -> mesh_ok c E D t0 t1 -> (forall a, (a < N_ang)%nat -> 0 < ws a) -> sumn N_ang ws = 1 -> 0 <= cc <= 1 ->
  all_runs T (slabR c E D N_ang ws mus cc S0 st) N_ang (fN c) (fM c) t0 t1.
Proof.
  intros T c E D N_ang ws mus cc S0 st t0 t1 HC HT Hg HN HM Hw H1 Hc.
  assert (Hw' : forall a, (a < N_ang)%nat -> 0 <= ws a) by (intros a Ha; left; auto).
  apply (all_runs_gen T _ c N_ang ws t0 t1 HC HT Hw).
  - intros t y [[a s] i] Q. unfold slabR. now rewrite Q.
  - intros t a s i Ht Ha Hs Hi. apply (AF_ext (fun y => rhsF c E D N_ang ws mus cc t (fun j => S0 s j t) y a s i)); [|apply rhsF_AF].
    intros y. unfold slabR. rewrite (proj2 (active_iff _ _ _ a s i) (conj Ha (conj Hs Hi))). symmetry. now apply (rhsF_is c E D t0 t1 Hg HN HM).
  - intros t y z Ht. destruct (HM t Ht). eapply Rle_trans; [apply slab_diss; auto; lra|].
    assert (0 <= wsum c N_ang ws (fun p => (y p - z p) * (y p - z p))) by (apply wsum_nonneg; auto; intros p _ || intros p; apply Rle_0_sqr).
    set (n := wsum _ _ _ _) in *. clearbody n. nra.
Qed.
Print Assumptions C141_slab.
Theorem C141_coupled : forall T c E D N_ang ws mus cc c_a l S0 st ste t0 t1, coercive T -> consistent T ->
  fgeom c = Slab -> (2 <= fN c)%nat -> mesh_ok c E D t0 t1 -> (forall a, (a < N_ang)%nat -> 0 < ws a) -> sumn N_ang ws = 1 -> 0 <= c_a -> cc + c_a <= 1 -> 0 < l ->
  all_runs T (coupledR c E D N_ang ws mus cc c_a l S0 st ste) (S N_ang) (fN c) (fM c) t0 t1.
Proof.
  intros T c E D N_ang ws mus cc c_a l S0 st ste t0 t1 HC HT Hg HN HM Hw H1 Hca Hc Hl.
  assert (Hw' : forall a, (a < N_ang)%nat -> 0 <= ws a) by (intros a Ha; left; auto).
  apply (all_runs_gen T _ c (S N_ang) (cws N_ang ws) t0 t1 HC HT).
  - intros a Ha. unfold cws. destruct (Nat.eqb_spec a N_ang); [lra|apply Hw; lia].
  - intros t y [[a s] i] Q. unfold coupledR. now rewrite Q.
  - intros t a s i Ht Ha Hs Hi.
    apply (AF_ext (fun y => if (a =? N_ang)%nat then enerF c E D N_ang ws c_a l t (fun j => S0 s j t) y s i else thermF c E D N_ang ws mus cc c_a l t (fun j => S0 s j t) y a s i)).
    + intros y. unfold coupledR. rewrite (proj2 (active_iff _ _ _ a s i) (conj Ha (conj Hs Hi))). symmetry.
      destruct (a =? N_ang)%nat; [now apply (enerF_is c E D t0 t1 Hg HN HM)|now apply (thermF_is c E D t0 t1 Hg HN HM)].
    + destruct (a =? N_ang)%nat; [apply enerF_AF|apply thermF_AF].
  - intros t y z Ht. destruct (HM t Ht). apply coupled_diss; auto.
Qed.
Print Assumptions C141_coupled.
Example C141_example : forall h y, 0 <= h -> vector 1 2 0 y -> exists y', vector 1 2 0 y' /\
  rk_step radau (slabR sC gE gD 1 (fun _ => 1) (fun _ => 1) 1 (fun _ _ _ => 0) (fun _ _ _ => s0)) 0 h y y'.
Proof.
  intros h y Hh Hy. destruct C141_methods as [_ [HC HT]].
  destruct (C141_slab radau sC gE gD 1 (fun _ => 1) (fun _ => 1) 1 (fun _ _ _ => 0) (fun _ _ _ => s0) 0 h HC HT) with (hs := [h]) (t := 0) (y := y) as [(y' & Vy & m & R1 & R2) _]; auto; try (cbn; lra || lia).
  - apply C127_example_mesh. lra.
  - intros; lra.
  - intros x [<-|[]]. exact Hh.
  - exists y'. split; auto. cbn [rk_run] in R2. replace y' with m; [exact R1|]. apply functional_extensionality. intros p. now rewrite R2.
Qed.
(** The length matters where particles multiply: two secondaries for each collision, particles at rest, one time unit. *)
Theorem C141_multiplying_refuted : exists c E D N_ang ws mus cc S0 st y, fgeom c = Slab /\ (2 <= fN c)%nat /\ mesh_ok c E D 0 1 /\
  (forall a, (a < N_ang)%nat -> 0 < ws a) /\ sumn N_ang ws = 1 /\ vector N_ang (fN c) (fM c) y /\
  (exists V, solves c E D N_ang ws mus cc S0 st V 0 1 /\ forall a s i, V a s i 0 = y (a, s, i)) /\
  ~ exists y', rk_step implicit_euler (slabR c E D N_ang ws mus cc S0 st) 0 1 y y'.
Proof.
  exists sC, sE, (fun _ _ => 0), 1%nat, (fun _ => 1), (fun _ => 0), 2, (fun _ _ _ => 0), (fun _ _ _ => s0), (right_cell 1).
  assert (MM : mesh_ok sC sE (fun _ _ => 0) 0 1) by apply C103_example_mesh.
  assert (Hr : forall t y s, 0 <= t <= 1 -> (s < 2)%nat -> slab_rhs sC s0 1 (fun _ => 1) (fun _ => 0) 2 t (fun k => sE k t) (fun _ => 0) (fun _ => 0) (fun l k j => y (l, k, j)) 0 s 0 = y (0, s, 0)%nat).
  { intros t y s Ht Hs. etransitivity; [apply (rhsF_is sC sE (fun _ _ => 0) 0 1); auto; cbn; lia|].
    unfold rhsF, LUf, flux, dotv, make_P, G_slab, L_slab, L_const. replace (0 - 0) with 0 by ring. rewrite (Rmax_left 0 0), (Rmin_left 0 0) by lra.
    cbn [fM sC Nat.add sumn Nat.eqb Nat.ltb Nat.leb]. unfold sE. rewrite S_INR. field. lra. }
  split; [reflexivity|]. split; [cbn; lia|]. split; [exact MM|]. split; [intros; lra|]. split; [cbn; ring|]. split.
  { intros [[a s] i] H. unfold right_cell. destruct (Nat.eqb_spec a 0); cbn [andb]; auto. destruct (Nat.eqb_spec s 1); cbn [andb]; auto. destruct (Nat.eqb_spec i 0); auto. subst. discriminate. }
  split.
  - exists (fun a s i t => right_cell (exp t) (a, s, i)). split.
    + intros t Ht a s i Ha Hs Hi. cbn [fM fN sC] in *. assert (a = 0 /\ i = 0)%nat as [-> ->] by lia.
      rewrite (Hr t (right_cell (exp t)) s Ht Hs). unfold right_cell. cbn [Nat.eqb andb]. destruct (s =? 1)%nat; cbn [andb]; [apply is_derive_exp|apply dd_const].
    + intros a s i. now rewrite exp_0.
  - intros (y' & K & HK & Hy'). specialize (HK 0%nat (0, 1, 0)%nat ltac:(cbn; lia)).
    unfold slabR in HK at 1. change (active 1 (fN sC) (fM sC) (0%nat, 1%nat, 0%nat)) with true in HK. cbv iota in HK.
    rewrite Hr in HK by (lia || (cbn; lra)). unfold stage in HK. cbn in HK. lra.
Qed.
Print Assumptions C141_multiplying_refuted.
