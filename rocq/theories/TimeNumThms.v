(** C140: the number of particles in a step of the time integration. *)
From Coquelicot Require Import Coquelicot.
From Coq Require Import FunctionalExtensionality.
From Verif Require Import Py PyLemmas Calc Legendre DGModel DGSpec DGProofs DGInt DGBalance DGFinal DGThms StabSpec StabThms StabProofs ExistProofs SphExist ExistThms DepThms TimeModel TimeProofs TimeStab TimeThms TimeStabThms.

(** the integral of the expansions over the mesh e, averaged over the directions *)
Definition particles (c : flux_cfg) (N_ang : nat) (ws : nat -> R) (e : nat -> R) (y : idx -> R) : R :=
  sumn N_ang (fun a => ws a * sumn (fN c) (fun s => RInt (field Slab (fM c) (fun j => y (a, s, j)) (e s) (e (S s))) (e s) (e (S s)))).
Lemma particles_coef c A ws e y : increasing (fN c) e ->
  particles c A ws e y = sumn A (fun a => ws a * sumn (fN c) (fun s => sqrt (e (S s) - e s) * y (a, s, 0%nat))).
Proof.
  intros He. unfold particles. apply sumn_ext. intros a _. f_equal. apply sumn_ext. intros s Hs. apply int_uniq. apply (int_field (fM c) (fun j => y (a, s, j))). now apply He.
Qed.
Lemma particles_line c A ws e y k h n (b : nat -> R) : increasing (fN c) e ->
  particles c A ws e (fun p => y p + h * sumn n (fun i => b i * k i p)) = particles c A ws e y + h * sumn n (fun i => b i * particles c A ws e (k i)).
Proof.
  intros He. rewrite !particles_coef by auto.
  rewrite (sumn_ext n (fun i => b i * particles c A ws e (k i)) (fun i => sumn A (fun a => b i * (ws a * sumn (fN c) (fun s => sqrt (e (S s) - e s) * k i (a, s, 0%nat)))))).
  2: { intros i _. rewrite particles_coef by auto. rewrite <- sumn_scal. reflexivity. }
  rewrite sumn_swap, <- sumn_scal, <- sumn_plus. apply sumn_ext. intros a _.
  rewrite (sumn_ext n _ (fun i => ws a * sumn (fN c) (fun s => b i * (sqrt (e (S s) - e s) * k i (a, s, 0%nat))))).
  2: { intros i _. rewrite sumn_scal. ring. }
  rewrite sumn_scal, sumn_swap.
  replace (h * (ws a * sumn (fN c) (fun j => sumn n (fun i => b i * (sqrt (e (S j) - e j) * k i (a, j, 0%nat)))))) with
    (ws a * sumn (fN c) (fun j => h * sumn n (fun i => b i * (sqrt (e (S j) - e j) * k i (a, j, 0%nat))))) by (rewrite sumn_scal; ring).
  rewrite <- Rmult_plus_distr_l, <- sumn_plus. f_equal. apply sumn_ext. intros s _.
  rewrite (sumn_ext n (fun i => b i * (sqrt (e (S s) - e s) * k i (a, s, 0%nat))) (fun i => sqrt (e (S s) - e s) * (b i * k i (a, s, 0%nat)))) by (intros; ring).
  rewrite sumn_scal. ring.
Qed.
(** what enters minus what leaves, in state y *)
Definition net_inflow (c : flux_cfg) (N_ang : nat) (ws mus : nat -> R) (t : R) (e : nat -> R) (y : idx -> R) (q : R) : Prop :=
  exists v0 vN : nat -> R, (forall a, (a < N_ang)%nat -> face c t e (fun _ => 0) (fun s j => y (a, s, j)) (mus a) (fun _ => 0) 0 (v0 a) /\
     face c t e (fun _ => 0) (fun s j => y (a, s, j)) (mus a) (fun _ => 0) (fN c) (vN a)) /\
   q = sumn N_ang (fun a => ws a * (mus a * (v0 a - vN a))).
Definition produced (c : flux_cfg) (e : nat -> R) (S0 : nat -> nat -> R -> R) (t : R) : R := sumn (fN c) (fun s => RInt (field Slab (fM c) (fun j => S0 s j t) (e s) (e (S s))) (e s) (e (S s))).
(** the rate on a mesh at rest *)
Lemma faces_exist c t e D y mus A : (2 <= fN c)%nat -> increasing (fN c) e -> exists v0 vN : nat -> R, forall a, (a < A)%nat ->
  face c t e D (fun s j => y (a, s, j)) (mus a) (fun _ => 0) 0 (v0 a) /\ face c t e D (fun s j => y (a, s, j)) (mus a) (fun _ => 0) (fN c) (vN a).
Proof.
  intros HN He. induction A as [|A (v0 & vN & H)]; [exists (fun _ => 0), (fun _ => 0); intros; lia|].
  destruct (face_exists c t e D (fun s j : nat => y (A, s, j)) (mus A) (fun _ => 0) HN He 0%nat ltac:(lia)) as (x & X).
  destruct (face_exists c t e D (fun s j : nat => y (A, s, j)) (mus A) (fun _ => 0) HN He (fN c) ltac:(lia)) as (z & Z).
  exists (fun a => if (a =? A)%nat then x else v0 a), (fun a => if (a =? A)%nat then z else vN a). intros a Ha.
  destruct (Nat.eqb_spec a A) as [->|N]; [now split|]. apply H. lia.
Qed.
Lemma static_rate c e A ws mus cc S0 st t y : fgeom c = Slab -> (2 <= fN c)%nat -> increasing (fN c) e -> sumn A ws = 1 ->
  exists q, net_inflow c A ws mus t e y q /\
  particles c A ws e (slabR c (fun k _ => e k) (fun _ _ => 0) A ws mus cc S0 st t y) = q - (1 - cc) * particles c A ws e y + 1 / 2 * produced c e S0 t.
Proof.
  intros Hg HN He H1. destruct (faces_exist c t e (fun _ => 0) y mus A HN He) as (v0 & vN & HF).
  exists (sumn A (fun a => ws a * (mus a * (v0 a - vN a)))). split; [exists v0, vN; auto|].
  pose (F := slabR c (fun k _ => e k) (fun _ _ => 0) A ws mus cc S0 st t y).
  assert (K : forall a, (a < A)%nat -> sumn (fN c) (fun s => sqrt (e (S s) - e s) * F (a, s, 0%nat)) =
    mus a * (v0 a - vN a) - sumn (fN c) (fun s => sqrt (e (S s) - e s) * y (a, s, 0%nat)) + cc * particles c A ws e y + 1 / 2 * produced c e S0 t).
  { intros a Ha. destruct (HF a Ha) as [F0 FN].
    pose (V := fun a s i w => y (a, s, i) + (w - t) * F (a, s, i)).
    assert (Vt : (fun l k j => V l k j t) = (fun l k j => y (l, k, j))) by (unfold V; do 3 (apply functional_extensionality; intro); ring).
    assert (DV : forall s, is_derive (V a s 0%nat) t (F (a, s, 0%nat))).
    { intros s. unfold V. eapply dd_eq; [apply dd_plus; [apply dd_const|apply (dd_mult (fun w => w - t) (fun _ => F (a, s, 0%nat))); [apply dd_minus; [apply dd_id|apply dd_const]|apply dd_const]]|]. ring. }
    assert (HD0 : forall k, (k <= fN c)%nat -> is_derive (fun _ : R => e k) t 0) by (intros k _; exact (dd_const (e k) t)).
    assert (B := C24_slab_total_balance c t (fun k _ => e k) (fun _ => 0) Hg HN He HD0 A ws mus (fun s => st t a s) cc (fun s j => S0 s j t) V a (v0 a) (vN a)).
    rewrite Vt in B. change (fun k j : nat => V a k j t) with ((fun l k j : nat => V l k j t) a) in B. rewrite Vt in B.
    specialize (B ltac:(intros s Hs; eapply dd_eq; [apply DV|]; unfold F, slabR; rewrite (proj2 (active_iff _ _ _ a s 0%nat) (conj Ha (conj Hs (Nat.le_0_l _)))); reflexivity) F0 FN).
    assert (B2 : is_derive (fun w => sumn (fN c) (fun s => content c (fun k _ => e k) (V a s) s w)) t (sumn (fN c) (fun s => sqrt (e (S s) - e s) * F (a, s, 0%nat)))).
    { apply (dd_ext (fun w => sumn (fN c) (fun s => sqrt (e (S s) - e s) * V a s 0%nat w))).
      - intros w. apply sumn_ext. intros s Hs. symmetry. apply (content_now c w (fun k _ => e k) He (V a s) s Hs).
      - apply (StabProofs.dd_sumn (fN c) (fun s w => sqrt (e (S s) - e s) * V a s 0%nat w)). intros s Hs. apply dd_scal. apply DV. }
    apply is_derive_unique in B. apply is_derive_unique in B2. etransitivity; [symmetry; exact B2|]. etransitivity; [exact B|]. clear B B2. match goal with |- ?a = ?b => change (@eq R a b) end.
    rewrite !Rminus_0_r.
    match goal with |- _ + sumn (fN c) ?f = _ => replace (sumn (fN c) f) with (sumn (fN c) (fun s => (-1) * (sqrt (e (S s) - e s) * y (a, s, 0%nat))
      + cc * sumn A (fun l => ws l * (sqrt (e (S s) - e s) * y (l, s, 0%nat))) + 1 / 2 * scontent c e (fun j => S0 s j t) s)) end.
    2: { apply sumn_ext. intros s Hs. f_equal. f_equal.
         - pose proof (content_now c t (fun k _ => e k) He (V a s) s Hs) as X. unfold V in X at 2. transitivity (- (sqrt (e (S s) - e s) * (y (a, s, 0%nat) + (t - t) * F (a, s, 0%nat)))); [ring|]. f_equal. symmetry. exact X.
         - f_equal. apply sumn_ext. intros l Hl. f_equal. pose proof (content_now c t (fun k _ => e k) He (V l s) s Hs) as X. unfold V in X at 2.
           transitivity (sqrt (e (S s) - e s) * (y (l, s, 0%nat) + (t - t) * F (l, s, 0%nat))); [ring|]. symmetry. exact X. }
    rewrite sumn_plus, sumn_plus, sumn_scal.
    rewrite sumn_scal, sumn_swap, sumn_scal. rewrite particles_coef by auto.
    rewrite (sumn_ext A (fun i => sumn (fN c) (fun j => ws i * (sqrt (e (S j) - e j) * y (i, j, 0%nat)))) (fun i => ws i * sumn (fN c) (fun s => sqrt (e (S s) - e s) * y (i, s, 0%nat)))) by (intros; apply sumn_scal).
    unfold produced, scontent. ring. }
  fold F. rewrite (particles_coef c A ws e F He).
  rewrite (sumn_ext A _ (fun a => ws a * (mus a * (v0 a - vN a)) - ws a * sumn (fN c) (fun s => sqrt (e (S s) - e s) * y (a, s, 0%nat)) + (cc * particles c A ws e y + 1 / 2 * produced c e S0 t) * ws a)).
  2: { intros a Ha. rewrite (K a Ha). ring. }
  rewrite sumn_plus, sumn_minus, sumn_scal, H1. rewrite <- (particles_coef c A ws e y He). ring.
Qed.
(** On a mesh at rest every Runge-Kutta step keeps the balance exactly: the number changes by the weighted sum, over
    the stages, of what enters minus what leaves, the removal and the source, whatever the length of the step. *)
Theorem C140_static_balance : forall T c e N_ang ws mus cc S0 st t h y y',
  fgeom c = Slab -> (2 <= fN c)%nat -> increasing (fN c) e -> sumn N_ang ws = 1 ->
  rk_step T (slabR c (fun k _ => e k) (fun _ _ => 0) N_ang ws mus cc S0 st) t h y y' ->
  exists (Y : nat -> idx -> R) (q : nat -> R),
   (forall i p, (i < rs T)%nat -> Y i p = y p + h * sumn (rs T) (fun j => rA T i j * slabR c (fun k _ => e k) (fun _ _ => 0) N_ang ws mus cc S0 st (t + rc T j * h) (Y j) p)) /\
   (forall i, (i < rs T)%nat -> net_inflow c N_ang ws mus (t + rc T i * h) e (Y i) (q i)) /\
   particles c N_ang ws e y' = particles c N_ang ws e y + h * sumn (rs T) (fun i => rb T i *
     (q i - (1 - cc) * particles c N_ang ws e (Y i) + 1 / 2 * produced c e S0 (t + rc T i * h))).
Proof.
  intros T c e N_ang ws mus cc S0 st t h y y' Hg HN He H1 (k & Hk & Hy).
  set (F := slabR c (fun k _ => e k) (fun _ _ => 0) N_ang ws mus cc S0 st) in *.
  assert (Q : forall n, exists q : nat -> R, forall i, (i < n)%nat -> net_inflow c N_ang ws mus (t + rc T i * h) e (stage T h y k i) (q i) /\
     particles c N_ang ws e (F (t + rc T i * h) (stage T h y k i)) = q i - (1 - cc) * particles c N_ang ws e (stage T h y k i) + 1 / 2 * produced c e S0 (t + rc T i * h)).
  { induction n as [|n (q & H)]; [exists (fun _ => 0); intros; lia|].
    destruct (static_rate c e N_ang ws mus cc S0 st (t + rc T n * h) (stage T h y k n) Hg HN He H1) as (x & X1 & X2).
    exists (fun i => if (i =? n)%nat then x else q i). intros i Hi. destruct (Nat.eqb_spec i n) as [->|N]; [now split|]. apply H. lia. }
  destruct (Q (rs T)) as (q & Hq). exists (stage T h y k), q. split; [|split].
  - intros i p Hi. unfold stage at 1. f_equal. f_equal. apply sumn_ext. intros j Hj. now rewrite (Hk j p Hj).
  - intros i Hi. now apply Hq.
  - replace y' with (fun p => y p + h * sumn (rs T) (fun i => rb T i * k i p)) by (apply functional_extensionality; intros p; symmetry; apply Hy).
    rewrite (particles_line c N_ang ws e y k h (rs T) (rb T) He). f_equal. f_equal. apply sumn_ext. intros i Hi. f_equal.
    rewrite <- (proj2 (Hq i Hi)). f_equal. apply functional_extensionality. intros p. now apply Hk.
Qed.
Print Assumptions C140_static_balance.
(** On a moving mesh it does not: an expanding mesh which no particle leaves, scattering without removal, no source; the
    trajectories keep the number (C127), explicit Euler steps of any length below 2 lose particles. *)
Lemma g_rhs s : (s < 2)%nat -> slabR sC gE gD 1 (fun _ => 1) (fun _ => 1) 1 (fun _ _ _ => 0) (fun _ _ _ => s0) 0 (fun p => let '(a, s, i) := p in gV a s i 0) (0, s, 0)%nat = if (s =? 1)%nat then - (1 / 2) else 0.
Proof.
  intros Hs. assert (X := C127_example 0 0 ltac:(lra) 0 ltac:(lra) 0%nat s 0%nat ltac:(lia) Hs ltac:(lia)). cbv beta in X.
  unfold slabR. rewrite (proj2 (active_iff 1 (fN sC) (fM sC) 0%nat s 0%nat)) by (cbn; lia).
  apply is_derive_unique in X. rewrite <- X. apply is_derive_unique. destruct s as [|[|s]]; [| |lia]; unfold gV; cbn [Nat.eqb].
  - apply dd_const.
  - eapply dd_eq; [apply (dd_inv (fun z => sqrt (1 + z))); [apply (dd_sqrt (fun z => 1 + z)); [apply dd_plus; [apply dd_const|apply dd_id]|lra]|rewrite Rplus_0_r, sqrt_1; lra]|].
    rewrite Rplus_0_r, sqrt_1. field.
Qed.
Theorem C140_moving_mesh_refuted : exists c E D N_ang ws mus st y, fgeom c = Slab /\ (2 <= fN c)%nat /\ sumn N_ang ws = 1 /\
  (forall t, 0 <= t -> ~ left_on c t /\ ~ right_on c t /\ outruns c D N_ang mus t) /\
  forall h, 0 < h < 2 -> mesh_ok c E D 0 h /\ exists y', rk_step euler (slabR c E D N_ang ws mus 1 (fun _ _ _ => 0) st) 0 h y y' /\
   particles c N_ang ws (fun k => E k h) y' < particles c N_ang ws (fun k => E k 0) y.
Proof.
  exists sC, gE, gD, 1%nat, (fun _ => 1), (fun _ => 1), (fun _ _ _ => s0), (fun p => let '(a, s, i) := p in gV a s i 0).
  split; [reflexivity|]. split; [cbn; lia|]. split; [cbn; ring|]. split.
  { intros t Ht. split; [intros [X|[X _]]; discriminate|]. split; [intros [X|[X _]]; discriminate|]. apply (proj2 (C127_example_mesh 0 t (Rle_refl 0))). }
  intros h Hh. split; [apply C127_example_mesh; lra|].
  set (y := fun p : idx => let '(a, s, i) := p in gV a s i 0).
  set (F := slabR sC gE gD 1 (fun _ => 1) (fun _ => 1) 1 (fun _ _ _ => 0) (fun _ _ _ => s0)).
  exists (fun p => y p + h * F 0 y p). split.
  - exists (fun _ => F 0 y). split; [|intros p; change (y p + h * F 0 y p = y p + h * (0 + 1 * F 0 y p)); ring]. intros i p _. cbn [rc euler]. rewrite Rmult_0_l, Rplus_0_r. f_equal.
    apply functional_extensionality. intros q. unfold stage. cbn [rs euler sumn rA]. fold (y q). change (y q = y q + h * (0 + 0 * F 0 y q)). ring.
  - rewrite !particles_coef by (apply gE_incr; lra). cbn [sumn fN sC]. unfold F. rewrite !g_rhs by lia. unfold y, gV. cbn [Nat.eqb]. unfold gE.
    rewrite !Rplus_0_r, sqrt_1. replace (1 + h - 0) with (1 + h) by ring. rewrite !Rminus_0_r, sqrt_1.
    assert (Q : sqrt (1 + h) * (1 - h / 2) < 1); [|lra].
    assert (S2 : sqrt (1 + h) * sqrt (1 + h) = 1 + h) by (apply sqrt_sqrt; lra). pose proof (sqrt_pos (1 + h)).
    destruct (Rlt_le_dec (sqrt (1 + h) * (1 - h / 2)) 1) as [|L]; auto. exfalso.
    assert (1 <= (sqrt (1 + h) * (1 - h / 2)) * (sqrt (1 + h) * (1 - h / 2))) by nra.
    replace ((sqrt (1 + h) * (1 - h / 2)) * (sqrt (1 + h) * (1 - h / 2))) with ((sqrt (1 + h) * sqrt (1 + h)) * (1 - h / 2) ^ 2) in H0 by ring. rewrite S2 in H0.
    replace ((1 + h) * (1 - h / 2) ^ 2) with (1 - h * h * (3 - h) / 4) in H0 by field. assert (0 < h * h * (3 - h)) by (apply Rmult_lt_0_compat; [apply Rmult_lt_0_compat; lra|lra]). lra.
Qed.
Print Assumptions C140_moving_mesh_refuted.
(** the step of [C139_example] by the explicit Euler method: 1 particle, h (1 + 1/2) leave or are removed *)
Example C140_example : forall h, exists y', rk_step euler (slabR sC sE (fun _ _ => 0) 1 (fun _ => 1) (fun _ => 1) (1 / 2) (fun _ _ _ => 0) (fun _ _ _ => s0)) 0 h (right_cell 1) y' /\
  particles sC 1 (fun _ => 1) (fun k => sE k 0) (right_cell 1) = 1 /\ particles sC 1 (fun _ => 1) (fun k => sE k 0) y' = 1 + h * (- 1 - (1 - 1 / 2) * 1).
Proof.
  intros h. exists (right_cell (1 - 3 / 2 * h)). split; [|split].
  - exists (fun _ => right_cell (- (3 / 2))). split.
    + intros i p _. replace (stage euler h (right_cell 1) (fun _ => right_cell (- (3 / 2))) i) with (right_cell 1); [rewrite right_rhs; f_equal; ring|].
      apply functional_extensionality. intros q. unfold stage. cbn [rs euler sumn rA]. ring.
    + intros [[a s] j]. unfold right_cell. destruct ((a =? 0) && (s =? 1) && (j =? 0))%nat; cbn; field.
  - rewrite particles_coef by apply sE_incr. cbn [sumn fN sC right_cell Nat.eqb andb]. unfold sE. rewrite !S_INR. cbn [INR]. replace (0 + 1 + 1 - (0 + 1)) with 1 by ring. rewrite sqrt_1. ring.
  - rewrite particles_coef by apply sE_incr. cbn [sumn fN sC right_cell Nat.eqb andb]. unfold sE. rewrite !S_INR. cbn [INR]. replace (0 + 1 + 1 - (0 + 1)) with 1 by ring. rewrite sqrt_1. field.
Qed.
