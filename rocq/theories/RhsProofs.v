(** Lemmas on the active right-hand side, the angular differences and the step counter. *)
From Verif Require Import Py PyLemmas Calc DGModel DGSpec MatModel RhsModel.

(* ------------------------------------------------------------------ angular cells *)
(** edges of the angular cells: -1, midpoints of neighbouring directions, 1 *)
Definition aedge (N : nat) (x : nat -> R) (a : nat) : R :=
  if (a =? 0)%nat then -1 else if (a =? N)%nat then 1 else (x (a - 1)%nat + x a) / 2.
Definition awidth (N : nat) (x : nat -> R) (a : nat) : R := aedge N x (S a) - aedge N x a.
Definition aterm (N : nat) (x psi : nat -> R) (a : nat) : R :=
  finite_diff_uneven x a psi (a =? 0)%nat (a =? N - 1)%nat.
Definition aflux (N : nat) (x psi : nat -> R) (a : nat) : R :=
  if (a =? 0)%nat then 0 else if (a =? N)%nat then 0 else (1 - aedge N x a ^ 2) * ((psi (a - 1)%nat + psi a) / 2).
(** increasing directions in [-1,1] (the ends are allowed, as in Gauss-Lobatto sets) *)
Definition directions (N : nat) (x : nat -> R) : Prop :=
  (forall a, (S a < N)%nat -> x a < x (S a)) /\ -1 <= x 0%nat /\ x (N - 1)%nat <= 1.

Ltac fracs := match goal with |- ?a / ?b = ?c / ?d => replace a with c by field; replace b with d by field; reflexivity end.
Lemma aterm_flux N x psi a : (2 <= N)%nat -> (a < N)%nat ->
  aterm N x psi a = (aflux N x psi (S a) - aflux N x psi a) / awidth N x a.
Proof.
  intros HN Ha. unfold aterm, finite_diff_uneven, awidth, aflux, aedge. cbv zeta.
  destruct (Nat.eqb_spec a 0) as [->|H0].
  - destruct (Nat.eqb_spec 1 N); [lia|]. cbn [negb andb Nat.eqb].
    replace (1 - 1)%nat with 0%nat by lia. replace (0 + 1)%nat with 1%nat by lia.
    fracs.
  - cbn [negb andb]. destruct (Nat.eqb_spec (S a) 0); [lia|]. destruct (Nat.eqb_spec a N); [lia|].
    destruct (Nat.eqb_spec a (N - 1)) as [->|H1].
    + destruct (Nat.eqb_spec (S (N - 1)) N); [|lia]. cbn [negb]. fracs.
    + destruct (Nat.eqb_spec (S a) N); [lia|]. cbn [negb]. replace (S a - 1)%nat with a by lia. rewrite Nat.add_1_r.
      fracs.
Qed.
Lemma aflux_ends N x psi : aflux N x psi 0 = 0 /\ aflux N x psi N = 0.
Proof. unfold aflux. split; [reflexivity|]. destruct (N =? 0)%nat; auto. now rewrite Nat.eqb_refl. Qed.
Lemma x_mono N x : directions N x -> forall a b, (a <= b)%nat -> (b < N)%nat -> x a <= x b.
Proof.
  intros (H & _ & _) a b Hab Hb. induction b as [|b IH]; [replace a with 0%nat by lia; lra|].
  destruct (Nat.eq_dec a (S b)) as [->|]; [lra|]. specialize (IH ltac:(lia) ltac:(lia)). specialize (H b Hb). lra.
Qed.
Lemma x_in N x a : directions N x -> (a < N)%nat -> -1 <= x a <= 1.
Proof.
  intros H Ha. pose proof (x_mono N x H 0 a ltac:(lia) Ha). pose proof (x_mono N x H a (N - 1) ltac:(lia) ltac:(lia)).
  destruct H as (_ & K1 & K2). lra.
Qed.
Lemma aedge_in N x a : directions N x -> (0 < a < N)%nat -> -1 < aedge N x a < 1.
Proof.
  intros H Ha. unfold aedge. destruct (Nat.eqb_spec a 0); [lia|]. destruct (Nat.eqb_spec a N); [lia|].
  pose proof (x_in N x a H ltac:(lia)). pose proof (x_in N x (a - 1) H ltac:(lia)).
  pose proof (proj1 H (a - 1)%nat ltac:(lia)) as K. replace (S (a - 1)) with a in K by lia. lra.
Qed.
Lemma awidth_pos N x a : (2 <= N)%nat -> directions N x -> (a < N)%nat -> 0 < awidth N x a.
Proof.
  intros HN H Ha. unfold awidth.
  destruct (Nat.eq_dec a 0) as [->|H0].
  - pose proof (aedge_in N x 1 H ltac:(lia)). unfold aedge at 2. simpl Nat.eqb. cbv iota. lra.
  - destruct (Nat.eq_dec (S a) N) as [<-|H1].
    + pose proof (aedge_in (S a) x a H ltac:(lia)). unfold aedge at 1. rewrite Nat.eqb_refl. destruct (Nat.eqb_spec (S a) 0); [lia|]. lra.
    + unfold aedge. destruct (Nat.eqb_spec (S a) 0); [lia|]. destruct (Nat.eqb_spec (S a) N); [lia|].
      destruct (Nat.eqb_spec a 0); [lia|]. destruct (Nat.eqb_spec a N); [lia|]. replace (S a - 1)%nat with a by lia.
      destruct H as (H & _). pose proof (H (a - 1)%nat ltac:(lia)) as K1. pose proof (H a ltac:(lia)) as K2.
      replace (S (a - 1)) with a in K1 by lia. lra.
Qed.
Lemma redistribution_zero N x psi : (2 <= N)%nat -> directions N x -> sumn N (fun a => awidth N x a * aterm N x psi a) = 0.
Proof.
  intros HN H. rewrite (sumn_ext _ _ (fun a => aflux N x psi (S a) - aflux N x psi a)).
  - rewrite sumn_telescope. destruct (aflux_ends N x psi) as [-> ->]. ring.
  - intros a Ha. rewrite aterm_flux by auto. pose proof (awidth_pos N x a HN H Ha). field. lra.
Qed.
(** summation by parts *)
Lemma sum_parts n r F : sumn (S n) (fun a => r a * (F (S a) - F a)) = r n * F (S n) - r 0%nat * F 0%nat + sumn n (fun a => (r a - r (S a)) * F (S a)).
Proof. induction n as [|n IH]; [simpl; ring|]. remember (S n) as m. cbn [sumn]. rewrite Heqm in *. cbn [sumn] in *. rewrite IH. ring. Qed.
(** the data concentrating the flux on one edge *)
Definition probe (k a : nat) : R := if (a <? k)%nat then 0 else (-1) ^ (a - k).
Lemma probe_flux N x k a : (0 < k < N)%nat -> aflux N x (probe k) a = if (a =? k)%nat then (1 - aedge N x k ^ 2) / 2 else 0.
Proof.
  intros Hk. unfold aflux. destruct (Nat.eqb_spec a 0) as [->|H0]; [destruct (Nat.eqb_spec 0 k); [lia|auto]|].
  destruct (Nat.eqb_spec a N) as [->|HN]; [destruct (Nat.eqb_spec N k); [lia|auto]|].
  unfold probe. destruct (Nat.eqb_spec a k) as [->|Hak].
  - destruct (Nat.ltb_spec (k - 1) k); [|lia]. destruct (Nat.ltb_spec k k); [lia|]. rewrite Nat.sub_diag. simpl. field.
  - destruct (Nat.ltb_spec a k).
    + destruct (Nat.ltb_spec (a - 1) k); [|lia]. field.
    + destruct (Nat.ltb_spec (a - 1) k); [lia|]. replace (a - k)%nat with (S (a - 1 - k)) by lia. simpl. field.
Qed.
Lemma redistribution_iff N x w : (2 <= N)%nat -> directions N x ->
  ((forall psi, sumn N (fun a => w a * aterm N x psi a) = 0) <-> exists k, forall a, (a < N)%nat -> w a = k * awidth N x a).
Proof.
  intros HN H. split.
  - intros Hz. exists (w 0%nat / awidth N x 0).
    assert (R : forall a, (S a < N)%nat -> w a / awidth N x a = w (S a) / awidth N x (S a)).
    { intros a Ha. specialize (Hz (probe (S a))).
      rewrite (sumn_ext _ _ (fun b => w b / awidth N x b * (aflux N x (probe (S a)) (S b) - aflux N x (probe (S a)) b))) in Hz.
      2:{ intros b Hb. rewrite aterm_flux by auto. pose proof (awidth_pos N x b HN H Hb). field. lra. }
      destruct N as [|n]; [lia|]. rewrite (sum_parts n (fun b => w b / awidth (S n) x b) (aflux (S n) x (probe (S a)))) in Hz.
      destruct (aflux_ends (S n) x (probe (S a))) as [E0 EN]. rewrite E0, EN in Hz.
      rewrite (sumn_single n _ a) in Hz; [|lia|].
      - rewrite probe_flux, Nat.eqb_refl in Hz by lia. pose proof (aedge_in (S n) x (S a) H ltac:(lia)) as I.
        assert (0 < (1 - aedge (S n) x (S a) ^ 2) / 2) by nra. nra.
      - intros b Hb Hne. rewrite probe_flux by lia. destruct (Nat.eqb_spec (S b) (S a)); [lia|]. ring. }
    assert (Q : forall a, (a < N)%nat -> w a / awidth N x a = w 0%nat / awidth N x 0).
    { induction a as [|a IH]; intros Ha; auto. rewrite <- (R a Ha). apply IH. lia. }
    intros a Ha. rewrite <- (Q a Ha). pose proof (awidth_pos N x a HN H Ha). field. lra.
  - intros (k & Hk) psi. rewrite (sumn_ext _ _ (fun a => k * (awidth N x a * aterm N x psi a))).
    + rewrite sumn_scal, redistribution_zero by auto. ring.
    + intros a Ha. rewrite Hk by auto. ring.
Qed.

Lemma isotropic N x a : (2 <= N)%nat -> directions N x -> (a < N)%nat ->
  aterm N x (fun _ => 1) a = - (aedge N x a + aedge N x (S a)).
Proof.
  intros HN H Ha. rewrite aterm_flux by auto. pose proof (awidth_pos N x a HN H Ha) as P.
  assert (F : forall b, (b <= N)%nat -> aflux N x (fun _ => 1) b = 1 - aedge N x b ^ 2).
  { intros b Hb. unfold aflux, aedge. destruct (Nat.eqb_spec b 0); [ring|]. destruct (Nat.eqb_spec b N); [ring|field]. }
  rewrite !F by lia. unfold awidth in *. field. lra.
Qed.
Lemma midpoints_only N x : (2 <= N)%nat -> directions N x ->
  ((forall a, (a < N)%nat -> x a = (aedge N x a + aedge N x (S a)) / 2) <-> (forall a, (a < N)%nat -> x a = -1 + (2 * INR a + 1) / INR N)).
Proof.
  intros HN H. assert (PN : 0 < INR N) by (apply lt_0_INR; lia). split.
  - intros Hm. pose (d := x 1%nat - x 0%nat).
    assert (E0 : x 0%nat = -1 + d / 2).
    { pose proof (Hm 0%nat ltac:(lia)) as K. unfold aedge in K. destruct (Nat.eqb_spec 1 N); [lia|]. simpl Nat.eqb in K. cbv iota in K.
      replace (1 - 1)%nat with 0%nat in K by lia. unfold d. lra. }
    assert (ST : forall a, (S a < N)%nat -> x (S a) = x a + d).
    { induction a as [|a IH]; intros Ha; [unfold d; lra|]. specialize (IH ltac:(lia)).
      pose proof (Hm (S a) ltac:(lia)) as K. unfold aedge in K. destruct (Nat.eqb_spec (S a) 0); [lia|]. destruct (Nat.eqb_spec (S a) N); [lia|].
      destruct (Nat.eqb_spec (S (S a)) 0); [lia|]. destruct (Nat.eqb_spec (S (S a)) N); [lia|].
      replace (S a - 1)%nat with a in K by lia. replace (S (S a) - 1)%nat with (S a) in K by lia. lra. }
    assert (X : forall a, (a < N)%nat -> x a = -1 + d / 2 + INR a * d).
    { induction a as [|a IH]; intros Ha; [simpl; lra|]. rewrite ST, IH, S_INR by lia. ring. }
    assert (Ed : d = 2 / INR N).
    { pose proof (Hm (N - 1)%nat ltac:(lia)) as K. unfold aedge in K. destruct (Nat.eqb_spec (N - 1) 0); [lia|]. destruct (Nat.eqb_spec (N - 1) N); [lia|].
      replace (S (N - 1)) with N in K by lia. rewrite Nat.eqb_refl in K. destruct (Nat.eqb_spec N 0); [lia|].
      rewrite (X (N - 1)%nat), (X (N - 1 - 1)%nat) in K by lia. rewrite !minus_INR in K by lia. simpl (INR 1) in K. 
      apply (Rmult_eq_reg_r (INR N)); [|lra]. field_simplify; lra. }
    intros a Ha. rewrite X, Ed by auto. field. lra.
  - intros Hx a Ha. unfold aedge. destruct (Nat.eqb_spec (S a) 0); [lia|].
    assert (EI : INR (N - 1) = INR N - 1) by (rewrite minus_INR by lia; reflexivity).
    destruct (Nat.eqb_spec a 0) as [->|].
    + destruct (Nat.eqb_spec 1 N); [lia|]. replace (1 - 1)%nat with 0%nat by lia. rewrite !Hx by lia. simpl INR. field. lra.
    + destruct (Nat.eqb_spec a N); [lia|]. destruct (Nat.eqb_spec (S a) N) as [E|].
      * rewrite !Hx by lia. rewrite <- E. rewrite minus_INR, S_INR by lia. simpl (INR 1). field. pose proof (pos_INR a); lra.
      * replace (S a - 1)%nat with a by lia. rewrite !Hx by lia. rewrite minus_INR, (S_INR a) by lia. simpl (INR 1). field. lra.
Qed.

(* ------------------------------------------------------------------ finite differences *)
Lemma fdu2_quadratic x ix p q r : x (ix - 1)%nat < x ix -> x ix < x (ix + 1)%nat ->
  finite_diff_uneven_2 x ix (fun k => p * x k ^ 2 + q * x k + r) false false = 2 * p * x ix + q.
Proof.
  intros H1 H2. unfold finite_diff_uneven_2. cbn [negb andb]. cbv zeta. field. repeat split; lra.
Qed.
Lemma fdu2_ends x ix p q : 
  (x ix < x (ix + 1)%nat -> finite_diff_uneven_2 x ix (fun k => p * x k + q) true false = p) /\
  (x (ix - 1)%nat < x ix -> finite_diff_uneven_2 x ix (fun k => p * x k + q) false true = p).
Proof. split; intros; unfold finite_diff_uneven_2; cbn [negb andb]; cbv zeta; field; lra. Qed.

(* ------------------------------------------------------------------ the step counter *)
Definition tprev (ts : nat -> R) (k : nat) : R := match k with O => 0 | S j => ts j end.
Definition tinc (ts : nat -> R) (k : nat) : R := Rabs (tprev ts k - ts k).
Lemma tafter_spec ts k : told (tafter ts k) = tprev ts k /\ counter (tafter ts k) = (k mod 1001)%nat /\
  delta_tavg (tafter ts k) = sumn (k mod 1001) (fun j => tinc ts (k - k mod 1001 + j)) / 1000.
Proof.
  induction k as [|k (I1 & I2 & I3)].
  - cbn [tafter tinit told counter delta_tavg tprev]. rewrite Nat.mod_0_l by lia. cbn [sumn]. split; [auto|split; [auto|lra]].
  - cbn [tafter]. unfold time_step_counter. rewrite I1, I2, I3.
    pose proof (Nat.mod_upper_bound k 1001 ltac:(lia)) as B. pose proof (Nat.div_mod k 1001 ltac:(lia)) as DM.
    assert (LK : (k mod 1001 <= k)%nat) by (apply Nat.mod_le; lia).
    destruct (Nat.eqb_spec (k mod 1001) 1000) as [E|E]; cbn [fst told counter delta_tavg tprev].
    + assert (EM : (S k mod 1001 = 0)%nat).
      { symmetry. apply (Nat.mod_unique (S k) 1001 (k / 1001 + 1)); lia. }
      rewrite EM. cbn [sumn]. split; [auto|split; [auto|lra]].
    + assert (EM : (S k mod 1001 = S (k mod 1001))%nat).
      { symmetry. apply (Nat.mod_unique (S k) 1001 (k / 1001)); lia. }
      rewrite EM. split; [auto|split; [lia|]]. cbn [sumn].
      replace (S k - S (k mod 1001))%nat with (k - k mod 1001)%nat by lia.
      replace (k - k mod 1001 + k mod 1001)%nat with k by lia. unfold tinc at 3. field.
Qed.
Lemma treport_spec ts k :
  treport ts k = if (k mod 1001 =? 1000)%nat then Some (sumn 1001 (fun j => tinc ts (k - 1000 + j)) / 1000) else None.
Proof.
  unfold treport, time_step_counter. destruct (tafter_spec ts k) as (-> & -> & ->).
  destruct (Nat.eqb_spec (k mod 1001) 1000) as [E|E]; cbn [snd]; auto. rewrite E. f_equal.
  assert (LK : (k mod 1001 <= k)%nat) by (apply Nat.mod_le; lia).
  change (sumn 1001 (fun j => tinc ts (k - 1000 + j))) with (sumn 1000 (fun j => tinc ts (k - 1000 + j)) + tinc ts (k - 1000 + 1000)).
  replace (k - 1000 + 1000)%nat with k by lia. unfold tinc at 3. lra.
Qed.

(* ------------------------------------------------------------------ the call *)
Lemma flat_reshape Ns n V k : (0 < n)%nat -> (0 < Ns)%nat -> flatten3 Ns n (reshape3 Ns n V) k = V k.
Proof.
  intros Hn HN. unfold flatten3, reshape3. f_equal.
  pose proof (Nat.div_mod k n ltac:(lia)). pose proof (Nat.div_mod (k / n) Ns ltac:(lia)). nia.
Qed.
Lemma reshape_flat Ns n W a s i : (s < Ns)%nat -> (i < n)%nat -> reshape3 Ns n (flatten3 Ns n W) a s i = W a s i.
Proof.
  intros Hs Hi. unfold flatten3, reshape3.
  assert (E1 : (((a * Ns + s) * n + i) / n = a * Ns + s)%nat) by (rewrite Nat.div_add_l, Nat.div_small by lia; lia).
  assert (E2 : (((a * Ns + s) * n + i) mod n = i)%nat) by (rewrite Nat.add_comm, Nat.mod_add, Nat.mod_small by lia; lia).
  rewrite E1, E2. assert (E3 : ((a * Ns + s) / Ns = a)%nat) by (rewrite Nat.div_add_l, Nat.div_small by lia; lia).
  assert (E4 : ((a * Ns + s) mod Ns = s)%nat) by (rewrite Nat.add_comm, Nat.mod_add, Nat.mod_small by lia; lia).
  now rewrite E3, E4.
Qed.
Lemma slab_spaces c st t V k : fgeom (rflux c) = Slab ->
  (forallb (refl_ok c) (seq 0 (N_ang c)) = true \/ k = 0%nat -> exists W, rhs_spaces c st t V k = Ok W /\ forall a s i, W a s i = V a s i) /\
  (forallb (refl_ok c) (seq 0 (N_ang c)) = false -> (0 < k)%nat -> rhs_spaces c st t V k = Err AssertionError).
Proof.
  intros Hg. induction k as [|k [IH1 IH2]]; split.
  - intros _. exists V. auto.
  - lia.
  - intros [H|H]; [|lia]. destruct (IH1 (or_introl H)) as (W & E & EW). cbn [rhs_spaces]. rewrite E. cbn [bind].
    unfold rhs_space. rewrite Hg, H. cbn [negb]. rewrite andb_false_r. cbn [bind]. eexists. split; [reflexivity|].
    intros a s i. cbv beta. destruct (Nat.eqb_spec s k) as [->|]; auto.
  - intros H _. cbn [rhs_spaces]. destruct k as [|k].
    + cbn [rhs_spaces bind]. unfold rhs_space. rewrite Hg, H. reflexivity.
    + rewrite IH2 by (auto; lia). reflexivity.
Qed.
Lemma slab_identity c st t V : fgeom (rflux c) = Slab -> forallb (refl_ok c) (seq 0 (N_ang c)) = true -> (0 < fN (rflux c))%nat ->
  exists W, rhs_call c st t V = Ok W /\ forall k, W k = V k.
Proof.
  intros Hg Hok HN. unfold rhs_call. cbv zeta.
  destruct (proj1 (slab_spaces c st t (reshape3 (fN (rflux c)) (fM (rflux c) + 1) V) (fN (rflux c)) Hg) (or_introl Hok)) as (W & E & EW).
  rewrite E. cbn [bind]. eexists. split; [reflexivity|]. intros k. cbv beta.
  transitivity (flatten3 (fN (rflux c)) (fM (rflux c) + 1) (reshape3 (fN (rflux c)) (fM (rflux c) + 1) V) k).
  - unfold flatten3. apply EW.
  - apply flat_reshape; auto. lia.
Qed.
Lemma slab_error c st t V : fgeom (rflux c) = Slab -> forallb (refl_ok c) (seq 0 (N_ang c)) = false -> (0 < fN (rflux c))%nat ->
  rhs_call c st t V = Err AssertionError.
Proof.
  intros Hg Hok HN. unfold rhs_call. cbv zeta.
  now rewrite (proj2 (slab_spaces c st t (reshape3 (fN (rflux c)) (fM (rflux c) + 1) V) (fN (rflux c)) Hg) Hok HN).
Qed.
Lemma exp_solution (y : R -> R) T : 0 < T -> (forall t, 0 <= t <= T -> is_derive y t (y t)) -> y T = y 0 * exp T.
Proof.
  intros HT H. assert (E : y 0 * exp (- 0) = y T * exp (- T)).
  { apply (eq_is_derive (fun t => y t * exp (- t)) 0 T); auto. intros t Ht.
    eapply dd_eq; [apply dd_mult; [apply H; auto|apply dd_exp, dd_opp, dd_id]|]. cbv beta. change zero with 0. ring. }
  rewrite Ropp_0, exp_0 in E. rewrite exp_Ropp in E. pose proof (exp_pos T). 
  replace (y 0) with (y T * / exp T) by lra. field. lra.
Qed.

(* ------------------------------------------------------------------ pairing *)
Lemma refl_all_ok c : (forall a, (S a < N_ang c)%nat -> mus c a < mus c (S a)) ->
  (forall a, (a < N_ang c)%nat -> mus c (N_ang c - 1 - a)%nat = - mus c a) ->
  forallb (refl_ok c) (seq 0 (N_ang c)) = true.
Proof.
  intros Hi Hs. apply forallb_forall. intros a Ha. apply in_seq in Ha. unfold refl_ok.
  unfold Rgeb. destruct (Rleb_spec (INR (N_ang c) / 2) (INR a)) as [L|L]; auto.
  assert (LN : (N_ang c <= 2 * a)%nat).
  { apply INR_le. rewrite mult_INR. simpl (INR 2). lra. }
  assert (Q : forall b, (N_ang c - 1 - a < b)%nat -> (b < N_ang c)%nat -> mus c (N_ang c - 1 - a)%nat < mus c b).
  { intros b Hb Hb2. induction b as [|b IH]; [lia|]. specialize (Hi b Hb2).
    destruct (Nat.eq_dec (N_ang c - 1 - a) b) as [E|E]; [rewrite E; auto|]. specialize (IH ltac:(lia) ltac:(lia)). lra. }
  specialize (Q a ltac:(lia) ltac:(lia)). rewrite Hs in Q by lia.
  assert (P : 0 < mus c a) by lra. unfold Rgtb. rewrite Rltb_true by auto. cbn [andb]. apply Rleb_true.
  replace (N_ang c - a - 1)%nat with (N_ang c - 1 - a)%nat by lia. rewrite Hs by lia.
  replace (- mus c a - - mus c a) with 0 by ring. rewrite Rabs_R0. left. apply Rinv_0_lt_compat. apply pow_lt. lra.
Qed.
