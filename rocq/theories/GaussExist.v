(** Zeros of Legendre polynomials and of their derivatives: they are real, simple, inside (-1,1), and separate each other.
    Existence of the Gauss-Legendre rule for every number of points. *)
From Coquelicot Require Import Coquelicot.
From Verif Require Import Py PyLemmas Calc Legendre Cheb DGModel DGSpec DGProofs FuncModel FuncProofs FuncLobatto.
Open Scope R_scope.

Fixpoint prodn (n : nat) (f : nat -> R) : R := match n with O => 1 | S k => prodn k f * f k end.
Lemma prodn_ext n f g : (forall i, (i < n)%nat -> f i = g i) -> prodn n f = prodn n g.
Proof. induction n as [|n IH]; intros H; cbn [prodn]; auto. rewrite IH, H; auto. Qed.
Lemma prodn_pos n f : (forall i, (i < n)%nat -> 0 < f i) -> 0 < prodn n f.
Proof. induction n as [|n IH]; intros H; cbn [prodn]; [lra|]. apply Rmult_lt_0_compat; [apply IH; intros|]; apply H; lia. Qed.
Lemma prodn_zero n f i : (i < n)%nat -> f i = 0 -> prodn n f = 0.
Proof. induction n as [|n IH]; intros Hi Hz; [lia|]. cbn [prodn]. destruct (Nat.eq_dec i n) as [->|]; [rewrite Hz; ring|]. rewrite IH by (lia || auto). ring. Qed.
Lemma prodn_nz n f : (forall i, (i < n)%nat -> f i <> 0) -> prodn n f <> 0.
Proof. induction n as [|n IH]; intros H; cbn [prodn]; [lra|]. apply Rmult_integral_contrapositive. split; [apply IH; intros; apply H; lia|apply H; lia]. Qed.
Lemma finite_pick (P : nat -> R -> Prop) n : (forall j, (j < n)%nat -> exists x, P j x) -> exists f, forall j, (j < n)%nat -> P j (f j).
Proof.
  induction n as [|n IH]; intros H; [exists (fun _ => 0); intros; lia|]. destruct IH as (f & Hf); [intros; apply H; lia|]. destruct (H n ltac:(lia)) as (x & Hx).
  exists (fun j => if (j =? n)%nat then x else f j). intros j Hj. destruct (Nat.eqb_spec j n) as [->|]; auto. apply Hf. lia.
Qed.

(** increasing points strictly inside (-1,1) *)
Definition inside (n : nat) (s : nat -> R) : Prop := (forall i, (S i < n)%nat -> s i < s (S i)) /\ forall i, (i < n)%nat -> -1 < s i < 1.
Lemma inside_lt n s i j : inside n s -> (i < j)%nat -> (j < n)%nat -> s i < s j.
Proof.
  intros (H & _) Hij Hj. induction j as [|j IH]; [lia|]. destruct (Nat.eq_dec i j) as [->|]; [apply H; lia|]. apply Rlt_trans with (s j); [apply IH; lia|apply H; lia].
Qed.
(** a polynomial of degree at most n with n distinct zeros is a constant times the product of the factors *)
Lemma factor v n (s : nat -> R) : deg_le n v -> (forall i j, (i < j)%nat -> (j < n)%nat -> s i <> s j) -> (forall i, (i < n)%nat -> v (s i) = 0) ->
  exists k, forall z, v z = k * prodn n (fun i => z - s i).
Proof.
  revert v. induction n as [|n IH]; intros v (l & L & E) D Z.
  - destruct l as [|c [|]]; cbn in L; try lia; [exists 0|exists c]; intros z; rewrite E; cbn; ring.
  - set (u := ph (synth l (s n))).
    assert (Er : ph l (s n) = 0) by (rewrite <- E; apply Z; lia).
    assert (V : forall z, v z = (z - s n) * u z) by (intros z; rewrite E, (synth_ok l (s n) z), Er; unfold u; ring).
    destruct (IH u) as (k & Hk).
    + exists (synth l (s n)). split; [rewrite synth_len; lia|auto].
    + intros; apply D; lia.
    + intros i Hi. specialize (Z i ltac:(lia)). rewrite V in Z. specialize (D i n Hi ltac:(lia)). apply Rmult_integral in Z as [Z|Z]; [exfalso; apply D; lra|auto].
    + exists k. intros z. rewrite V, Hk. cbn [prodn]. ring.
Qed.
Lemma factor_inside v n s : deg_le n v -> inside n s -> (forall i, (i < n)%nat -> v (s i) = 0) -> exists k, forall z, v z = k * prodn n (fun i => z - s i).
Proof. intros D I Z. apply factor; auto. intros i j H1 H2. pose proof (inside_lt n s i j I H1 H2). lra. Qed.
Definition sgn (k : nat) : R := (-1) ^ k.
Lemma sgn_S k : sgn (S k) = - sgn k. Proof. unfold sgn. cbn [pow]. ring. Qed.
Lemma sgn_sq k : sgn k * sgn k = 1.
Proof. induction k as [|k IH]; [unfold sgn; cbn; ring|]. rewrite sgn_S. lra. Qed.
Lemma sgn_cases k : sgn k = 1 \/ sgn k = -1.
Proof. induction k as [|k IH]; [left; reflexivity|]. rewrite sgn_S. destruct IH as [->| ->]; [right|left]; ring. Qed.
Lemma prod_sign m s z j : (j <= m)%nat -> (forall i, (i < j)%nat -> s i < z) -> (forall i, (j <= i)%nat -> (i < m)%nat -> z < s i) -> 0 < sgn (m - j) * prodn m (fun i => z - s i).
Proof.
  induction m as [|m IH]; intros Hj Hl Hr; cbn [prodn].
  - replace (0 - j)%nat with 0%nat by lia. unfold sgn. cbn. lra.
  - destruct (Nat.eq_dec j (S m)) as [->|N].
    + rewrite Nat.sub_diag. unfold sgn. cbn [pow]. rewrite Rmult_1_l. change (prodn m (fun i => z - s i) * (z - s m)) with (prodn (S m) (fun i => z - s i)). apply prodn_pos. intros i Hi. specialize (Hl i Hi). lra.
    + assert (P : 0 < sgn (m - j) * prodn m (fun i => z - s i)) by (apply IH; [lia|auto|intros; apply Hr; lia]).
      replace (S m - j)%nat with (S (m - j)) by lia. rewrite sgn_S. specialize (Hr m ltac:(lia) ltac:(lia)).
      replace (- sgn (m - j) * (prodn m (fun i => z - s i) * (z - s m))) with ((sgn (m - j) * prodn m (fun i => z - s i)) * (s m - z)) by ring.
      apply Rmult_lt_0_compat; lra.
Qed.
(** a change of sign gives a zero strictly between *)
Lemma zero_between f a b : (forall z, continuous f z) -> a < b -> f a * f b < 0 -> exists z, a < z < b /\ f z = 0.
Proof.
  intros C Hab H. assert (C' : continuity f) by (intros z; apply continuity_pt_filterlim, C).
  destruct (IVT_cor f a b C' ltac:(lra) ltac:(lra)) as (z & Hz & E). exists z. split; auto.
  split; destruct (Req_dec z a), (Req_dec z b); subst; try lra; rewrite E in H; lra.
Qed.
Lemma alternate_zeros f n (e : nat -> R) : (forall z, continuous f z) -> (forall j, (j < n)%nat -> e j < e (S j)) ->
  (forall j, (j <= n)%nat -> 0 < sgn (n - j) * f (e j)) -> exists t, forall j, (j < n)%nat -> e j < t j < e (S j) /\ f (t j) = 0.
Proof.
  intros C He Hs. apply (finite_pick (fun j x => e j < x < e (S j) /\ f x = 0)). intros j Hj. apply zero_between; auto.
  pose proof (Hs j ltac:(lia)) as A. pose proof (Hs (S j) ltac:(lia)) as B. replace (n - j)%nat with (S (n - S j)) in A by lia. rewrite sgn_S in A.
  set (g := sgn (n - S j)) in *. pose proof (sgn_sq (n - S j)) as Q. fold g in Q. pose proof (Rmult_lt_0_compat _ _ A B) as P.
  replace (- g * f (e j) * (g * f (e (S j)))) with (- (g * g) * (f (e j) * f (e (S j)))) in P by ring. rewrite Q in P. lra.
Qed.
(** The zeros of P_{n+1}, with the sign of P_n at each of them *)
Lemma legendre_zeros n : exists s, inside (S n) s /\ (forall i, (i <= n)%nat -> leg (S n) (s i) = 0) /\ (forall i, (i <= n)%nat -> 0 < sgn (n - i) * leg n (s i)).
Proof.
  induction n as [|n (s & I & Z & Sg)].
  - exists (fun _ => 0). split; [split; [intros; lia|intros; lra]|]. split; [intros; apply leg_1|]. intros i Hi. replace i with 0%nat by lia. rewrite leg_0. unfold sgn. cbn. lra.
  - set (e := fun j => if (j =? 0)%nat then -1 else if (j =? S (S n))%nat then 1 else s (j - 1)%nat).
    assert (E0 : e 0%nat = -1) by reflexivity. assert (E1 : e (S (S n)) = 1) by (unfold e; cbn [Nat.eqb]; now rewrite Nat.eqb_refl).
    assert (Em : forall i, (i <= n)%nat -> e (S i) = s i). { intros i Hi. unfold e. cbn [Nat.eqb]. destruct (Nat.eqb_spec i (S n)); [lia|]. f_equal. lia. }
    destruct (alternate_zeros (leg (S (S n))) (S (S n)) e) as (t & Ht).
    + intros; apply leg_cont.
    + intros j Hj. destruct j as [|j].
      * rewrite E0, Em by lia. apply I. lia.
      * rewrite (Em j) by lia. destruct (Nat.eq_dec j n) as [->|]; [rewrite E1; apply I; lia|]. rewrite Em by lia. apply I. lia.
    + intros j Hj. destruct j as [|j].
      * rewrite E0, leg_m1_val, Nat.sub_0_r. fold (sgn (S (S n))). rewrite sgn_sq. lra.
      * destruct (Nat.eq_dec j (S n)) as [->|]; [rewrite E1, leg_1_val, Nat.sub_diag; unfold sgn; cbn; lra|].
        rewrite Em by lia. rewrite leg_SS, Z by lia. replace (S (S n) - S j)%nat with (S (n - j)) by lia. rewrite sgn_S. specialize (Sg j ltac:(lia)).
        pose proof (pos_INR n). replace (- sgn (n - j) * (((2 * INR n + 3) * s j * 0 - (INR n + 1) * leg n (s j)) / (INR n + 2))) with ((INR n + 1) / (INR n + 2) * (sgn (n - j) * leg n (s j))) by (field; lra).
        apply Rmult_lt_0_compat; auto. apply Rdiv_lt_0_compat; lra.
    + exists t. split; [|split].
      * split.
        -- intros i Hi. pose proof (Ht i ltac:(lia)). pose proof (Ht (S i) ltac:(lia)). lra.
        -- intros i Hi. destruct (Ht i ltac:(lia)) as (H & _).
           assert (-1 <= e i). { destruct i as [|i]; [rewrite E0; lra|]. rewrite Em by lia. destruct (proj2 I i ltac:(lia)). lra. }
           assert (e (S i) <= 1). { destruct (Nat.eq_dec i (S n)) as [->|]; [rewrite E1; lra|]. rewrite Em by lia. destruct (proj2 I i ltac:(lia)). lra. }
           lra.
      * intros i Hi. apply Ht. lia.
      * intros j Hj. destruct (factor_inside (leg (S n)) (S n) s (deg_leg _) I) as (k & Hk); [intros i Hi; apply Z; lia|].
        assert (Kp : 0 < k). { pose proof (Hk 1) as K1. rewrite leg_1_val in K1. assert (P : 0 < prodn (S n) (fun i => 1 - s i)) by (apply prodn_pos; intros i Hi; destruct (proj2 I i Hi); lra). destruct (Rlt_dec 0 k); auto. nra. }
        rewrite Hk. replace (sgn (S n - j) * (k * prodn (S n) (fun i => t j - s i))) with (k * (sgn (S n - j) * prodn (S n) (fun i => t j - s i))) by ring.
        apply Rmult_lt_0_compat; auto. destruct (Ht j ltac:(lia)) as (H & _). apply prod_sign; [lia| |].
        -- intros i Hi. destruct j as [|j]; [lia|]. rewrite Em in H by lia. destruct (Nat.eq_dec i j) as [->|]; [lra|]. pose proof (inside_lt _ _ i j I ltac:(lia) ltac:(lia)). lra.
        -- intros i Hi Hi'. rewrite Em in H by lia. destruct (Nat.eq_dec i j) as [->|]; [lra|]. pose proof (inside_lt _ _ j i I ltac:(lia) ltac:(lia)). lra.
Qed.
Lemma leg_square_sum m x : (1 <= m)%nat -> 0 < sumn m (fun k => (2 * INR k + 1) * leg k x * leg k x).
Proof.
  intros Hm. induction m as [|k IH]; [lia|]. cbn [sumn]. destruct k as [|k]; [simpl; rewrite leg_0; lra|].
  specialize (IH ltac:(lia)). pose proof (pos_INR (S k)). pose proof (Rle_0_sqr (leg (S k) x)). unfold Rsqr in *. nra.
Qed.
(** every zero of P_m is one of the s, and the slope there has the alternating sign *)
Lemma legendre_slopes n s : inside (S n) s -> (forall i, (i <= n)%nat -> leg (S n) (s i) = 0) -> (forall i, (i <= n)%nat -> 0 < sgn (n - i) * leg n (s i)) ->
  forall i, (i <= n)%nat -> 0 < sgn (n - i) * dleg (S n) (s i).
Proof.
  intros I Z Sg i Hi. pose proof (leg_square_sum (S n) (s i) ltac:(lia)) as P. rewrite CD_diag in P by lia. replace (S n - 1)%nat with n in P by lia. rewrite Z in P by auto. specialize (Sg i Hi).
  assert (0 < INR (S n)) by (apply lt_0_INR; lia). assert (Q : 0 < dleg (S n) (s i) * leg n (s i)). { apply Rmult_lt_reg_l with (INR (S n)); auto. lra. }
  destruct (sgn_cases (n - i)) as [E|E]; rewrite E in *; nra.
Qed.
(** derivatives of polynomials *)
Fixpoint dph (l : list R) : list R := match l with nil => nil | _ :: t => match t with nil => nil | _ => ladd t (0 :: dph t) end end.
Lemma dph_len l : length (dph l) = (length l - 1)%nat.
Proof.
  induction l as [|c [|d t] I]; [reflexivity|reflexivity|]. change (dph (c :: d :: t)) with (ladd (d :: t) (0 :: dph (d :: t))). rewrite ladd_len. cbn [length] in *. lia.
Qed.
Lemma dph_ok l x : is_derive (ph l) x (ph (dph l) x).
Proof.
  induction l as [|c [|d t] IH]; [apply (dd_const 0)|apply (dd_ext (fun _ => c + 0)); [intro; simpl; ring|apply dd_const]|].
  change (dph (c :: d :: t)) with (ladd (d :: t) (0 :: dph (d :: t))). rewrite ladd_ok. change (ph (0 :: dph (d :: t)) x) with (0 + x * ph (dph (d :: t)) x).
  eapply dd_eq; [apply (dd_plus (fun _ => c) (fun z => z * ph (d :: t) z)); [apply dd_const|apply dd_mult; [apply dd_id|exact IH]]|cbv beta; ring].
Qed.
Lemma deg_derive n v d : deg_le (S n) v -> (forall x, is_derive v x (d x)) -> deg_le n d.
Proof.
  intros (l & L & E) D. exists (dph l). split; [pose proof (dph_len l); lia|]. intros x. pose proof (dph_ok l x) as P.
  apply is_derive_unique in P. rewrite <- P. rewrite (Derive_ext _ v) by (intro; symmetry; apply E). symmetry. apply is_derive_unique, D.
Qed.
Lemma deg_dleg n : deg_le n (dleg (S n)).
Proof. apply (deg_derive n (leg (S n))); [apply deg_leg|intro; apply leg_derive]. Qed.
(** the zeros of P'_{n+1}: exactly one between consecutive zeros of P_{n+1} *)
Lemma slope_zeros n s : inside (S n) s -> (forall i, (i <= n)%nat -> leg (S n) (s i) = 0) -> (forall i, (i <= n)%nat -> 0 < sgn (n - i) * leg n (s i)) ->
  exists c k, (forall j, (j < n)%nat -> s j < c j < s (S j) /\ dleg (S n) (c j) = 0) /\ inside n c /\ k <> 0 /\ forall z, dleg (S n) z = k * prodn n (fun i => z - c i).
Proof.
  intros I Z Sg. pose proof (legendre_slopes n s I Z Sg) as Sl.
  destruct (alternate_zeros (dleg (S n)) n s) as (c & Hc).
  - intros; apply dleg_cont.
  - intros j Hj. apply I. lia.
  - intros j Hj. apply Sl. lia.
  - assert (Ic : inside n c).
    { split; intros i Hi; [pose proof (Hc i ltac:(lia)); pose proof (Hc (S i) ltac:(lia)); lra|].
      pose proof (Hc i Hi). pose proof (proj2 I i ltac:(lia)). pose proof (proj2 I (S i) ltac:(lia)). lra. }
    destruct (factor_inside (dleg (S n)) n c (deg_dleg n) Ic) as (k & Hk); [intros; apply Hc; auto|].
    exists c, k. repeat split; try (now apply Ic); try (now apply Hc); auto.
    intros K. specialize (Sl 0%nat ltac:(lia)). rewrite Hk, K in Sl. lra.
Qed.
Lemma prodn_zero_inv n f : prodn n f = 0 -> exists i, (i < n)%nat /\ f i = 0.
Proof. induction n as [|n IH]; cbn [prodn]; intros H; [lra|]. apply Rmult_integral in H as [H|H]; [destruct (IH H) as (i & Hi & E); exists i; split; [lia|auto]|exists n; auto]. Qed.
Lemma prod_derive n (c : nat -> R) (x : R) : (forall i, (i < n)%nat -> x <> c i) ->
  is_derive (fun z => prodn n (fun i => z - c i)) x (prodn n (fun i => x - c i) * sumn n (fun i => / (x - c i))).
Proof.
  induction n as [|n IH]; intros H; cbn [prodn sumn]; [eapply dd_eq; [apply dd_const|ring]|].
  eapply dd_eq; [apply (dd_mult (fun z => prodn n (fun i => z - c i)) (fun z => z - c n)); [apply IH; intros; apply H; lia|apply (dd_minus (fun z => z) (fun _ => c n)); [apply dd_id|apply dd_const]]|].
  cbv beta. assert (x - c n <> 0) by (specialize (H n ltac:(lia)); lra). field. auto.
Qed.
(** a small Newton correction of a product of real factors means that a zero is near *)
Lemma newton_near n k c (x : R) f (f' : R) tol : (forall z, f z = k * prodn n (fun i => z - c i)) -> k <> 0 -> is_derive f x f' -> f' <> 0 -> Rabs (f x / f') <= tol ->
  exists i, (i < n)%nat /\ Rabs (x - c i) <= INR n * tol.
Proof.
  intros Hf Hk Hd Hn Ht. assert (0 <= tol) by (apply Rle_trans with (2 := Ht); apply Rabs_pos).
  destruct (Req_dec (f x) 0) as [Z|NZ].
  - rewrite Hf in Z. apply Rmult_integral in Z as [|Z]; [tauto|]. destruct (prodn_zero_inv _ _ Z) as (i & Hi & E). exists i. split; auto.
    rewrite E, Rabs_R0. apply Rmult_le_pos; [apply pos_INR|auto].
  - assert (NE : forall i, (i < n)%nat -> x <> c i). { intros i Hi E. apply NZ. rewrite Hf, (prodn_zero n _ i Hi); [ring|rewrite E; ring]. }
    assert (F : f' = f x * sumn n (fun i => / (x - c i))).
    { apply is_derive_unique in Hd. rewrite <- Hd. rewrite (Derive_ext _ (fun z => k * prodn n (fun i => z - c i))) by auto. apply is_derive_unique.
      eapply dd_eq; [apply (dd_scal (fun z => prodn n (fun i => z - c i)) k); apply prod_derive; auto|]. rewrite Hf. ring. }
    assert (Q : f x / f' = / sumn n (fun i => / (x - c i))). { rewrite F. field. split; auto. intro E. rewrite E, Rmult_0_r in F. auto. }
    set (S := sumn n (fun i => / (x - c i))) in *. assert (S <> 0) by (intro E; rewrite E, Rmult_0_r in F; auto).
    destruct (Classical_Prop.classic (exists i, (i < n)%nat /\ Rabs (x - c i) <= INR n * tol)) as [|NO]; auto. exfalso.
    assert (FAR : forall i, (i < n)%nat -> INR n * tol < Rabs (x - c i)) by (intros i Hi; apply Rnot_le_lt; intro; apply NO; eauto).
    assert (Hn0 : (0 < n)%nat) by (destruct n; [exfalso; apply H0; reflexivity|lia]).
    assert (HN : 0 < INR n) by (now apply lt_0_INR).
    assert (AS : Rabs S * tol < 1).
    { assert (B : forall m, (m <= n)%nat -> (0 < m)%nat -> Rabs (sumn m (fun i => / (x - c i))) * (INR n * tol) < INR m).
      { intros m Hm Hm0. induction m as [|m IH]; [lia|]. cbn [sumn]. rewrite S_INR.
        assert (L : Rabs (/ (x - c m)) * (INR n * tol) < 1).
        { pose proof (FAR m ltac:(lia)) as G. assert (0 < Rabs (x - c m)) by (apply Rabs_pos_lt; specialize (NE m ltac:(lia)); lra). rewrite Rabs_inv.
          apply Rmult_lt_reg_l with (Rabs (x - c m)); auto. rewrite <- Rmult_assoc, Rinv_r, Rmult_1_l, Rmult_1_r by lra. auto. }
        assert (P0 : 0 <= INR n * tol) by (apply Rmult_le_pos; lra).
        apply Rle_lt_trans with ((Rabs (sumn m (fun i => / (x - c i))) + Rabs (/ (x - c m))) * (INR n * tol)); [apply Rmult_le_compat_r; [auto|apply Rabs_triang]|].
        rewrite Rmult_plus_distr_r. destruct m as [|m]; [cbn [sumn]; rewrite Rabs_R0; simpl INR; lra|]. specialize (IH ltac:(lia) ltac:(lia)). lra. }
      specialize (B n ltac:(lia) Hn0). fold S in B. apply Rmult_lt_reg_l with (INR n); auto. lra. }
    rewrite Q, Rabs_inv in Ht. assert (0 < Rabs S) by (now apply Rabs_pos_lt).
    apply Rmult_le_compat_l with (r := Rabs S) in Ht; [|lra]. rewrite Rinv_r in Ht by lra. lra.
Qed.

(** ** the Gauss-Legendre rule *)
Section Gauss.
Variable m : nat. Hypothesis Hm : (1 <= m)%nat.
Definition gk (x y : R) : R := sumn m (fun k => (2 * INR k + 1) * leg k x * leg k y).
Definition gw (x : R) : R := 2 / gk x x.
Lemma gk_pos x : 0 < gk x x. Proof. now apply leg_square_sum. Qed.
Lemma gw_pos x : 0 < gw x. Proof. apply Rdiv_lt_0_compat; [lra|apply gk_pos]. Qed.
Lemma gk_off x y : leg m x = 0 -> leg m y = 0 -> x <> y -> gk x y = 0.
Proof.
  intros Hx Hy Hn. pose proof (CD m x y) as E. rewrite Hx, Hy in E. unfold gk. apply (Rmult_eq_reg_l (x - y)); [|lra]. rewrite E. ring.
Qed.
Lemma gk_deg y : deg_le (m - 1) (gk y).
Proof.
  unfold gk. apply (deg_sumn (m - 1) m (fun k z => (2 * INR k + 1) * leg k y * leg k z)). intros i Hi.
  apply (deg_ext _ (fun z => (2 * INR i + 1) * leg i y * leg i z + 0 * leg i z)); [intro; ring|]. apply deg_lin; apply (deg_mono i); try lia; apply deg_leg.
Qed.
Lemma leg_int k : is_RInt (leg k) (-1) 1 (if (k =? 0)%nat then 2 else 0).
Proof.
  apply (int_ext (fun z => leg 0 z * leg k z)); [intro; rewrite leg_0; ring|]. eapply int_eq; [apply I2_is|]. rewrite I2_val. destruct k; simpl; [field|reflexivity].
Qed.
Lemma gk_int y : is_RInt (gk y) (-1) 1 2.
Proof.
  unfold gk. assert (S : forall n, is_RInt (fun z => sumn n (fun k => (2 * INR k + 1) * leg k y * leg k z)) (-1) 1 (if (n =? 0)%nat then 0 else 2)).
  { induction n as [|n IH]; [cbn [sumn Nat.eqb]; eapply int_eq; [apply int_const|ring]|]. cbn [sumn]. eapply int_eq; [apply int_plus; [exact IH|apply int_scal; apply leg_int]|].
    destruct n; simpl; [rewrite leg_0; ring|ring]. }
  eapply int_eq; [apply S|]. destruct (Nat.eqb_spec m 0); [lia|reflexivity].
Qed.
Definition ginterp (v : R -> R) (l : list R) (x : R) : R := rsum (map (fun y => v y * (gw y / 2) * gk y x) l).
Lemma ginterp_out v l x : (forall y, In y l -> leg m y = 0) -> leg m x = 0 -> ~ In x l -> ginterp v l x = 0.
Proof.
  intros Hl Hx Hn. induction l as [|y l IH]; [reflexivity|]. unfold ginterp in *. cbn [map rsum fold_right]. unfold rsum in IH.
  rewrite IH; [|intros; apply Hl; right; auto|intro; apply Hn; right; auto]. rewrite gk_off; [ring|apply Hl; left; auto|auto|intros ->; apply Hn; left; auto].
Qed.
Lemma ginterp_in v l x : NoDup l -> (forall y, In y l -> leg m y = 0) -> In x l -> ginterp v l x = v x.
Proof.
  intros Hd Hl Hx. induction Hd as [|y l Hy Hd IH]; [destruct Hx|]. unfold ginterp. cbn [map rsum fold_right]. fold (rsum (map (fun y => v y * (gw y / 2) * gk y x) l)).
  fold (ginterp v l x). destruct Hx as [->|Hx].
  - rewrite ginterp_out; [|intros; apply Hl; right; auto|apply Hl; left; auto|auto]. unfold gw. pose proof (gk_pos x). field. lra.
  - rewrite IH; auto; [|intros; apply Hl; right; auto]. rewrite gk_off; [ring|apply Hl; left; auto|apply Hl; right; auto|intros ->; auto].
Qed.
Lemma ginterp_deg v l : deg_le (m - 1) (ginterp v l).
Proof.
  induction l as [|y l IH]; [apply (deg_ext _ (fun _ => 0)); [reflexivity|apply deg_const]|]. unfold ginterp. cbn [map rsum fold_right].
  apply (deg_ext _ (fun x => v y * (gw y / 2) * gk y x + 1 * ginterp v l x)); [intro; unfold ginterp, rsum; ring|]. apply deg_lin; [apply gk_deg|auto].
Qed.
Lemma ginterp_int v l : is_RInt (ginterp v l) (-1) 1 (rsum (map (fun y => gw y * v y) l)).
Proof.
  induction l as [|y l IH]; [apply (int_ext (fun _ => 0)); [reflexivity|]; eapply int_eq; [apply int_const|simpl; ring]|]. unfold ginterp. cbn [map rsum fold_right].
  eapply int_eq; [apply int_plus; [apply int_scal; apply gk_int|exact IH]|]. unfold rsum. field.
Qed.
Variable ns : list R.
Hypothesis Hnd : NoDup ns.
Hypothesis Hlen : length ns = m.
Hypothesis Hnode : forall x, In x ns -> leg m x = 0.
Definition gauss_rule : list (R * R) := map (fun x => (x, gw x)) ns.
Lemma qsum_gauss v : qsum gauss_rule v = rsum (map (fun y => gw y * v y) ns).
Proof. unfold gauss_rule, qsum. f_equal. rewrite map_map. apply map_ext. intro; reflexivity. Qed.
Lemma ginterp_exact v : deg_le (m - 1) v -> forall x, ginterp v ns x = v x.
Proof.
  intros Hv x. assert (D : deg_le (m - 1) (fun z => 1 * ginterp v ns z + (-1) * v z)) by (apply deg_lin; [apply ginterp_deg|auto]).
  destruct D as (l & L & E). assert (Z : ph l x = 0).
  { apply (ph_roots ns Hnd); [lia|]. intros r Hr. rewrite <- E, ginterp_in by auto. ring. }
  rewrite <- E in Z. lra.
Qed.
Lemma gauss_low v : deg_le (m - 1) v -> leg_exact gauss_rule v.
Proof. intros Hv. unfold leg_exact. rewrite qsum_gauss. eapply int_ext; [|apply ginterp_int]. intro; now apply ginterp_exact. Qed.
Lemma gauss_top k : (k < m)%nat -> leg_exact gauss_rule (fun z => z ^ k * leg m z).
Proof.
  intros Hk. unfold leg_exact. replace (qsum gauss_rule (fun z => z ^ k * leg m z)) with 0; [now apply (x_orth 1 (le_n 1) (0 :: 0 :: nil) eq_refl)|].
  rewrite qsum_gauss. revert Hnode. clear. induction ns as [|y l IH]; intro H; [reflexivity|]. cbn [map rsum fold_right].
  unfold rsum in IH. rewrite <- IH by (intros; apply H; right; auto). rewrite H by (left; auto). ring.
Qed.
Lemma gauss_xleg k : forall j, (j <= m)%nat -> (k + j <= 2 * m - 1)%nat -> leg_exact gauss_rule (fun z => z ^ k * leg j z).
Proof.
  induction k as [|k IH]; intros j Hj Hd.
  - destruct (Nat.eq_dec j m) as [->|]; [apply gauss_top; lia|]. apply gauss_low. apply (deg_ext _ (leg j)); [intro; simpl; ring|]. apply (deg_mono j); [lia|]. apply deg_leg.
  - destruct (Nat.eq_dec j m) as [->|]; [apply gauss_top; lia|]. destruct j as [|i].
    + apply (lexact_ext _ (fun z => z ^ k * leg 1 z)); [intro; rewrite leg_0, leg_1; simpl; ring|]. apply IH; lia.
    + apply (lexact_ext _ (fun z => (INR i + 2) / (2 * INR i + 3) * (z ^ k * leg (S (S i)) z) + (INR i + 1) / (2 * INR i + 3) * (z ^ k * leg i z))).
      * intro z. pose proof (leg_x_rec i z) as E. transitivity (z ^ k * (z * leg (S i) z)); [rewrite E|cbn [pow]]; ring.
      * apply lexact_lin; apply IH; lia.
Qed.
Lemma gauss_exact_to : exact_to gauss_rule (2 * m - 1).
Proof. intros k Hk. apply (lexact_ext _ (fun z => z ^ k * leg 0 z)); [intro; rewrite leg_0; ring|]. apply gauss_xleg; lia. Qed.
End Gauss.
(** ** a rule of m points that is exact up to degree 2 m - 1 is this rule *)
Definition lprod (l : list R) (z : R) : R := fold_right (fun y acc => (z - y) * acc) 1 l.
Lemma lprod_deg l : deg_le (length l) (lprod l).
Proof.
  induction l as [|y l IH]; [apply (deg_const 0 1)|]. cbn [length]. unfold lprod. cbn [fold_right]. fold (lprod l).
  apply (deg_ext _ (fun z => 1 * (z * lprod l z) + (- y) * lprod l z)); [intro; unfold lprod; ring|]. apply deg_lin; [now apply deg_x|apply (deg_mono (length l)); auto].
Qed.
Lemma lprod_zero l y : In y l -> lprod l y = 0.
Proof. induction l as [|a l IH]; [intros []|]. unfold lprod. cbn [fold_right]. fold (lprod l y). intros [->|H]; [ring|]. rewrite IH by auto. ring. Qed.
Lemma lprod_nz l y : ~ In y l -> lprod l y <> 0.
Proof.
  induction l as [|a l IH]; unfold lprod; cbn [fold_right]; [intros _; lra|]. fold (lprod l y). intros H. apply Rmult_integral_contrapositive. split.
  - intro E. apply H. left. lra.
  - apply IH. intro. apply H. now right.
Qed.
Lemma exact_pow q D d v k : exact_to q D -> deg_le d v -> (d + k <= D)%nat -> leg_exact q (fun z => v z * z ^ k).
Proof.
  intros E (l & L & H) Hd. apply (lexact_ext _ (fun z => ph l z * z ^ k)); [intro; now rewrite H|]. clear H v.
  assert (Hk : (length l + k <= S D)%nat) by lia. clear L Hd. revert k Hk. induction l as [|c t IH]; intros k Hk.
  - unfold leg_exact. apply (int_ext (fun _ => 0)); [intro; simpl; ring|]. eapply int_eq; [apply int_const|]. rewrite (qsum_ext _ _ (fun z => 0 * 1 + 0 * 1)) by (intro; simpl; ring). rewrite (qsum_lin q (fun _ => 1) (fun _ => 1) 0 0). ring.
  - cbn [length] in Hk. apply (lexact_ext _ (fun z => c * z ^ k + 1 * (ph t z * z ^ S k))); [intro z; unfold ph; cbn [fold_right pow]; ring|].
    apply lexact_lin; [apply E; lia|apply IH; lia].
Qed.
Lemma exact_prod q D d e u v : exact_to q D -> deg_le d u -> deg_le e v -> (d + e <= D)%nat -> leg_exact q (fun z => u z * v z).
Proof.
  intros E U (l & L & H) Hd. apply (lexact_ext _ (fun z => u z * z ^ 0 * ph l z)); [intro; rewrite H; simpl; ring|]. clear H v.
  assert (Hk : (length l + d + 0 <= S D)%nat) by lia. clear L Hd. revert Hk. generalize 0%nat as k. induction l as [|c t IH]; intros k Hk.
  - unfold leg_exact. apply (int_ext (fun _ => 0)); [intro; simpl; ring|]. eapply int_eq; [apply int_const|]. rewrite (qsum_ext _ _ (fun z => 0 * 1 + 0 * 1)) by (intro; simpl; ring). rewrite (qsum_lin q (fun _ => 1) (fun _ => 1) 0 0). ring.
  - cbn [length] in Hk. apply (lexact_ext _ (fun z => c * (u z * z ^ k) + 1 * (u z * z ^ S k * ph t z))); [intro z; unfold ph; cbn [fold_right pow]; ring|].
    apply lexact_lin; [apply (exact_pow q D d); auto; lia|apply IH; lia].
Qed.
Lemma poly_orth d v j : deg_le d v -> (d < j)%nat -> is_RInt (fun z => v z * leg j z) (-1) 1 0.
Proof.
  intros (l & L & H) Hj. apply (int_ext (fun z => z ^ 0 * ph l z * leg j z)); [intro; rewrite H; simpl; ring|]. clear H v.
  assert (Hk : (length l + 0 <= j)%nat) by lia. clear L Hj. revert Hk. generalize 0%nat as k. induction l as [|c t IH]; intros k Hk.
  - apply (int_ext (fun _ => 0)); [intro; simpl; ring|]. eapply int_eq; [apply int_const|ring].
  - cbn [length] in Hk. apply (int_ext (fun z => c * (z ^ k * leg j z) + z ^ S k * ph t z * leg j z)); [intro; unfold ph; cbn [fold_right pow]; ring|].
    eapply int_eq; [apply int_plus; [apply int_scal; apply (x_orth 1 (le_n 1) (0 :: 0 :: nil) eq_refl); lia|apply IH; lia]|ring].
Qed.
Lemma gauss_exists m : (1 <= m)%nat -> exists ns, NoDup ns /\ length ns = m /\ (forall x, In x ns -> leg m x = 0 /\ -1 < x < 1) /\ (forall i, (S i < m)%nat -> nth i ns 0 < nth (S i) ns 0).
Proof.
  intros Hm. destruct m as [|n]; [lia|]. destruct (legendre_zeros n) as (s & I & Z & _). exists (map s (seq 0 (S n))).
  assert (N : forall i, (i < S n)%nat -> nth i (map s (seq 0 (S n))) 0 = s i).
  { intros i Hi. rewrite nth_indep with (d' := s 0%nat) by (rewrite map_length, seq_length; auto). rewrite map_nth, seq_nth; auto. }
  split; [|split; [now rewrite map_length, seq_length|split]].
  - apply (NoDup_nth _ 0). rewrite map_length, seq_length. intros i j Hi Hj E. rewrite !N in E by auto.
    destruct (Nat.lt_trichotomy i j) as [H|[H|H]]; auto; [pose proof (inside_lt _ _ i j I H Hj)|pose proof (inside_lt _ _ j i I H Hi)]; lra.
  - intros x Hx. apply in_map_iff in Hx as (i & <- & Hi). apply in_seq in Hi. split; [apply Z; lia|apply I; lia].
  - intros i Hi. rewrite !N by lia. apply I. auto.
Qed.
Lemma square_zero d u : deg_le d u -> is_RInt (fun z => u z * u z) (-1) 1 0 -> forall z, u z = 0.
Proof.
  intros D Int. destruct (gauss_exists (S d) ltac:(lia)) as (ns & Hd & Hl & Hz & _).
  assert (E : qsum (gauss_rule (S d) ns) (fun z => u z * u z) = 0).
  { assert (P : leg_exact (gauss_rule (S d) ns) (fun z => u z * u z)).
    { apply (exact_prod _ (2 * S d - 1) d d); auto; [|lia]. apply gauss_exact_to; auto; [lia|intros; now apply Hz]. }
    unfold leg_exact in P. apply int_uniq in P. apply int_uniq in Int. congruence. }
  rewrite qsum_gauss in E.
  assert (A : forall l, 0 <= rsum (map (fun y => gw (S d) y * (u y * u y)) l) /\ (rsum (map (fun y => gw (S d) y * (u y * u y)) l) = 0 -> forall y, In y l -> u y = 0)).
  { induction l as [|y l (I1 & I2)]; [split; [cbn; lra|intros _ y []]|]. cbn [map rsum fold_right]. unfold rsum in *. pose proof (gw_pos (S d) ltac:(lia) y). pose proof (Rle_0_sqr (u y)) as Q. unfold Rsqr in Q.
    pose proof (Rmult_le_pos _ _ (Rlt_le _ _ H) Q). split; [lra|]. intros Hs x [->|Hx]; [|apply I2; auto; lra].
    assert (K : gw (S d) x * (u x * u x) = 0) by lra. apply Rmult_integral in K as [K|K]; [lra|]. apply Rmult_integral in K as [K|K]; auto. }
  destruct D as (l & L & H). intros z. rewrite H. apply (ph_roots ns Hd); [lia|]. intros r Hr. rewrite <- H. apply (proj2 (A ns) E). auto.
Qed.
Lemma qsum_app q r v : qsum (q ++ r) v = qsum q v + qsum r v.
Proof. unfold qsum. rewrite map_app. induction q as [|p q IH]; cbn [map app rsum fold_right]; [unfold rsum; ring|]. unfold rsum in *. rewrite IH. ring. Qed.
Lemma qsum_vanish q v : (forall x, In x (map fst q) -> v x = 0) -> qsum q v = 0.
Proof. unfold qsum. induction q as [|p q IH]; intros H; [reflexivity|]. cbn [map rsum fold_right]. unfold rsum in IH. rewrite IH by (intros; apply H; now right). rewrite (H (fst p)) by (left; reflexivity). ring. Qed.
Lemma fresh (l : list R) : exists x, ~ In x l.
Proof.
  assert (B : exists M, forall y, In y l -> y <= M).
  { induction l as [|a l (M & HM)]; [exists 0; intros y []|]. exists (Rmax a M). intros y [->|H]; [apply Rmax_l|]. apply Rle_trans with M; [auto|apply Rmax_r]. }
  destruct B as (M & HM). exists (M + 1). intros H. specialize (HM _ H). lra.
Qed.
Lemma rule_unique m q : (1 <= m)%nat -> length q = m -> exact_to q (2 * m - 1) -> NoDup (map fst q) /\ forall x w, In (x, w) q -> leg m x = 0 /\ w = gw m x.
Proof.
  intros Hm Hl E.
  assert (NZ : forall L, (length L < m)%nat -> is_RInt (fun z => lprod L z * lprod L z) (-1) 1 0 -> False).
  { intros L HL Int. destruct (fresh L) as (x & Hx). apply (lprod_nz L x Hx). apply (square_zero (length L)); auto. apply lprod_deg. }
  assert (EX : forall L v, (length L < m)%nat -> deg_le m v -> leg_exact q (fun z => lprod L z * v z)).
  { intros L v HL D. apply (exact_prod q (2 * m - 1) (m - 1) m); auto; [|lia]. apply (deg_mono (length L)); [lia|apply lprod_deg]. }
  assert (ND : NoDup (map fst q)).
  { destruct (Classical_Prop.classic (NoDup (map fst q))) as [|N]; auto. exfalso. set (L := nodup Req_EM_T (map fst q)).
    assert (HL : (length L < m)%nat).
    { assert (incl L (map fst q)) by (intros y Hy; now apply nodup_In in Hy). pose proof (NoDup_incl_length (NoDup_nodup Req_EM_T (map fst q)) H) as LE. fold L in LE. rewrite map_length in LE.
      destruct (Nat.eq_dec (length L) m) as [EQ|]; [|lia]. exfalso. apply N. apply (NoDup_incl_NoDup (l := L)); auto; [apply NoDup_nodup|rewrite map_length; lia]. }
    apply (NZ L HL). assert (D : deg_le m (lprod L)) by (apply (deg_mono (length L)); [lia|apply lprod_deg]). specialize (EX L _ HL D). unfold leg_exact in EX.
    rewrite qsum_vanish in EX; auto. intros x Hx. rewrite lprod_zero; [ring|]. now apply nodup_In. }
  split; auto.
  assert (LZ : forall x w, In (x, w) q -> leg m x = 0).
  { intros x w Hx. apply in_split in Hx as (l1 & l2 & Eq). set (L := map fst (l1 ++ l2)).
    assert (HL : (length L < m)%nat) by (unfold L; rewrite map_length, app_length; rewrite Eq, app_length in Hl; cbn in Hl; lia).
    assert (NI : ~ In x L). { rewrite Eq, map_app in ND. cbn [map fst] in ND. apply NoDup_remove_2 in ND. unfold L. now rewrite map_app. }
    assert (V : forall v, qsum q (fun z => lprod L z * v z) = w * (lprod L x * v x)).
    { intros v. rewrite Eq, qsum_app. change ((x, w) :: l2) with (((x, w) :: nil) ++ l2). rewrite qsum_app. rewrite (qsum_vanish l1), (qsum_vanish l2).
      - unfold qsum. cbn. ring.
      - intros y Hy. rewrite lprod_zero; [ring|]. unfold L. rewrite map_app. apply in_or_app. now right.
      - intros y Hy. rewrite lprod_zero; [ring|]. unfold L. rewrite map_app. apply in_or_app. now left. }
    assert (W : w <> 0).
    { intros ->. apply (NZ L HL). assert (D : deg_le m (lprod L)) by (apply (deg_mono (length L)); [lia|apply lprod_deg]). specialize (EX L _ HL D). unfold leg_exact in EX. rewrite V in EX.
      eapply int_eq; [exact EX|ring]. }
    pose proof (EX L (leg m) HL (deg_leg m)) as P. unfold leg_exact in P. rewrite V in P.
    pose proof (poly_orth (m - 1) (lprod L) m ltac:(apply (deg_mono (length L)); [lia|apply lprod_deg]) ltac:(lia)) as O. apply int_uniq in P. apply int_uniq in O. rewrite P in O.
    apply Rmult_integral in O as [O|O]; [tauto|]. apply Rmult_integral in O as [O|O]; auto. exfalso. now apply (lprod_nz L x). }
  intros x w Hx. split; [eauto|]. pose proof Hx as Hx'. apply in_split in Hx as (l1 & l2 & Eq).
  assert (G : leg_exact q (gk m x)).
  { apply (lexact_ext _ (fun z => gk m x z * z ^ 0)); [intro; simpl; ring|]. apply (exact_pow q (2 * m - 1) (m - 1)); auto; [now apply gk_deg|lia]. }
  unfold leg_exact in G. pose proof (gk_int m Hm x) as J. apply int_uniq in G. apply int_uniq in J. rewrite J in G.
  assert (OFF : forall y, In y (map fst l1) \/ In y (map fst l2) -> gk m x y = 0).
  { intros y Hy. apply gk_off; [eauto| |].
    - assert (In y (map fst q)) by (rewrite Eq, map_app; cbn [map]; apply in_or_app; destruct Hy; [now left|right; now right]). apply in_map_iff in H as ((y' & w') & <- & Hq). eauto.
    - intros ->. rewrite Eq, map_app in ND. cbn [map fst] in ND. apply NoDup_remove_2 in ND. apply ND. now apply in_or_app. }
  rewrite Eq, qsum_app in G. change ((x, w) :: l2) with (((x, w) :: nil) ++ l2) in G. rewrite qsum_app, (qsum_vanish l1), (qsum_vanish l2) in G by auto.
  unfold qsum in G. cbn in G. unfold gw. pose proof (gk_pos m Hm x). rewrite G. field. lra.
Qed.
Lemma inc_id m (g : nat -> nat) : (forall i, (S i < m)%nat -> (g i < g (S i))%nat) -> (forall i, (i < m)%nat -> (g i < m)%nat) -> forall i, (i < m)%nat -> g i = i.
Proof.
  intros Hi Hb. assert (A : forall i, (i < m)%nat -> (i <= g i)%nat). { induction i as [|i IH]; intros H; [lia|]. specialize (IH ltac:(lia)). specialize (Hi i H). lia. }
  assert (B : forall k i, (i + k < m)%nat -> (g i + k <= g (i + k))%nat). { induction k as [|k IH]; intros i H; [rewrite !Nat.add_0_r; lia|]. specialize (IH i ltac:(lia)). specialize (Hi (i + k)%nat ltac:(lia)). replace (i + S k)%nat with (S (i + k)) by lia. lia. }
  intros i H. specialize (A i H). specialize (B (m - 1 - i)%nat i ltac:(lia)). specialize (Hb (i + (m - 1 - i))%nat ltac:(lia)). lia.
Qed.
Lemma zeros_only n s z : inside (S n) s -> (forall i, (i <= n)%nat -> leg (S n) (s i) = 0) -> leg (S n) z = 0 -> exists i, (i <= n)%nat /\ z = s i.
Proof.
  intros I Z H. destruct (factor_inside (leg (S n)) (S n) s (deg_leg _) I) as (k & Hk); [intros; apply Z; lia|].
  assert (k <> 0). { intros ->. pose proof (Hk 1) as K. rewrite leg_1_val in K. lra. }
  rewrite Hk in H. apply Rmult_integral in H as [|H]; [tauto|]. apply prodn_zero_inv in H as (i & Hi & E). exists i. split; [lia|lra].
Qed.
Lemma zeros_unique n s t : inside (S n) s -> (forall i, (i <= n)%nat -> leg (S n) (s i) = 0) -> (forall i, (S i < S n)%nat -> t i < t (S i)) -> (forall i, (i <= n)%nat -> leg (S n) (t i) = 0) ->
  forall i, (i <= n)%nat -> t i = s i.
Proof.
  intros I Z T Zt. destruct (finite_pick (fun i x => exists j, (j <= n)%nat /\ t i = s j /\ x = INR j) (S n)) as (f & Hf).
  { intros i Hi. destruct (zeros_only n s (t i) I Z (Zt i ltac:(lia))) as (j & Hj & E). exists (INR j), j. auto. }
  assert (G : forall k, (k <= S n)%nat -> exists g : nat -> nat, forall i, (i < k)%nat -> (g i <= n)%nat /\ t i = s (g i)).
  { induction k as [|k IH]; intros Hk; [exists (fun _ => 0%nat); intros; lia|]. destruct IH as (g & Hg); [lia|]. destruct (Hf k ltac:(lia)) as (j & Hj & E & _).
    exists (fun i => if (i =? k)%nat then j else g i). intros i Hi. destruct (Nat.eqb_spec i k) as [->|]; auto. apply Hg. lia. }
  destruct (G (S n) (le_n _)) as (g & Hg). intros i Hi. rewrite (proj2 (Hg i ltac:(lia))). f_equal. apply (inc_id (S n)); [| |lia].
  - intros j Hj. specialize (T j Hj). rewrite (proj2 (Hg j ltac:(lia))), (proj2 (Hg (S j) Hj)) in T.
    destruct (Nat.lt_trichotomy (g j) (g (S j))) as [|[E|H]]; auto; [rewrite E in T; lra|]. destruct (Hg j ltac:(lia)). pose proof (inside_lt _ _ _ _ I H ltac:(lia)). lra.
  - intros j Hj. destruct (Hg j Hj). lia.
Qed.
