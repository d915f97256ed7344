(** C191: the angular flux reported and the exit distribution, point by point. *)
From Coquelicot Require Import Coquelicot.
From Verif Require Import Py PyLemmas Calc Legendre DGModel DGSpec DGProofs DGInt FuncModel FuncLobatto StabSpec StabProofs ErrSpec ErrLeib ErrProofs ErrEnergy ErrApprox ErrThms ExistSpec ExistProofs ExistThms TimeModel TimeProofs TimeThms TimeOrder TimeOrderThms FullThms CoupErrSpec CoupErrProofs CoupErrThms TimeRate TimeRateThms FullRateThms MomentThms OutModel OutProofs FluxErrThms PointErrThms.

(** [psi_within c E N_ang ws u psi t B]: at every point x of the mesh, s being its cell, the angular flux reported in
    direction a differs from psi by v with ws a * v^2 <= B.  The exit distribution is reported, its entries are this close to
    the values of psi at the outer edges, and the scalar flux there differs from that of psi by v with v^2 <= B. *)
Definition psi_within (c : flux_cfg) (E : nat -> R -> R) (N_ang : nat) (ws : nat -> R) (u : nat -> nat -> nat -> R)
    (psi : nat -> nat -> R -> R -> R) (t B : R) : Prop := forall xs unc, let oc := report_of c E N_ang ws u t xs unc in
  (exists rows, psi_out oc = Ok rows /\ forall a i s, (a < N_ang)%nat -> (i < length xs)%nat -> in_cell c E t s (nth i xs 0) ->
     ws a * (nth i (nth a rows nil) 0 - psi a s (nth i xs 0) t) ^ 2 <= B) /\
  forall check, exists dist l r, get_exit_dist check oc = Ok (dist, l :: r :: nil) /\ length dist = N_ang /\
    (forall a, (a < N_ang)%nat -> ws a * (fst (nth a dist (0, 0)) - psi a 0%nat (E 0%nat t) t) ^ 2 <= B /\
       ws a * (snd (nth a dist (0, 0)) - psi a (fN c - 1)%nat (E (fN c) t) t) ^ 2 <= B) /\
    (l - sumn N_ang (fun a => ws a * psi a 0%nat (E 0%nat t) t)) ^ 2 <= B /\
    (r - sumn N_ang (fun a => ws a * psi a (fN c - 1)%nat (E (fN c) t) t)) ^ 2 <= B.

Lemma weight_le_1 n (w : nat -> R) a : (forall b, (b < n)%nat -> 0 <= w b) -> sumn n w = 1 -> (a < n)%nat -> w a <= 1.
Proof.
  intros Hw H1 Ha. rewrite <- H1. clear H1. induction n as [|n IH]; [lia|]. cbn [sumn].
  assert (P : 0 <= sumn n w) by (apply sumn_nonneg; auto). pose proof (Hw n ltac:(lia)). destruct (Nat.eq_dec a n) as [->|]; [lra|]. specialize (IH ltac:(auto) ltac:(lia)). lra.
Qed.

(** any coefficients *)
Theorem C191_points : forall c E N_ang ws u psi t h0 h K, (1 <= fN c)%nat -> increasing (fN c) (fun k => E k t) ->
  (forall a, (a < N_ang)%nat -> 0 <= ws a) -> sumn N_ang ws = 1 -> 0 < h0 -> (forall s, (s < fN c)%nat -> h0 <= E (S s) t - E s t <= h) ->
  (forall a s x, (a < N_ang)%nat -> (s < fN c)%nat -> continuous (fun y => psi a s y t) x) ->
  (forall a s x k, (a < N_ang)%nat -> (s < fN c)%nat -> E s t <= x <= E (S s) t -> (k <= S (fM c))%nat -> ex_derive_n (fun y => psi a s y t) k x) ->
  (forall a s x, (a < N_ang)%nat -> (s < fN c)%nat -> E s t <= x <= E (S s) t -> Rabs (Derive_n (fun y => psi a s y t) (S (fM c)) x) <= K) ->
  let dl := K * h ^ S (fM c) / INR (fact (S (fM c))) in
  psi_within c E N_ang ws u psi t ((2 + 4 * (INR (fM c) + 1) ^ 2) * dl ^ 2 + 4 * (INR (fM c) + 1) ^ 2 / h0 * distance c E N_ang ws psi (fun a s j _ => u a s j) t).
Proof.
  intros c E N_ang ws u psi t h0 h K HN He Hw H1 Hh0 Hh Cp Hd HK dl xs un oc.
  pose proof (C190_points c E N_ang ws u psi t h0 h K HN He Hw H1 Hh0 Hh Cp Hd HK) as PW. cbv zeta in PW. fold dl in PW.
  set (B := (2 + 4 * (INR (fM c) + 1) ^ 2) * dl ^ 2 + 4 * (INR (fM c) + 1) ^ 2 / h0 * distance c E N_ang ws psi (fun a s j _ => u a s j) t) in *.
  set (m := (INR (fM c) + 1) ^ 2) in *. assert (Pm : 0 <= m) by apply pow2_ge_0.
  assert (Rs : rising (map (fun k => E k t) (seq 0 (S (fN c))))).
  { split; [rewrite map_length, seq_length; lia|]. intros i Hi. rewrite map_length, seq_length in Hi. rewrite !nth_edges by lia. apply He. lia. }
  assert (HM : ogeom oc = Sphere -> (outM oc <= 12)%nat) by discriminate.
  set (fl := fun a s x => field Slab (fM c) (u a s) (E s t) (E (S s) t) x).
  assert (Rng : forall s x, in_cell c E t s x -> E s t <= x <= E (S s) t).
  { intros s x [Hs [Hx|[Z Hx]]]; [lra|]. rewrite Z, Hx in *. assert (L := He 0%nat ltac:(lia)). cbv beta in L. lra. }
  assert (Val : forall a s x, in_cell c E t s x -> psi_at oc a x = Ok (fl a s x)).
  { intros a s x Hx. pose proof (Rng s x Hx) as Rx. destruct Hx as [Hs Hx]. rewrite (psi_at_cell oc a x s Rs HM).
    - unfold cell_field, fl. cbn [oc report_of ogeom outM ou oedges]. rewrite !nth_edges by lia. reflexivity.
    - cbn [oc report_of oedges]. rewrite map_length, seq_length. lia.
    - destruct Hx as [Hx|[Z Hx]].
      + apply cell_index_inside; cbn [oc report_of oedges]; rewrite ?map_length, ?seq_length; rewrite ?nth_edges by lia; try exact Rs; try lia; tauto.
      + rewrite Z, Hx. rewrite <- (nth_edges c E t 0) by lia. apply first_cell. exact Rs.
    - cbn [oc report_of oedges]. rewrite !nth_edges by lia. lra. }
  set (J := fun a s => RInt (fun x => (fl a s x - psi a s x t) ^ 2) (E s t) (E (S s) t)).
  assert (PJ : forall a k, (a < N_ang)%nat -> (k < fN c)%nat -> 0 <= J a k).
  { intros a k Ha Hk. assert (L := He k Hk). cbv beta in L. apply RInt_ge_0; [lra| |intros; apply pow2_ge_0]. eexists. apply int_val. intros y. apply cpow, cminus; [apply field_cont; exact L|now apply Cp]. }
  assert (Part : forall n f i, (i < n)%nat -> (forall k, (k < n)%nat -> 0 <= f k) -> f i <= sumn n f).
  { induction n as [|n IH]; intros f i Hi Hf; [lia|]. cbn [sumn]. pose proof (Hf n ltac:(lia)). destruct (Nat.eq_dec i n) as [->|]; [assert (0 <= sumn n f) by (apply sumn_nonneg; auto); lra|].
    specialize (IH f i ltac:(lia) ltac:(auto)). lra. }
  assert (Pt : forall a s x, (a < N_ang)%nat -> in_cell c E t s x -> ws a * (fl a s x - psi a s x t) ^ 2 <= B).
  { intros a s x Ha Hx. pose proof (Rng s x Hx) as Rx. destruct Hx as [Hs _]. assert (Hlt := He s Hs). cbv beta in Hlt. specialize (Hh s Hs).
    pose proof (point_near (fM c) (u a s) (E s t) (E (S s) t) (fun y => psi a s y t) K x Hlt (fun y => Cp a s y Ha Hs) (fun y k Hy Hk => Hd a s y k Ha Hs Hy Hk) (fun y Hy => HK a s y Ha Hs Hy) Rx) as X.
    cbv zeta in X. fold m in X. change (RInt (fun y => (field Slab (fM c) (u a s) (E s t) (E (S s) t) y - psi a s y t) ^ 2) (E s t) (E (S s) t)) with (J a s) in X.
    assert (PK : 0 <= K) by (eapply Rle_trans; [apply Rabs_pos|exact (HK a s x Ha Hs Rx)]).
    assert (Pf : 0 < INR (fact (S (fM c)))) by apply INR_fact_lt_0.
    assert (D : (K * (E (S s) t - E s t) ^ S (fM c) / INR (fact (S (fM c)))) ^ 2 <= dl ^ 2).
    { apply pow_incr. split.
      - apply Rmult_le_pos; [apply Rmult_le_pos; [auto|apply pow_le; lra]|left; now apply Rinv_0_lt_compat].
      - unfold dl. apply Rmult_le_compat_r; [left; now apply Rinv_0_lt_compat|]. apply Rmult_le_compat_l; [auto|]. apply pow_incr. lra. }
    assert (PJs := PJ a s Ha Hs).
    assert (D' : 4 * m / (E (S s) t - E s t) * J a s <= 4 * m / h0 * J a s).
    { apply Rmult_le_compat_r; [auto|]. apply Rmult_le_compat_l; [lra|]. apply Rinv_le_contravar; lra. }
    assert (X' : (fl a s x - psi a s x t) ^ 2 <= (2 + 4 * m) * dl ^ 2 + 4 * m / h0 * J a s).
    { eapply Rle_trans; [exact X|]. apply Rplus_le_compat; [apply Rmult_le_compat_l; lra|exact D']. }
    apply Rle_trans with (ws a * ((2 + 4 * m) * dl ^ 2 + 4 * m / h0 * J a s)); [apply Rmult_le_compat_l; auto|].
    rewrite Rmult_plus_distr_l. unfold B. apply Rplus_le_compat.
    - pose proof (weight_le_1 N_ang ws a Hw H1 Ha). assert (0 <= (2 + 4 * m) * dl ^ 2) by (apply Rmult_le_pos; [lra|apply pow2_ge_0]). pose proof (Hw a Ha). nra.
    - replace (ws a * (4 * m / h0 * J a s)) with (4 * m / h0 * (ws a * J a s)) by ring. apply Rmult_le_compat_l; [apply Rmult_le_pos; [lra|left; now apply Rinv_0_lt_compat]|].
      unfold distance. apply Rle_trans with (ws a * sumn (fN c) (J a)); [apply Rmult_le_compat_l; [auto|]; apply Part; auto|].
      apply (Part N_ang (fun a => ws a * sumn (fN c) (J a)) a Ha). intros b Hb. apply Rmult_le_pos; [auto|]. apply sumn_nonneg. auto. }
  assert (In0 : in_cell c E t 0 (E 0%nat t)) by (split; [lia|now right]).
  assert (InN : in_cell c E t (fN c - 1) (E (fN c) t)).
  { split; [lia|]. left. assert (L := He (fN c - 1)%nat ltac:(lia)). cbv beta in L. replace (S (fN c - 1)) with (fN c) in * by lia. lra. }
  assert (Phi : forall s x, in_cell c E t s x -> exists v, phi_at oc x = Ok v /\ (v - sumn N_ang (fun a => ws a * psi a s x t)) ^ 2 <= B).
  { intros s x Hx. destruct (PW ((s, x) :: nil) un) as (phi & r & M1 & M2 & M3 & _); [discriminate|intros p [<-|[]]; exact Hx|].
    unfold make_phi in M1. cbn [map snd report_of oxs ouncollided map_result] in M1.
    change (phi_at (report_of c E N_ang ws u t (x :: nil) un) x) with (phi_at oc x) in M1.
    destruct (phi_at oc x) as [v|] eqn:Ev; cbn [bind] in M1; [|discriminate]. injection M1 as <-. exists v. split; [reflexivity|].
    specialize (M3 0%nat ltac:(cbn; lia)). exact M3. }
  split.
  - assert (Tot : forall a x, exists v, psi_at oc a x = Ok v) by (intros; now apply psi_at_total).
    assert (Row : forall a l, exists row, map_result (psi_at oc a) l = Ok row /\ forall i, (i < length l)%nat -> psi_at oc a (nth i l 0) = Ok (nth i row 0)).
    { intros a l. induction l as [|x l (row & R1 & R2)]; [exists nil; split; [reflexivity|cbn; lia]|]. destruct (Tot a x) as [v V]. exists (v :: row). cbn [map_result]. rewrite V, R1. split; [reflexivity|].
      intros [|i] Hi; cbn [nth]; [exact V|apply R2; cbn in Hi; lia]. }
    assert (Rows : forall n k, exists rows, map_result (fun a => map_result (psi_at oc a) xs) (seq k n) = Ok rows /\
      forall a i, (a < n)%nat -> (i < length xs)%nat -> psi_at oc (k + a) (nth i xs 0) = Ok (nth i (nth a rows nil) 0)).
    { induction n as [|n IH]; intros k; [exists nil; split; [reflexivity|lia]|]. destruct (IH (S k)) as (rows & R1 & R2). destruct (Row k xs) as (row & Q1 & Q2).
      exists (row :: rows). cbn [seq map_result]. rewrite Q1, R1. split; [reflexivity|]. intros [|a] i Ha Hi; cbn [nth]; [rewrite Nat.add_0_r; auto|].
      replace (k + S a)%nat with (S k + a)%nat by lia. apply R2; lia. }
    destruct (Rows N_ang 0%nat) as (rows & R1 & R2). exists rows. split; [exact R1|]. intros a i s Ha Hi Hx.
    specialize (R2 a i Ha Hi). cbn [Nat.add] in R2. rewrite (Val a s _ Hx) in R2. injection R2 as <-. now apply Pt.
  - intros check. destruct (Phi _ _ In0) as (l & L1 & L2). destruct (Phi _ _ InN) as (r & Q1 & Q2).
    set (pr := fun a => (fl a 0%nat (E 0%nat t), fl a (fN c - 1)%nat (E (fN c) t))).
    exists (map pr (seq 0 N_ang)), l, r. split; [|split; [rewrite map_length; apply seq_length|split; [|split; [exact L2|exact Q2]]]].
    + assert (G0 : getitem (oedges oc) 0 = Ok (E 0%nat t)) by (cbn [oc report_of oedges]; rewrite (getitem_nth _ 0 0), nth_edges by (rewrite ?map_length, ?seq_length; lia); reflexivity).
      assert (GN : getneg (oedges oc) 1 = Ok (E (fN c) t)).
      { cbn [oc report_of oedges]. rewrite (getneg_nth _ 1 0) by (rewrite map_length, seq_length; lia). rewrite map_length, seq_length. replace (S (fN c) - 1)%nat with (fN c) by lia. now rewrite nth_edges by lia. }
      unfold get_exit_dist. rewrite G0, GN. cbn [bind].
      assert (Gd : forall q, map_result (fun ang => l <- psi_at oc ang (E 0%nat t) ;; r <- psi_at oc ang (E (fN c) t) ;; Ok (l, r)) q = Ok (map pr q)).
      { induction q as [|a q IH]; [reflexivity|]. cbn [map_result map]. rewrite (Val a _ _ In0), (Val a _ _ InN). cbn [bind]. rewrite IH. reflexivity. }
      change (oN_ang oc) with N_ang. rewrite Gd. cbn [bind]. rewrite L1, Q1. cbn [bind]. reflexivity.
    + intros a Ha. rewrite (nth_indep _ (0, 0) (pr 0%nat)) by (rewrite map_length, seq_length; auto). rewrite map_nth, seq_nth by auto. cbn [Nat.add pr fst snd]. split; apply Pt; auto.
Qed.
Print Assumptions C191_points.

Lemma psi_within_le c E N_ang ws u psi t B B' : psi_within c E N_ang ws u psi t B -> B <= B' -> psi_within c E N_ang ws u psi t B'.
Proof.
  intros H L xs un oc. destruct (H xs un) as ((rows & R1 & R2) & X). split.
  - exists rows. split; [exact R1|]. intros a i s Ha Hi Hx. eapply Rle_trans; [exact (R2 a i s Ha Hi Hx)|exact L].
  - intros check. destruct (X check) as (dist & l & r & X1 & X2 & X3 & X4 & X5). exists dist, l, r. refine (conj X1 (conj X2 (conj _ (conj _ _)))); try lra.
    intros a Ha. destruct (X3 a Ha) as [A1 A2]. split; lra.
Qed.

(** at the end of a run *)
Theorem C191_run : forall T c E D N_ang ws mus cc Q psi t0 t1 st h0 h K sg,
  consistent T -> fgeom c = Slab -> (2 <= fN c)%nat -> t0 <= t1 -> mesh_c1 c E D -> (forall t, t0 <= t <= t1 -> increasing (fN c) (fun k => E k t)) ->
  (forall k, (k <= fN c)%nat -> lipschitz_on (D k) t0 t1) ->
  (forall s i, (s < fN c)%nat -> (i <= fM c)%nat -> continuous_on (pcoef E (Q s) s i) t0 t1 /\ lipschitz_on (pcoef E (Q s) s i) t0 t1) -> steady c t0 t1 ->
  exact c E D N_ang ws mus cc Q psi t0 t1 -> inflow_exact c E D N_ang mus psi t0 t1 ->
  (forall a, (a < N_ang)%nat -> 0 <= ws a) -> sumn N_ang ws = 1 -> 0 <= cc <= 1 -> 0 < h0 -> (forall s, (s < fN c)%nat -> h0 <= E (S s) t1 - E s t1) ->
  (forall t s, t0 <= t <= t1 -> (s < fN c)%nat -> E (S s) t - E s t <= h) ->
  (forall a s t x k, (a < N_ang)%nat -> (s < fN c)%nat -> t0 <= t <= t1 -> E s t <= x <= E (S s) t -> (k <= S (fM c))%nat -> ex_derive_n (fun y => psi a s y t) k x) ->
  (forall a s t x, (a < N_ang)%nat -> (s < fN c)%nat -> t0 <= t <= t1 -> E s t <= x <= E (S s) t -> Rabs (Derive_n (fun y => psi a s y t) (S (fM c)) x) <= K) ->
  (forall a f t, (a < N_ang)%nat -> (f <= fN c)%nat -> t0 <= t <= t1 -> Rabs (mus a - D f t) <= sg) ->
  exists C d0, 0 < C /\ 0 < d0 /\ forall d hs y, 0 <= d <= d0 -> (forall h, In h hs -> 0 <= h <= d) -> t0 + total hs = t1 ->
    vector N_ang (fN c) (fM c) y -> (forall a s j, (a < N_ang)%nat -> (s < fN c)%nat -> (j <= fM c)%nat -> y (a, s, j) = pcoef E (psi a s) s j t0) ->
    forall y', rk_run T (slabR c E D N_ang ws mus cc (fun s j t => pcoef E (Q s) s j t) st) t0 y hs y' ->
    let m := (INR (fM c) + 1) ^ 2 in let dl := K * h ^ S (fM c) / INR (fact (S (fM c))) in
    psi_within c E N_ang ws (fun a s j => y' (a, s, j)) psi t1 ((2 + 4 * m) * dl ^ 2 + 4 * m / h0 * (2 * space_bound c E h K sg t0 t1 + C * d ^ 2)).
Proof.
  intros T c E D N_ang ws mus cc Q psi t0 t1 st h0 h K sg HT Hg HN Hle HM Hinc LD HS Hst HX HI Hw H1 Hc Ph0 Hh0 Hh Hs HK Hsg.
  destruct (C185_slab T c E D N_ang ws mus cc Q psi t0 t1 st h K sg) as (C & d0 & PC & Pd & H); auto.
  exists C, d0. split; [exact PC|]. split; [exact Pd|]. intros d hs y Hd Hhs Ht Hv Hy y' Hr m dl.
  eapply psi_within_le; [apply (C191_points c E N_ang ws (fun a s j => y' (a, s, j)) psi t1 h0 h K); auto; try lia|].
  - apply Hinc. lra.
  - intros s Hs'. split; [now apply Hh0|apply Hh; auto; lra].
  - intros a s x Ha Hs'. destruct (ex_eq _ _ _ _ _ _ _ _ _ _ _ HX a s Ha Hs') as (fx & ft & Cc & _). apply (c1_cont _ _ _ _ _ Cc).
  - intros a s x k Ha Hs' Hx Hk. apply Hs; auto. lra.
  - intros a s x Ha Hs' Hx. apply (HK a s t1 x); auto. lra.
  - fold m dl. apply Rplus_le_compat_l. apply Rmult_le_compat_l; [|exact (H d hs y Hd Hhs Ht Hv Hy y' Hr)].
    apply Rmult_le_pos; [assert (0 <= m) by apply pow2_ge_0; lra|left; now apply Rinv_0_lt_compat].
Qed.
Print Assumptions C191_run.

(** the front of [C188_front]: what leaves at the edges *)
Example C191_front : forall st, exists C d0, 0 < d0 /\ forall d hs y, 0 <= d <= d0 -> (forall h, In h hs -> 0 <= h <= d) -> 0 + total hs = 3 ->
  vector 1 2 1 y -> (forall a s j, (a < 1)%nat -> (s < 2)%nat -> (j <= 1)%nat -> y (a, s, j) = pcoef xE (xpsi a s) s j 0) ->
  forall y', rk_run rk45 (slabR xC xE xD 1 (fun _ => 1) (fun _ => 1) (1 / 2) (fun s j t => pcoef xE (xQ s) s j t) st) 0 y hs y' ->
  psi_within xC xE 1 (fun _ => 1) (fun a s j => y' (a, s, j)) xpsi 3 (C * d ^ 2).
Proof.
  intros st. destruct (C185_front st) as (C & d0 & Pd & H). exists (4 * C), d0. split; [exact Pd|]. intros d hs y Hd Hhs Ht Hv Hy y' Hr.
  eapply psi_within_le; [apply (C191_points xC xE 1 (fun _ => 1) (fun a s j => y' (a, s, j)) xpsi 3 4 4 0)|].
  - cbn. lia.
  - apply xE_inc. lra.
  - intros; lra.
  - cbn. ring.
  - lra.
  - intros s Hs. unfold xE. rewrite S_INR. lra.
  - intros a s x Ha Hs. destruct (ex_eq _ _ _ _ _ _ _ _ _ _ _ (x_exact 3) a s Ha Hs) as (fx & ft & Cc & _). apply (c1_cont _ _ _ _ _ Cc).
  - intros a s x k _ _ _ _. unfold xpsi. destruct (s =? 0)%nat.
    + apply (ex_derive_n_ext (fun y => y ^ 1)); [intros; ring|apply ex_derive_n_pow].
    + apply (ex_derive_n_ext (fun _ => 0)); [reflexivity|]. apply ex_derive_n_const.
  - intros a s x _ _ _. cbn [fM xC]. replace (Derive_n (fun y => xpsi a s y 3) 2 x) with 0; [rewrite Rabs_R0; lra|].
    symmetry. unfold xpsi. destruct (s =? 0)%nat.
    + change (Derive (Derive (fun y => y)) x = 0). rewrite (Derive_ext _ (fun _ => 1)) by (intros; apply Derive_id). apply Derive_const.
    + apply (Derive_n_const 1).
  - specialize (H d hs y Hd Hhs Ht Hv Hy y' Hr). cbn [fM xC]. simpl (INR 1).
    replace ((2 + 4 * (1 + 1) ^ 2) * (0 * 4 ^ 2 / INR (fact 2)) ^ 2) with 0 by (unfold Rdiv; rewrite Rmult_0_l; ring).
    match goal with |- 0 + 4 * (1 + 1) ^ 2 / 4 * ?x <= _ => replace (0 + 4 * (1 + 1) ^ 2 / 4 * x) with (4 * x) by field end.
    rewrite Rmult_assoc. apply Rmult_le_compat_l; [lra|exact H].
Qed.
