(** C190: the scalar flux reported, point by point, and the root mean square error that the scripts print. *)
From Coquelicot Require Import Coquelicot.
From Verif Require Import Py PyLemmas Calc Legendre DGModel DGSpec DGProofs DGInt FuncModel FuncLobatto StabSpec StabProofs ErrSpec ErrLeib ErrProofs ErrEnergy ErrApprox ErrThms ExistSpec ExistProofs ExistThms TimeModel TimeProofs TimeThms TimeOrder TimeOrderThms FullThms TimeRate TimeRateThms FullRateThms MomentThms OutModel OutProofs FluxErrThms.
From Verif Require BenchModel SphErrInv S2Thms UniqueFin.

(** the cell make_phi takes for a point: its left end belongs to the cell before it, except at the first edge *)
Definition in_cell (c : flux_cfg) (E : nat -> R -> R) (t : R) (s : nat) (x : R) : Prop :=
  (s < fN c)%nat /\ (E s t < x <= E (S s) t \/ s = 0%nat /\ x = E 0%nat t).
(** [points_within c E N_ang ws u psi t B]: for every list of points, each with its cell, the reported scalar flux is within
    the square root of B of the scalar flux of psi at every point, and so is the root mean square error. *)
Definition points_within (c : flux_cfg) (E : nat -> R -> R) (N_ang : nat) (ws : nat -> R) (u : nat -> nat -> nat -> R)
    (psi : nat -> nat -> R -> R -> R) (t B : R) : Prop :=
  forall (ps : list (nat * R)) unc, ps <> nil -> (forall p, In p ps -> in_cell c E t (fst p) (snd p)) ->
  let bench := map (fun p => sumn N_ang (fun a => ws a * psi a (fst p) (snd p) t)) ps in
  exists phi r, make_phi (report_of c E N_ang ws u t (map snd ps) unc) = Ok phi /\ length phi = length ps /\
    (forall i, (i < length ps)%nat -> (nth i phi 0 - nth i bench 0) ^ 2 <= B) /\ BenchModel.rms phi bench = Ok r /\ 0 <= r /\ r ^ 2 <= B.

Lemma basis_sum M x a b : a < b -> a <= x <= b -> sumn (M + 1) (fun j => basis Slab j x a b ^ 2) <= (INR M + 1) ^ 2 / (b - a).
Proof.
  intros Hab Hx. apply Rle_trans with (sumn (M + 1) (fun j => (2 * INR j + 1) / (b - a))).
  - apply sumn_le. intros j _. rewrite <- pow2_abs. assert (P : 0 <= (2 * INR j + 1) / (b - a)) by (apply Rmult_le_pos; [pose proof (pos_INR j); lra|left; apply Rinv_0_lt_compat; lra]).
    rewrite <- (sqrt_sqrt _ P). pose proof (normPn_bound j x a b Hab Hx) as N. rewrite normPn_basis in N by auto.
    pose proof (Rabs_pos (basis Slab j x a b)). simpl. rewrite Rmult_1_r. apply Rmult_le_compat; auto.
  - right. rewrite Nat.add_1_r. induction M as [|M IH]; [cbn [sumn]; simpl (INR 0); field; lra|]. cbn [sumn] in *. rewrite IH, !S_INR. field. lra.
Qed.
(** values of an expansion against its square norm *)
Lemma field_sup M u a b x : a < b -> a <= x <= b -> field Slab M u a b x ^ 2 <= (INR M + 1) ^ 2 / (b - a) * RInt (fun x => field Slab M u a b x ^ 2) a b.
Proof.
  intros Hab Hx. rewrite (int_uniq _ _ _ _ (field_square M u a b Hab)). unfold field at 1.
  eapply Rle_trans; [apply SphErrInv.cs_sum|]. rewrite Rmult_comm. apply Rmult_le_compat_r; [apply sumn_nonneg; intros; apply pow2_ge_0|now apply basis_sum].
Qed.
(** an expansion against a smooth function, at a point *)
Lemma point_near M u a b (f : R -> R) K x : a < b -> (forall y, continuous f y) -> (forall y k, a <= y <= b -> (k <= S M)%nat -> ex_derive_n f k y) ->
  (forall y, a <= y <= b -> Rabs (Derive_n f (S M) y) <= K) -> a <= x <= b ->
  let dl := K * (b - a) ^ S M / INR (fact (S M)) in
  (field Slab M u a b x - f x) ^ 2 <= (2 + 4 * (INR M + 1) ^ 2) * dl ^ 2 + 4 * (INR M + 1) ^ 2 / (b - a) * RInt (fun y => (field Slab M u a b y - f y) ^ 2) a b.
Proof.
  intros Hab Cf Hd HK Hx dl. destruct (taylor M f a b K Hab Hd HK) as (q & Dq & Hq). fold dl in Hq.
  destruct (q_field M a b q Hab Dq) as (w & Hw).
  set (F := fun y => field Slab M u a b y). set (v := fun j => u j - w j).
  assert (Fv : forall y, field Slab M v a b y = F y - q y) by (intros y; unfold v; rewrite field_minus, Hw; reflexivity).
  assert (CF : forall y, continuous F y) by (intros; apply field_cont; auto).
  set (J := RInt (fun y => (F y - f y) ^ 2) a b).
  assert (IJ : is_RInt (fun y => (F y - f y) ^ 2) a b J) by (apply int_val; intros; apply cpow, cminus; auto).
  assert (B1 : RInt (fun y => field Slab M v a b y ^ 2) a b <= 2 * J + 2 * dl ^ 2 * (b - a)).
  { apply (is_RInt_le (fun y => field Slab M v a b y ^ 2) (fun y => 2 * (F y - f y) ^ 2 + 2 * dl ^ 2) a b); [lra| | |].
    - apply int_val. intros y. apply (cpow (fun y => field Slab M v a b y)), field_cont; auto.
    - apply int_plus; [apply int_scal; exact IJ|]. eapply int_eq; [apply int_const|ring].
    - intros y Hy. rewrite Fv. assert (D := Hq y ltac:(lra)). assert (D2 : (f y - q y) ^ 2 <= dl ^ 2) by (rewrite <- (pow2_abs (f y - q y)); apply pow_incr; split; [apply Rabs_pos|exact D]).
      set (p1 := F y - f y). set (p2 := f y - q y) in *. replace (F y - q y) with (p1 + p2) by (unfold p1, p2; ring). assert (0 <= (p1 - p2) ^ 2) by apply pow2_ge_0. nra. }
  assert (B2 := field_sup M v a b x Hab Hx). rewrite Fv in B2.
  assert (D := Hq x Hx). assert (D2 : (f x - q x) ^ 2 <= dl ^ 2) by (rewrite <- (pow2_abs (f x - q x)); apply pow_incr; split; [apply Rabs_pos|exact D]).
  set (m := (INR M + 1) ^ 2) in *. assert (Pm : 0 <= m / (b - a)) by (apply Rmult_le_pos; [apply pow2_ge_0|left; apply Rinv_0_lt_compat; lra]).
  assert (B3 : (F x - q x) ^ 2 <= m / (b - a) * (2 * J + 2 * dl ^ 2 * (b - a))) by (eapply Rle_trans; [exact B2|]; apply Rmult_le_compat_l; auto).
  replace (m / (b - a) * (2 * J + 2 * dl ^ 2 * (b - a))) with (2 * (m / (b - a) * J) + 2 * m * dl ^ 2) in B3 by (field; lra).
  replace (4 * m / (b - a) * J) with (4 * (m / (b - a) * J)) by (field; lra). change (field Slab M u a b x) with (F x).
  set (p1 := F x - q x) in *. set (p2 := f x - q x) in *. replace (F x - f x) with (p1 - p2) by (unfold p1, p2; ring). assert (0 <= (p1 + p2) ^ 2) by apply pow2_ge_0. nra.
Qed.

Lemma first_cell l : rising l -> cell_index l (nth 0 l 0) = 1%nat.
Proof.
  intros [H _]. destruct l as [|e l]; [cbn in H; lia|]. unfold cell_index. cbn [searchsorted nth]. rewrite Rltb_false by lra. cbn [Nat.eqb].
  replace (length (e :: l) <=? 1)%nat with false; [reflexivity|]. symmetry. apply Nat.leb_gt. lia.
Qed.

(** any coefficients *)
Theorem C190_points : forall c E N_ang ws u psi t h0 h K, (1 <= fN c)%nat -> increasing (fN c) (fun k => E k t) ->
  (forall a, (a < N_ang)%nat -> 0 <= ws a) -> sumn N_ang ws = 1 -> 0 < h0 -> (forall s, (s < fN c)%nat -> h0 <= E (S s) t - E s t <= h) ->
  (forall a s x, (a < N_ang)%nat -> (s < fN c)%nat -> continuous (fun y => psi a s y t) x) ->
  (forall a s x k, (a < N_ang)%nat -> (s < fN c)%nat -> E s t <= x <= E (S s) t -> (k <= S (fM c))%nat -> ex_derive_n (fun y => psi a s y t) k x) ->
  (forall a s x, (a < N_ang)%nat -> (s < fN c)%nat -> E s t <= x <= E (S s) t -> Rabs (Derive_n (fun y => psi a s y t) (S (fM c)) x) <= K) ->
  let dl := K * h ^ S (fM c) / INR (fact (S (fM c))) in
  points_within c E N_ang ws u psi t ((2 + 4 * (INR (fM c) + 1) ^ 2) * dl ^ 2 + 4 * (INR (fM c) + 1) ^ 2 / h0 * distance c E N_ang ws psi (fun a s j _ => u a s j) t).
Proof.
  intros c E N_ang ws u psi t h0 h K HN He Hw H1 Hh0 Hh Cp Hd HK dl ps un Hne Hin bench.
  set (B := (2 + 4 * (INR (fM c) + 1) ^ 2) * dl ^ 2 + 4 * (INR (fM c) + 1) ^ 2 / h0 * distance c E N_ang ws psi (fun a s j _ => u a s j) t).
  set (oc := report_of c E N_ang ws u t (map snd ps) un).
  set (m := (INR (fM c) + 1) ^ 2) in *. assert (Pm : 0 <= m) by apply pow2_ge_0.
  assert (Rs : rising (map (fun k => E k t) (seq 0 (S (fN c))))).
  { split; [rewrite map_length, seq_length; lia|]. intros i Hi. rewrite map_length, seq_length in Hi. rewrite !nth_edges by lia. apply He. lia. }
  assert (HM : ogeom oc = Sphere -> (outM oc <= 12)%nat) by discriminate.
  set (fl := fun a s x => field Slab (fM c) (u a s) (E s t) (E (S s) t) x).
  set (v := fun p : nat * R => sumn N_ang (fun a => ws a * fl a (fst p) (snd p))).
  set (e := fun p : nat * R => sumn N_ang (fun a => ws a * psi a (fst p) (snd p) t)).
  assert (Rng : forall p, In p ps -> E (fst p) t <= snd p <= E (S (fst p)) t).
  { intros p Hp. destruct (Hin p Hp) as [Hs [Hx|[Z Hx]]]; [lra|]. rewrite Z, Hx in *. assert (L := He 0%nat ltac:(lia)). cbv beta in L. lra. }
  assert (Cell : forall p, In p ps -> phi_at oc (snd p) = Ok (v p)).
  { intros p Hp. specialize (Rng p Hp). destruct (Hin p Hp) as [Hs Hx]. unfold phi_at. change (oN_ang oc) with N_ang. change (ows oc) with ws.
    rewrite (sum_result_ok _ _ (fun a => ws a * fl a (fst p) (snd p))); [reflexivity|]. intros a Ha.
    rewrite (psi_at_cell oc a (snd p) (fst p) Rs HM).
    - cbn [bind]. unfold cell_field, fl. cbn [oc report_of ogeom outM ou oedges]. rewrite !nth_edges by lia. f_equal. ring.
    - cbn [oc report_of oedges]. rewrite map_length, seq_length. lia.
    - destruct Hx as [Hx|[Z Hx]].
      + apply cell_index_inside; cbn [oc report_of oedges]; rewrite ?map_length, ?seq_length; rewrite ?nth_edges by lia; try exact Rs; try lia; tauto.
      + rewrite Z, Hx. rewrite <- (nth_edges c E t 0) by lia. apply first_cell. exact Rs.
    - cbn [oc report_of oedges]. rewrite !nth_edges by lia. lra. }
  assert (Pt : forall p, In p ps -> (v p - e p) ^ 2 <= B).
  { intros p Hp. specialize (Rng p Hp). destruct (Hin p Hp) as [Hs _]. destruct p as [s x]. cbn [fst snd] in *. unfold v, e. cbn [fst snd].
    assert (Hlt := He s Hs). cbv beta in Hlt. specialize (Hh s Hs).
    set (J := fun a s => RInt (fun x => (fl a s x - psi a s x t) ^ 2) (E s t) (E (S s) t)).
    assert (PJ : forall a k, (a < N_ang)%nat -> (k < fN c)%nat -> 0 <= J a k).
    { intros a k Ha Hk. assert (L := He k Hk). cbv beta in L. apply RInt_ge_0; [lra| |intros; apply pow2_ge_0]. eexists. apply int_val. intros y. apply cpow, cminus; [apply field_cont; exact L|now apply Cp]. }
    replace (sumn N_ang (fun a => ws a * fl a s x) - sumn N_ang (fun a => ws a * psi a s x t)) with (sumn N_ang (fun a => ws a * (fl a s x - psi a s x t))).
    2: { rewrite <- sumn_minus. apply sumn_ext. intros; ring. }
    eapply Rle_trans; [apply mean_square; auto|].
    apply Rle_trans with (sumn N_ang (fun a => ws a * ((2 + 4 * m) * dl ^ 2 + 4 * m / h0 * J a s))).
    - apply sumn_le. intros a Ha. apply Rmult_le_compat_l; [auto|].
      pose proof (point_near (fM c) (u a s) (E s t) (E (S s) t) (fun y => psi a s y t) K x Hlt (fun y => Cp a s y Ha Hs) (fun y k Hy Hk => Hd a s y k Ha Hs Hy Hk) (fun y Hy => HK a s y Ha Hs Hy) Rng) as X.
      cbv zeta in X. fold m in X. change (RInt (fun y => (field Slab (fM c) (u a s) (E s t) (E (S s) t) y - psi a s y t) ^ 2) (E s t) (E (S s) t)) with (J a s) in X.
      assert (PK : 0 <= K) by (eapply Rle_trans; [apply Rabs_pos|exact (HK a s x Ha Hs Rng)]).
      assert (Pf : 0 < INR (fact (S (fM c)))) by apply INR_fact_lt_0.
      assert (D : (K * (E (S s) t - E s t) ^ S (fM c) / INR (fact (S (fM c)))) ^ 2 <= dl ^ 2).
      { apply pow_incr. split.
        - apply Rmult_le_pos; [apply Rmult_le_pos; [auto|apply pow_le; lra]|left; now apply Rinv_0_lt_compat].
        - unfold dl. apply Rmult_le_compat_r; [left; now apply Rinv_0_lt_compat|]. apply Rmult_le_compat_l; [auto|]. apply pow_incr. lra. }
      assert (D' : 4 * m / (E (S s) t - E s t) * J a s <= 4 * m / h0 * J a s).
      { apply Rmult_le_compat_r; [now apply PJ|]. apply Rmult_le_compat_l; [lra|]. apply Rinv_le_contravar; lra. }
      eapply Rle_trans; [exact X|]. apply Rplus_le_compat; [apply Rmult_le_compat_l; lra|exact D'].
    - replace (sumn N_ang (fun a => ws a * ((2 + 4 * m) * dl ^ 2 + 4 * m / h0 * J a s))) with ((2 + 4 * m) * dl ^ 2 * sumn N_ang ws + 4 * m / h0 * sumn N_ang (fun a => ws a * J a s)).
      2: { rewrite <- !sumn_scal, <- sumn_plus. apply sumn_ext. intros; ring. }
      rewrite H1, Rmult_1_r. unfold B. apply Rplus_le_compat_l. apply Rmult_le_compat_l.
      { apply Rmult_le_pos; [lra|left; now apply Rinv_0_lt_compat]. }
      unfold distance. apply sumn_le. intros a Ha. apply Rmult_le_compat_l; [auto|].
      change (J a s <= sumn (fN c) (J a)). clear - Hs Ha PJ. assert (G : forall n, (n <= fN c)%nat -> 0 <= sumn n (J a) /\ ((s < n)%nat -> J a s <= sumn n (J a))).
      { induction n as [|n IH]; intros Hn; cbn [sumn]; [split; [lra|lia]|]. destruct (IH ltac:(lia)) as [P Q]. pose proof (PJ a n Ha ltac:(lia)). split; [lra|]. intros Hsn.
        destruct (Nat.eq_dec s n) as [->|]; [lra|]. specialize (Q ltac:(lia)). lra. }
      now apply G. }
  assert (MP : make_phi oc = Ok (map v ps)).
  { unfold make_phi. change (oxs oc) with (map snd ps). change (ouncollided oc) with false.
    assert (G : forall l, (forall p, In p l -> In p ps) -> map_result (phi_at oc) (map snd l) = Ok (map v l)).
    { induction l as [|p l IH]; intros Hl; [reflexivity|]. cbn [map map_result]. rewrite Cell by (apply Hl; now left). cbn [bind]. rewrite IH by (intros; apply Hl; now right). reflexivity. }
    rewrite G by auto. reflexivity. }
  set (S2 := rsum (map (fun x => x ^ 2) (map (fun p => v p - e p) ps))).
  assert (PL : 0 < INR (length ps)) by (apply lt_0_INR; destruct ps; [contradiction|cbn; lia]).
  assert (BS : S2 / INR (length ps) <= B).
  { apply (Rmult_le_reg_r (INR (length ps))); [auto|]. unfold Rdiv. rewrite Rmult_assoc, Rinv_l, Rmult_1_r by lra. unfold S2. rewrite map_map, Rmult_comm. apply UniqueFin.rsum_bound. exact Pt. }
  assert (PS : 0 <= S2 / INR (length ps)).
  { apply Rmult_le_pos; [|left; now apply Rinv_0_lt_compat]. unfold S2, rsum. clear. induction ps as [|p l IH]; cbn [map fold_right]; [lra|]. assert (0 <= (v p - e p) ^ 2) by apply pow2_ge_0. lra. }
  exists (map v ps), (sqrt (S2 / INR (length ps))). split; [exact MP|]. split; [apply map_length|]. split; [|split; [|split]].
  - intros i Hi. change bench with (map e ps). set (p0 := nth i ps (0%nat, 0)).
    rewrite (nth_indep (map v ps) 0 (v (0%nat, 0))) by (now rewrite map_length). rewrite (nth_indep (map e ps) 0 (e (0%nat, 0))) by (now rewrite map_length).
    rewrite !map_nth. apply Pt. now apply nth_In.
  - change bench with (map e ps). unfold BenchModel.rms. rewrite S2Thms.vsub_map. cbn [bind]. unfold S2. rewrite !map_length.
    destruct ps as [|p l]; [contradiction|reflexivity].
  - apply sqrt_pos.
  - rewrite <- Rsqr_pow2, Rsqr_sqrt by exact PS. exact BS.
Qed.
Print Assumptions C190_points.

Lemma points_within_le c E N_ang ws u psi t B B' : points_within c E N_ang ws u psi t B -> B <= B' -> points_within c E N_ang ws u psi t B'.
Proof.
  intros H L ps un Hne Hin bench. destruct (H ps un Hne Hin) as (phi & r & P1 & P2 & P3 & P4 & P5 & P6). exists phi, r. refine (conj P1 (conj P2 (conj _ (conj P4 (conj P5 _))))).
  - intros i Hi. eapply Rle_trans; [exact (P3 i Hi)|exact L].
  - lra.
Qed.

(** What a run prints, when the benchmark is exact. *)
Theorem C190_run : forall T c E D N_ang ws mus cc Q psi t0 t1 st h0 h K sg,
  consistent T -> fgeom c = Slab -> (2 <= fN c)%nat -> t0 <= t1 -> mesh_c1 c E D -> (forall t, t0 <= t <= t1 -> increasing (fN c) (fun k => E k t)) ->
  (forall k, (k <= fN c)%nat -> lipschitz_on (D k) t0 t1) ->
  (forall s i, (s < fN c)%nat -> (i <= fM c)%nat -> continuous_on (pcoef E (Q s) s i) t0 t1 /\ lipschitz_on (pcoef E (Q s) s i) t0 t1) -> steady c t0 t1 ->
  exact c E D N_ang ws mus cc Q psi t0 t1 -> inflow_exact c E D N_ang mus psi t0 t1 ->
  (forall a, (a < N_ang)%nat -> 0 <= ws a) -> sumn N_ang ws = 1 -> 0 <= cc <= 1 -> 0 < h0 -> (forall s, (s < fN c)%nat -> h0 <= E (S s) t1 - E s t1) ->
  (forall t s, t0 <= t <= t1 -> (s < fN c)%nat -> E (S s) t - E s t <= h) ->
  (forall a s t x k, (a < N_ang)%nat -> (s < fN c)%nat -> t0 <= t <= t1 -> E s t <= x <= E (S s) t -> (k <= S (fM c))%nat -> ex_derive_n (fun y => psi a s y t) k x) ->
  (forall a s t x, (a < N_ang)%nat -> (s < fN c)%nat -> t0 <= t <= t1 -> E s t <= x <= E (S s) t -> Rabs (Derive_n (fun y => psi a s y t) (S (fM c)) x) <= K) ->
  (forall a f t, (a < N_ang)%nat -> (f <= fN c)%nat -> t0 <= t <= t1 -> Rabs (mus a - D f t) <= sg) ->
  exists C d0, 0 < C /\ 0 < d0 /\ forall d hs y, 0 <= d <= d0 -> (forall h, In h hs -> 0 <= h <= d) -> t0 + total hs = t1 ->
    vector N_ang (fN c) (fM c) y -> (forall a s j, (a < N_ang)%nat -> (s < fN c)%nat -> (j <= fM c)%nat -> y (a, s, j) = pcoef E (psi a s) s j t0) ->
    forall y', rk_run T (slabR c E D N_ang ws mus cc (fun s j t => pcoef E (Q s) s j t) st) t0 y hs y' ->
    let m := (INR (fM c) + 1) ^ 2 in let dl := K * h ^ S (fM c) / INR (fact (S (fM c))) in
    points_within c E N_ang ws (fun a s j => y' (a, s, j)) psi t1 ((2 + 4 * m) * dl ^ 2 + 4 * m / h0 * (2 * space_bound c E h K sg t0 t1 + C * d ^ 2)).
Proof.
  intros T c E D N_ang ws mus cc Q psi t0 t1 st h0 h K sg HT Hg HN Hle HM Hinc LD HS Hst HX HI Hw H1 Hc Ph0 Hh0 Hh Hs HK Hsg.
  destruct (C185_slab T c E D N_ang ws mus cc Q psi t0 t1 st h K sg) as (C & d0 & PC & Pd & H); auto.
  exists C, d0. split; [exact PC|]. split; [exact Pd|]. intros d hs y Hd Hhs Ht Hv Hy y' Hr m dl.
  eapply points_within_le; [apply (C190_points c E N_ang ws (fun a s j => y' (a, s, j)) psi t1 h0 h K); auto; try lia|].
  - apply Hinc. lra.
  - intros s Hs'. split; [now apply Hh0|apply Hh; auto; lra].
  - intros a s x Ha Hs'. destruct (ex_eq _ _ _ _ _ _ _ _ _ _ _ HX a s Ha Hs') as (fx & ft & Cc & _). apply (c1_cont _ _ _ _ _ Cc).
  - intros a s x k Ha Hs' Hx Hk. apply Hs; auto. lra.
  - intros a s x Ha Hs' Hx. apply (HK a s t1 x); auto. lra.
  - fold m dl. apply Rplus_le_compat_l. apply Rmult_le_compat_l; [|exact (H d hs y Hd Hhs Ht Hv Hy y' Hr)].
    apply Rmult_le_pos; [assert (0 <= m) by apply pow2_ge_0; lra|left; now apply Rinv_0_lt_compat].
Qed.
Print Assumptions C190_run.

(** the front of [C188_front]: the printed error is at most a constant times the longest step *)
Example C190_front : forall st, exists C d0, 0 < d0 /\ forall d hs y, 0 <= d <= d0 -> (forall h, In h hs -> 0 <= h <= d) -> 0 + total hs = 3 ->
  vector 1 2 1 y -> (forall a s j, (a < 1)%nat -> (s < 2)%nat -> (j <= 1)%nat -> y (a, s, j) = pcoef xE (xpsi a s) s j 0) ->
  forall y', rk_run rk45 (slabR xC xE xD 1 (fun _ => 1) (fun _ => 1) (1 / 2) (fun s j t => pcoef xE (xQ s) s j t) st) 0 y hs y' ->
  points_within xC xE 1 (fun _ => 1) (fun a s j => y' (a, s, j)) xpsi 3 (C * d ^ 2).
Proof.
  intros st. destruct (C185_front st) as (C & d0 & Pd & H). exists (4 * C), d0. split; [exact Pd|]. intros d hs y Hd Hhs Ht Hv Hy y' Hr.
  eapply points_within_le; [apply (C190_points xC xE 1 (fun _ => 1) (fun a s j => y' (a, s, j)) xpsi 3 4 4 0)|].
  - cbn. lia.
  - apply xE_inc. lra.
  - intros; lra.
  - cbn. ring.
  - lra.
  - intros s Hs. unfold xE. rewrite S_INR. lra.
  - intros a s x Ha Hs. destruct (ex_eq _ _ _ _ _ _ _ _ _ _ _ (x_exact 3) a s Ha Hs) as (fx & ft & Cc & _). apply (c1_cont _ _ _ _ _ Cc).
  - intros a s x k _ _ _ _. unfold xpsi. destruct (s =? 0)%nat.
    + apply (ex_derive_n_ext (fun y => y ^ 1)); [intros; ring|apply ex_derive_n_pow].
    + apply (ex_derive_n_ext (fun _ => 0)); [reflexivity|]. apply ex_derive_n_const.
  - intros a s x _ _ _. cbn [fM xC]. replace (Derive_n (fun y => xpsi a s y 3) 2 x) with 0; [rewrite Rabs_R0; lra|].
    symmetry. unfold xpsi. destruct (s =? 0)%nat.
    + change (Derive (Derive (fun y => y)) x = 0). rewrite (Derive_ext _ (fun _ => 1)) by (intros; apply Derive_id). apply Derive_const.
    + apply (Derive_n_const 1).
  - specialize (H d hs y Hd Hhs Ht Hv Hy y' Hr). cbn [fM xC]. simpl (INR 1).
    replace ((2 + 4 * (1 + 1) ^ 2) * (0 * 4 ^ 2 / INR (fact 2)) ^ 2) with 0 by (unfold Rdiv; rewrite Rmult_0_l; ring).
    match goal with |- 0 + 4 * (1 + 1) ^ 2 / 4 * ?x <= _ => replace (0 + 4 * (1 + 1) ^ 2 / 4 * x) with (4 * x) by field end.
    rewrite Rmult_assoc. apply Rmult_le_compat_l; [lra|exact H].
Qed.
