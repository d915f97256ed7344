(** C192: the report with the uncollided part added. *)
From Coq Require Import FunctionalExtensionality.
From Coquelicot Require Import Coquelicot.
From Verif Require Import Py PyLemmas Calc Legendre DGModel DGSpec FuncModel StabSpec DGProofs DGInt FuncLobatto ErrSpec ErrLeib ErrProofs ErrThms ExistSpec ExistProofs ExistThms TimeModel TimeProofs TimeExist TimeThms TimeOrder TimeOrderThms FullThms TimeRate TimeRateThms FullRateThms OutModel OutProofs FluxErrThms PointErrThms.
From Verif Require BenchModel S2Thms.

(** make_output as solve builds it when the uncollided solution is on *)
Definition report_unc (c : flux_cfg) (E : nat -> R -> R) (N_ang : nat) (ws : nat -> R) (u : nat -> nat -> nat -> R) (t : R)
    (xs : list R) (unc : R -> R -> result R) : out_cfg :=
  {| ot := t; oN_ang := N_ang; ows := ws; oxs := xs; ou := u; outM := fM c; oedges := map (fun k => E k t) (seq 0 (S (fN c)));
     ouncollided := true; ogeom := Slab; unc := unc |}.
(** [total_within ... B]: as [points_within], for the sum of both parts; U is the uncollided scalar flux at time t. *)
Definition total_within (c : flux_cfg) (E : nat -> R -> R) (N_ang : nat) (ws : nat -> R) (u : nat -> nat -> nat -> R)
    (psi : nat -> nat -> R -> R -> R) (t B : R) : Prop :=
  forall (ps : list (nat * R)) unc U, ps <> nil -> (forall p, In p ps -> in_cell c E t (fst p) (snd p) /\ unc (snd p) t = Ok (U (snd p))) ->
  let bench := map (fun p => sumn N_ang (fun a => ws a * psi a (fst p) (snd p) t) + U (snd p)) ps in
  exists phi r, make_phi (report_unc c E N_ang ws u t (map snd ps) unc) = Ok phi /\ length phi = length ps /\
    (forall i, (i < length ps)%nat -> (nth i phi 0 - nth i bench 0) ^ 2 <= B) /\ BenchModel.rms phi bench = Ok r /\ 0 <= r /\ r ^ 2 <= B.

Lemma map2_nth (f : R -> R -> R) (l l' : list R) i : length l = length l' -> (i < length l)%nat -> nth i (map2 f l l') 0 = f (nth i l 0) (nth i l' 0).
Proof.
  revert l' i. induction l as [|x l IH]; intros [|y l'] i Hl Hi; cbn in *; try lia. destruct i as [|i]; [reflexivity|]. apply IH; lia.
Qed.
Lemma map2_minus_plus (l l' k : list R) : length l = length l' -> length l = length k -> map2 Rminus (map2 Rplus l k) (map2 Rplus l' k) = map2 Rminus l l'.
Proof.
  revert l' k. induction l as [|x l IH]; intros [|y l'] [|z k] H1 H2; cbn in *; try lia; try reflexivity. f_equal; [ring|]. apply IH; lia.
Qed.
Lemma map2_len (f : R -> R -> R) (l l' : list R) : length l = length l' -> length (map2 f l l') = length l.
Proof. revert l'. induction l as [|x l IH]; intros [|y l'] H; cbn in *; try lia. f_equal. apply IH. lia. Qed.

(** Adding the uncollided flux leaves the errors as they are. *)
Theorem C192_total : forall c E N_ang ws u psi t B, points_within c E N_ang ws u psi t B -> total_within c E N_ang ws u psi t B.
Proof.
  intros c E N_ang ws u psi t B H ps un U Hne Hin bench.
  destruct (H ps un Hne (fun p Hp => proj1 (Hin p Hp))) as (phi & r & P1 & P2 & P3 & P4 & P5 & P6).
  set (b0 := map (fun p => sumn N_ang (fun a => ws a * psi a (fst p) (snd p) t)) ps) in *. set (k := map (fun p => U (snd p)) ps).
  assert (Lb : length b0 = length ps) by apply map_length. assert (Lk : length k = length ps) by apply map_length.
  assert (Eb : bench = map2 Rplus b0 k).
  { unfold bench, b0, k. clear. induction ps as [|p l IH]; [reflexivity|]. cbn [map map2]. now rewrite IH. }
  assert (Eu : map_result (fun x => un x t) (map snd ps) = Ok k).
  { unfold k. assert (G : forall p, In p ps -> un (snd p) t = Ok (U (snd p))) by (intros p Hp; apply (Hin p Hp)). clear - G. induction ps as [|p l IH]; [reflexivity|].
    cbn [map map_result]. rewrite (G p (or_introl eq_refl)). cbn [bind]. rewrite IH by (intros; apply G; now right). reflexivity. }
  exists (map2 Rplus phi k), r. split; [|split; [|split; [|split; [|split; [exact P5|exact P6]]]]].
  - unfold make_phi in *. cbn [report_unc report_of oxs ouncollided ot unc] in *.
    change (map_result (phi_at (report_unc c E N_ang ws u t (map snd ps) un)) (map snd ps)) with (map_result (phi_at (report_of c E N_ang ws u t (map snd ps) un)) (map snd ps)).
    destruct (map_result (phi_at (report_of c E N_ang ws u t (map snd ps) un)) (map snd ps)) as [o|] eqn:Eo; cbn [bind] in *; [|discriminate]. injection P1 as ->.
    rewrite Eu. cbn [bind]. unfold vadd, vop. rewrite P2, Lk, Nat.eqb_refl. reflexivity.
  - rewrite map2_len; congruence.
  - intros i Hi. rewrite Eb, !map2_nth by congruence. replace (nth i phi 0 + nth i k 0 - (nth i b0 0 + nth i k 0)) with (nth i phi 0 - nth i b0 0) by ring. now apply P3.
  - rewrite Eb. unfold BenchModel.rms in *. unfold vsub, vop in *. rewrite !map2_len by congruence. rewrite P2, Lb, Nat.eqb_refl in *. rewrite map2_minus_plus by congruence. exact P4.
Qed.
Print Assumptions C192_total.

(** the right-hand side of rhs_class.py 259 as a function of the state vector, as [slabR] for 244 *)
Definition slabU (c : flux_cfg) (E D : nat -> R -> R) (N_ang : nat) (ws mus : nat -> R) (cc : R) (S0 : nat -> nat -> R -> R)
    (st : R -> nat -> nat -> flux_state) (t : R) (y : idx -> R) (p : idx) : R :=
  let '(a, s, i) := p in if active N_ang (fN c) (fM c) p then
    slab_rhs_uncollided c (st t a s) N_ang ws mus cc t (fun k => E k t) (fun k => D k t) (fun j => S0 s j t) (fun l k j => y (l, k, j)) a s i else 0.
(** the collided equation: the source is cc times the uncollided scalar flux S0 *)
Lemma slabU_slabR c E D N_ang ws mus cc (S0 : nat -> R -> R -> R) st : (forall s t x, continuous (fun y => S0 s y t) x) ->
  slabU c E D N_ang ws mus cc (fun s j t => pcoef E (S0 s) s j t) st = slabR c E D N_ang ws mus cc (fun s j t => pcoef E (fun x t => cc * S0 s x t) s j t) st.
Proof.
  intros Cs. apply functional_extensionality. intros t. apply functional_extensionality. intros y. apply functional_extensionality. intros [[a s] i].
  unfold slabU, slabR. destruct (active N_ang (fN c) (fM c) (a, s, i)) eqn:Ea; [|reflexivity].
  unfold slab_rhs_uncollided, slab_rhs. cbv zeta.
  replace (pcoef E (fun x t => cc * S0 s x t) s i t) with (cc * pcoef E (S0 s) s i t); [ring|].
  unfold pcoef. symmetry. apply int_uniq. apply (int_ext (fun x => cc * (S0 s x t * basis Slab i x (E s t) (E (S s) t)))); [intros; ring|].
  apply int_scal. apply int_val. intros x. apply cmult; [apply Cs|]. unfold basis, refz.
  apply cmult; [apply cconst|]. apply (ccomp (leg i)); [|apply leg_cont]. unfold Rdiv. repeat first [apply cconst | apply cid | apply cmult | apply cplus | apply cminus].
Qed.

(** What a run with the uncollided solution prints, when the benchmark is exact: the integrator works on the collided part,
    whose source is cc times the uncollided scalar flux S0. *)
Theorem C192_run : forall T c E D N_ang ws mus cc S0 psi t0 t1 st h0 h K sg, let Q := (fun s x t => cc * S0 s x t) in
  (forall s t x, continuous (fun y => S0 s y t) x) ->
  consistent T -> fgeom c = Slab -> (2 <= fN c)%nat -> t0 <= t1 -> mesh_c1 c E D -> (forall t, t0 <= t <= t1 -> increasing (fN c) (fun k => E k t)) ->
  (forall k, (k <= fN c)%nat -> lipschitz_on (D k) t0 t1) ->
  (forall s i, (s < fN c)%nat -> (i <= fM c)%nat -> continuous_on (pcoef E (Q s) s i) t0 t1 /\ lipschitz_on (pcoef E (Q s) s i) t0 t1) -> steady c t0 t1 ->
  exact c E D N_ang ws mus cc Q psi t0 t1 -> inflow_exact c E D N_ang mus psi t0 t1 ->
  (forall a, (a < N_ang)%nat -> 0 <= ws a) -> sumn N_ang ws = 1 -> 0 <= cc <= 1 -> 0 < h0 -> (forall s, (s < fN c)%nat -> h0 <= E (S s) t1 - E s t1) ->
  (forall t s, t0 <= t <= t1 -> (s < fN c)%nat -> E (S s) t - E s t <= h) ->
  (forall a s t x k, (a < N_ang)%nat -> (s < fN c)%nat -> t0 <= t <= t1 -> E s t <= x <= E (S s) t -> (k <= S (fM c))%nat -> ex_derive_n (fun y => psi a s y t) k x) ->
  (forall a s t x, (a < N_ang)%nat -> (s < fN c)%nat -> t0 <= t <= t1 -> E s t <= x <= E (S s) t -> Rabs (Derive_n (fun y => psi a s y t) (S (fM c)) x) <= K) ->
  (forall a f t, (a < N_ang)%nat -> (f <= fN c)%nat -> t0 <= t <= t1 -> Rabs (mus a - D f t) <= sg) ->
  exists C d0, 0 < C /\ 0 < d0 /\ forall d hs y, 0 <= d <= d0 -> (forall h, In h hs -> 0 <= h <= d) -> t0 + total hs = t1 ->
    vector N_ang (fN c) (fM c) y -> (forall a s j, (a < N_ang)%nat -> (s < fN c)%nat -> (j <= fM c)%nat -> y (a, s, j) = pcoef E (psi a s) s j t0) ->
    forall y', rk_run T (slabU c E D N_ang ws mus cc (fun s j t => pcoef E (S0 s) s j t) st) t0 y hs y' ->
    let m := (INR (fM c) + 1) ^ 2 in let dl := K * h ^ S (fM c) / INR (fact (S (fM c))) in
    total_within c E N_ang ws (fun a s j => y' (a, s, j)) psi t1 ((2 + 4 * m) * dl ^ 2 + 4 * m / h0 * (2 * space_bound c E h K sg t0 t1 + C * d ^ 2)).
Proof.
  intros T c E D N_ang ws mus cc S0 psi t0 t1 st h0 h K sg Q Cs HT Hg HN Hle HM Hinc LD HS Hst HX HI Hw H1 Hc Ph0 Hh0 Hh Hs HK Hsg.
  destruct (C190_run T c E D N_ang ws mus cc Q psi t0 t1 st h0 h K sg) as (C & d0 & PC & Pd & H); auto.
  exists C, d0. split; [exact PC|]. split; [exact Pd|]. intros d hs y Hd Hhs Ht Hv Hy y' Hr m dl.
  rewrite (slabU_slabR c E D N_ang ws mus cc S0 st Cs) in Hr. apply C192_total. exact (H d hs y Hd Hhs Ht Hv Hy y' Hr).
Qed.
Print Assumptions C192_run.

(** the front of [C190_front] with any uncollided flux *)
Example C192_front : forall st, exists C d0, 0 < d0 /\ forall d hs y, 0 <= d <= d0 -> (forall h, In h hs -> 0 <= h <= d) -> 0 + total hs = 3 ->
  vector 1 2 1 y -> (forall a s j, (a < 1)%nat -> (s < 2)%nat -> (j <= 1)%nat -> y (a, s, j) = pcoef xE (xpsi a s) s j 0) ->
  forall y', rk_run rk45 (slabU xC xE xD 1 (fun _ => 1) (fun _ => 1) (1 / 2) (fun s j t => pcoef xE ((fun s x t => 2 * xQ s x t) s) s j t) st) 0 y hs y' ->
  total_within xC xE 1 (fun _ => 1) (fun a s j => y' (a, s, j)) xpsi 3 (C * d ^ 2).
Proof.
  intros st. destruct (C190_front st) as (C & d0 & Pd & H). exists C, d0. split; [exact Pd|]. intros d hs y Hd Hhs Ht Hv Hy y' Hr.
  rewrite slabU_slabR in Hr.
  2: { intros s t x. unfold xQ. destruct (s =? 0)%nat; [apply cmult; [apply cconst|]; apply cplus; [apply cconst|apply cid]|apply cconst]. }
  replace (fun (s j : nat) (t : R) => pcoef xE (fun x t => 1 / 2 * (2 * xQ s x t)) s j t) with (fun (s j : nat) (t : R) => pcoef xE (xQ s) s j t) in Hr.
  2: { apply functional_extensionality. intros s. apply functional_extensionality. intros j. apply functional_extensionality. intros t.
       apply (f_equal (fun q => pcoef xE q s j t)). apply functional_extensionality. intros x. apply functional_extensionality. intros w. field. }
  apply C192_total. exact (H d hs y Hd Hhs Ht Hv Hy y' Hr).
Qed.
