(** C188: the scalar flux that the run reports against the scalar flux of the exact solution. *)
From Coquelicot Require Import Coquelicot.
From Verif Require Import Py PyLemmas Calc Legendre DGModel DGSpec DGProofs DGInt FuncModel FuncLobatto StabSpec StabProofs ErrSpec ErrLeib ErrProofs ErrEnergy ErrApprox ErrThms ExistSpec ExistProofs ExistThms TimeModel TimeProofs TimeThms TimeOrder TimeOrderThms FullThms CoupErrSpec CoupErrProofs CoupErrThms TimeRate TimeRateThms FullRateThms OutModel OutProofs.

(** What main_functions.solve (217, 231-232, 242) hands to make_output at time t: the coefficients u on the mesh with edges E, and the
    points xs; the collided part only. *)
Definition report_of (c : flux_cfg) (E : nat -> R -> R) (N_ang : nat) (ws : nat -> R) (u : nat -> nat -> nat -> R) (t : R)
    (xs : list R) (unc : R -> R -> result R) : out_cfg :=
  {| ot := t; oN_ang := N_ang; ows := ws; oxs := xs; ou := u; outM := fM c; oedges := map (fun k => E k t) (seq 0 (S (fN c)));
     ouncollided := false; ogeom := Slab; unc := unc |}.

(** [flux_within c E N_ang ws u psi t B]: at every point the report succeeds, whatever the list of points, and the squared
    distance of the function it samples from the scalar flux of psi is at most B. *)
Definition flux_within (c : flux_cfg) (E : nat -> R -> R) (N_ang : nat) (ws : nat -> R) (u : nat -> nat -> nat -> R)
    (psi : nat -> nat -> R -> R -> R) (t B : R) : Prop :=
  exists (phi : R -> R) (I : nat -> R), (forall xs unc, make_phi (report_of c E N_ang ws u t xs unc) = Ok (map phi xs)) /\
    (forall s, (s < fN c)%nat -> is_RInt (fun x => (phi x - sumn N_ang (fun a => ws a * psi a s x t)) ^ 2) (E s t) (E (S s) t) (I s)) /\
    sumn (fN c) I <= B.

(** the square of a mean is at most the mean of the squares *)
Lemma mean_square n (w d : nat -> R) : (forall a, (a < n)%nat -> 0 <= w a) -> sumn n w = 1 ->
  sumn n (fun a => w a * d a) ^ 2 <= sumn n (fun a => w a * d a ^ 2).
Proof.
  intros Hw H1. set (m := sumn n (fun a => w a * d a)).
  assert (P : 0 <= sumn n (fun a => w a * (d a - m) ^ 2)) by (apply sumn_nonneg; intros a Ha; apply Rmult_le_pos; [auto|apply pow2_ge_0]).
  assert (Q : sumn n (fun a => w a * (d a - m) ^ 2) = sumn n (fun a => w a * d a ^ 2) + (- 2 * m * m + m ^ 2)).
  { replace (- 2 * m * m + m ^ 2) with (- 2 * m * sumn n (fun a => w a * d a) + m ^ 2 * sumn n w) by (fold m; rewrite H1; ring).
    rewrite <- !sumn_scal, <- !sumn_plus. apply sumn_ext. intros; ring. }
  rewrite Q in P. nra.
Qed.

Lemma nth_edges c (E : nat -> R -> R) t k : (k <= fN c)%nat -> nth k (map (fun k => E k t) (seq 0 (S (fN c)))) 0 = E k t.
Proof.
  intros Hk. rewrite (nth_indep _ 0 (E 0%nat t)) by (rewrite map_length, seq_length; lia).
  rewrite (map_nth (fun k => E k t) _ 0%nat), seq_nth by lia. reflexivity.
Qed.

(** any coefficients *)
Theorem C188_flux : forall c E N_ang ws u psi t, (1 <= fN c)%nat -> increasing (fN c) (fun k => E k t) ->
  (forall a, (a < N_ang)%nat -> 0 <= ws a) -> sumn N_ang ws = 1 ->
  (forall a s x, (a < N_ang)%nat -> (s < fN c)%nat -> continuous (fun y => psi a s y t) x) ->
  flux_within c E N_ang ws u psi t (distance c E N_ang ws psi (fun a s j _ => u a s j) t).
Proof.
  intros c E N_ang ws u psi t HN He Hw H1 Cp.
  set (oc := fun xs unc => report_of c E N_ang ws u t xs unc). set (u0 := fun _ _ : R => Ok 0 : result R).
  assert (Rs : rising (map (fun k => E k t) (seq 0 (S (fN c))))).
  { split; [rewrite map_length, seq_length; lia|]. intros i Hi. rewrite map_length, seq_length in Hi. rewrite !nth_edges by lia. apply He. lia. }
  assert (HM : ogeom (oc nil u0) = Sphere -> (outM (oc nil u0) <= 12)%nat) by discriminate.
  assert (Same : forall xs un x, phi_at (oc xs un) x = phi_at (oc nil u0) x) by reflexivity.
  set (phi := fun x => match phi_at (oc nil u0) x with Ok v => v | Err _ => 0 end).
  assert (Hphi : forall x, phi_at (oc nil u0) x = Ok (phi x)).
  { intros x. destruct (phi_at_total (oc nil u0) x Rs HM) as [v V]. unfold phi. now rewrite V. }
  set (fl := fun a s x => field Slab (fM c) (u a s) (E s t) (E (S s) t) x).
  assert (Cell : forall s x, (s < fN c)%nat -> E s t < x <= E (S s) t -> phi x = sumn N_ang (fun a => ws a * fl a s x)).
  { intros s x Hs Hx. unfold phi, phi_at. cbn [oc report_of oN_ang ows].
    rewrite (sum_result_ok _ _ (fun a => ws a * fl a s x)); [reflexivity|]. intros a Ha.
    rewrite (psi_at_cell (oc nil u0) a x s Rs HM).
    - cbn [bind]. unfold cell_field, fl. cbn [oc report_of ogeom outM ou oedges]. rewrite !nth_edges by lia. f_equal. ring.
    - cbn [oc report_of oedges]. rewrite map_length, seq_length. lia.
    - apply cell_index_inside; cbn [oc report_of oedges]; rewrite ?map_length, ?seq_length; rewrite ?nth_edges by lia; try exact Rs; try lia; tauto.
    - cbn [oc report_of oedges]. rewrite !nth_edges by lia. lra. }
  set (J := fun a s => RInt (fun x => (fl a s x - psi a s x t) ^ 2) (E s t) (E (S s) t)).
  set (g := fun s x => sumn N_ang (fun a => ws a * (fl a s x - psi a s x t)) ^ 2).
  assert (Cf : forall a s x, (s < fN c)%nat -> continuous (fl a s) x) by (intros a s x Hs; apply field_cont; exact (He s Hs)).
  assert (Cg : forall s x, (s < fN c)%nat -> continuous (g s) x).
  { intros s x Hs. apply (cpow (fun x => sumn N_ang (fun a => ws a * (fl a s x - psi a s x t)))).
    assert (K : forall n, (n <= N_ang)%nat -> continuous (fun x => sumn n (fun a => ws a * (fl a s x - psi a s x t))) x).
    { induction n as [|n IH]; intros Hn; cbn [sumn]; [apply cconst|]. apply cplus; [apply IH; lia|]. apply cmult; [apply cconst|]. apply cminus; [now apply Cf|now apply Cp]. }
    now apply K. }
  exists phi, (fun s => RInt (g s) (E s t) (E (S s) t)). split; [|split].
  - intros xs un. unfold make_phi. cbn [report_of oxs ouncollided]. change (report_of c E N_ang ws u t xs un) with (oc xs un).
    assert (K : map_result (phi_at (oc xs un)) xs = Ok (map phi xs)).
    { generalize xs at 2 3. intros l. induction l as [|x l IH]; [reflexivity|]. cbn [map_result map]. rewrite Same, Hphi. cbn [bind]. rewrite IH. reflexivity. }
    rewrite K. reflexivity.
  - intros s Hs. assert (Hlt := He s Hs). cbv beta in Hlt.
    apply (is_RInt_ext (g s)); [|apply int_val; intros; now apply Cg].
    intros x Hx. rewrite Rmin_left, Rmax_right in Hx by lra. unfold g. rewrite (Cell s x Hs) by lra. f_equal.
    transitivity (sumn N_ang (fun a => ws a * fl a s x) + (-1) * sumn N_ang (fun a => ws a * psi a s x t)); [|ring].
    rewrite <- sumn_scal, <- sumn_plus. apply sumn_ext. intros; ring.
  - unfold distance. apply Rle_trans with (sumn N_ang (fun a => sumn (fN c) (fun s => ws a * J a s))).
    2: { right. apply sumn_ext. intros a _. now rewrite sumn_scal. }
    rewrite sumn_swap. apply sumn_le. intros s Hs. assert (Hlt := He s Hs). cbv beta in Hlt.
    apply (is_RInt_le (g s) (fun x => sumn N_ang (fun a => ws a * (fl a s x - psi a s x t) ^ 2)) (E s t) (E (S s) t)); [lra| | |].
    + apply int_val. intros; now apply Cg.
    + apply (int_sumn N_ang (fun a x => ws a * (fl a s x - psi a s x t) ^ 2)). intros a Ha. apply int_scal. apply int_val.
      intros y. apply cpow, cminus; [now apply Cf|now apply Cp].
    + intros x _. apply mean_square; auto.
Qed.
Print Assumptions C188_flux.

Lemma flux_within_le c E N_ang ws u psi t B B' : flux_within c E N_ang ws u psi t B -> B <= B' -> flux_within c E N_ang ws u psi t B'.
Proof. intros (phi & I & P & Q & S) H. exists phi, I. repeat split; auto. lra. Qed.

(** The scalar flux reported at the end of a run of steps of at most d. *)
Theorem C188_slab : forall T c E D N_ang ws mus cc Q psi t0 t1 st h K sg,
  consistent T -> fgeom c = Slab -> (2 <= fN c)%nat -> t0 <= t1 -> mesh_c1 c E D -> (forall t, t0 <= t <= t1 -> increasing (fN c) (fun k => E k t)) ->
  (forall k, (k <= fN c)%nat -> lipschitz_on (D k) t0 t1) ->
  (forall s i, (s < fN c)%nat -> (i <= fM c)%nat -> continuous_on (pcoef E (Q s) s i) t0 t1 /\ lipschitz_on (pcoef E (Q s) s i) t0 t1) -> steady c t0 t1 ->
  exact c E D N_ang ws mus cc Q psi t0 t1 -> inflow_exact c E D N_ang mus psi t0 t1 ->
  (forall a, (a < N_ang)%nat -> 0 <= ws a) -> sumn N_ang ws = 1 -> 0 <= cc <= 1 ->
  (forall t s, t0 <= t <= t1 -> (s < fN c)%nat -> E (S s) t - E s t <= h) ->
  (forall a s t x k, (a < N_ang)%nat -> (s < fN c)%nat -> t0 <= t <= t1 -> E s t <= x <= E (S s) t -> (k <= S (fM c))%nat -> ex_derive_n (fun y => psi a s y t) k x) ->
  (forall a s t x, (a < N_ang)%nat -> (s < fN c)%nat -> t0 <= t <= t1 -> E s t <= x <= E (S s) t -> Rabs (Derive_n (fun y => psi a s y t) (S (fM c)) x) <= K) ->
  (forall a f t, (a < N_ang)%nat -> (f <= fN c)%nat -> t0 <= t <= t1 -> Rabs (mus a - D f t) <= sg) ->
  exists C d0, 0 < C /\ 0 < d0 /\ forall d hs y, 0 <= d <= d0 -> (forall h, In h hs -> 0 <= h <= d) -> t0 + total hs = t1 ->
    vector N_ang (fN c) (fM c) y -> (forall a s j, (a < N_ang)%nat -> (s < fN c)%nat -> (j <= fM c)%nat -> y (a, s, j) = pcoef E (psi a s) s j t0) ->
    forall y', rk_run T (slabR c E D N_ang ws mus cc (fun s j t => pcoef E (Q s) s j t) st) t0 y hs y' ->
    flux_within c E N_ang ws (fun a s j => y' (a, s, j)) psi t1 (2 * space_bound c E h K sg t0 t1 + C * d ^ 2).
Proof.
  intros T c E D N_ang ws mus cc Q psi t0 t1 st h K sg HT Hg HN Hle HM Hinc LD HS Hst HX HI Hw H1 Hc Hh Hs HK Hsg.
  destruct (C185_slab T c E D N_ang ws mus cc Q psi t0 t1 st h K sg) as (C & d0 & PC & Pd & H); auto.
  exists C, d0. split; [exact PC|]. split; [exact Pd|]. intros d hs y Hd Hhs Ht Hv Hy y' Hr.
  eapply flux_within_le; [|exact (H d hs y Hd Hhs Ht Hv Hy y' Hr)].
  apply (C188_flux c E N_ang ws (fun a s j => y' (a, s, j)) psi t1); [lia|apply Hinc; lra|auto|auto|].
  intros a s x Ha Hs'. destruct (ex_eq _ _ _ _ _ _ _ _ _ _ _ HX a s Ha Hs') as (fx & ft & Cc & _). apply (c1_cont _ _ _ _ _ Cc).
Qed.
Print Assumptions C188_slab.

(** The same with the material: the flux is read from the first N_ang rows of the coefficients. *)
Theorem C188_coupled : forall T c E D N_ang ws mus cc c_a l Q psi mat t0 t1 st ste h K sg,
  consistent T -> fgeom c = Slab -> (2 <= fN c)%nat -> t0 <= t1 -> mesh_c1 c E D -> (forall t, t0 <= t <= t1 -> increasing (fN c) (fun k => E k t)) ->
  (forall k, (k <= fN c)%nat -> lipschitz_on (D k) t0 t1) ->
  (forall s i, (s < fN c)%nat -> (i <= fM c)%nat -> continuous_on (pcoef E (Q s) s i) t0 t1 /\ lipschitz_on (pcoef E (Q s) s i) t0 t1) -> steady c t0 t1 ->
  exact_coupled c E D N_ang ws mus cc c_a l Q psi mat t0 t1 ->
  inflow_exact c E D (S N_ang) (with_mat N_ang mus 0) (with_mat N_ang psi mat) t0 t1 ->
  (forall a, (a < N_ang)%nat -> 0 <= ws a) -> sumn N_ang ws = 1 -> 0 <= c_a -> cc + c_a <= 1 -> 0 < l ->
  (forall t s, t0 <= t <= t1 -> (s < fN c)%nat -> E (S s) t - E s t <= h) ->
  (forall a s t x k, (a < S N_ang)%nat -> (s < fN c)%nat -> t0 <= t <= t1 -> E s t <= x <= E (S s) t -> (k <= S (fM c))%nat -> ex_derive_n (fun y => with_mat N_ang psi mat a s y t) k x) ->
  (forall a s t x, (a < S N_ang)%nat -> (s < fN c)%nat -> t0 <= t <= t1 -> E s t <= x <= E (S s) t -> Rabs (Derive_n (fun y => with_mat N_ang psi mat a s y t) (S (fM c)) x) <= K) ->
  (forall a f t, (a < S N_ang)%nat -> (f <= fN c)%nat -> t0 <= t <= t1 -> Rabs (with_mat N_ang mus 0 a - D f t) <= sg) ->
  exists C d0, 0 < C /\ 0 < d0 /\ forall d hs y, 0 <= d <= d0 -> (forall h, In h hs -> 0 <= h <= d) -> t0 + total hs = t1 ->
    vector (S N_ang) (fN c) (fM c) y ->
    (forall a s j, (a < S N_ang)%nat -> (s < fN c)%nat -> (j <= fM c)%nat -> y (a, s, j) = pcoef E (with_mat N_ang psi mat a s) s j t0) ->
    forall y', rk_run T (coupledR c E D N_ang ws mus cc c_a l (fun s j t => pcoef E (Q s) s j t) st ste) t0 y hs y' ->
    flux_within c E N_ang ws (fun a s j => y' (a, s, j)) psi t1 (2 * coupled_bound c E h K sg t0 t1 + C * d ^ 2).
Proof.
  intros T c E D N_ang ws mus cc c_a l Q psi mat t0 t1 st ste h K sg HT Hg HN Hle HM Hinc LD HS Hst HX HI Hw H1 Hca Hcc Hl Hh Hs HK Hsg.
  destruct (C185_coupled T c E D N_ang ws mus cc c_a l Q psi mat t0 t1 st ste h K sg) as (C & d0 & PC & Pd & H); auto.
  exists C, d0. split; [exact PC|]. split; [exact Pd|]. intros d hs y Hd Hhs Ht Hv Hy y' Hr.
  eapply flux_within_le; [|exact (H d hs y Hd Hhs Ht Hv Hy y' Hr)].
  assert (He : increasing (fN c) (fun k => E k t1)) by (apply Hinc; lra).
  assert (Cm : forall s x, (s < fN c)%nat -> continuous (fun z => mat s z t1) x).
  { intros s x Hs'. destruct (xc_mat _ _ _ _ _ _ _ _ _ _ _ _ _ _ HX s Hs') as (fx & ft & Cc & _). apply (c1_cont _ _ _ _ _ Cc). }
  eapply flux_within_le; [apply (C188_flux c E N_ang ws (fun a s j => y' (a, s, j)) psi t1); [lia|exact He|auto|auto|]|].
  - intros a s x Ha Hs'. destruct (xc_rad _ _ _ _ _ _ _ _ _ _ _ _ _ _ HX a s Ha Hs') as (fx & ft & Cc & _). apply (c1_cont _ _ _ _ _ Cc).
  - unfold distance. cbn [sumn]. match goal with |- ?x <= ?y + ?b => assert (Eq : x = y); [|rewrite Eq; enough (0 <= b) by lra] end.
    { apply sumn_ext. intros a Ha. unfold with_mat. rewrite (proj2 (Nat.eqb_neq a N_ang)) by lia. reflexivity. }
    unfold with_mat at 1. rewrite Nat.eqb_refl. apply Rmult_le_pos; [lra|]. apply sumn_nonneg. intros s Hs'. assert (Hlt := He s Hs'). cbv beta in Hlt.
    unfold with_mat. rewrite Nat.eqb_refl. apply RInt_ge_0; [lra| |intros; apply pow2_ge_0].
    eexists. apply int_val. intros x. apply cpow, cminus; [apply field_cont; exact Hlt|now apply Cm].
Qed.
Print Assumptions C188_coupled.

(** the exact solution of the example of C185: a front which moves with the middle edge *)
Example C188_front : forall st, exists C d0, 0 < d0 /\ forall d hs y, 0 <= d <= d0 -> (forall h, In h hs -> 0 <= h <= d) -> 0 + total hs = 3 ->
  vector 1 2 1 y -> (forall a s j, (a < 1)%nat -> (s < 2)%nat -> (j <= 1)%nat -> y (a, s, j) = pcoef xE (xpsi a s) s j 0) ->
  forall y', rk_run rk45 (slabR xC xE xD 1 (fun _ => 1) (fun _ => 1) (1 / 2) (fun s j t => pcoef xE (xQ s) s j t) st) 0 y hs y' ->
  flux_within xC xE 1 (fun _ => 1) (fun a s j => y' (a, s, j)) xpsi 3 (C * d ^ 2).
Proof.
  intros st. destruct (C185_front st) as (C & d0 & Pd & H). exists C, d0. split; [exact Pd|]. intros d hs y Hd Hhs Ht Hv Hy y' Hr.
  eapply flux_within_le; [|exact (H d hs y Hd Hhs Ht Hv Hy y' Hr)].
  apply (C188_flux xC xE 1 (fun _ => 1) (fun a s j => y' (a, s, j)) xpsi 3); [cbn; lia|apply xE_inc; lra|intros; lra|cbn; ring|].
  intros a s x Ha Hs. destruct (ex_eq _ _ _ _ _ _ _ _ _ _ _ (x_exact 3) a s Ha Hs) as (fx & ft & Cc & _). apply (c1_cont _ _ _ _ _ Cc).
Qed.
