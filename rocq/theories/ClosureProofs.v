(** Proofs about the opacity moments, the scattering term and the emission closure. *)
From Coquelicot Require Import Coquelicot.
From Verif Require Import Py PyLemmas Calc Legendre Cheb DGModel DGSpec DGProofs DGInt FuncModel FuncProofs FuncLobatto SphereBal ClosureModel.
Open Scope R_scope.

(* ------------------------------------------------------------------ triple products *)
Lemma leg_opp n : forall z, leg n (- z) = (-1) ^ n * leg n z /\ leg (S n) (- z) = (-1) ^ S n * leg (S n) z.
Proof.
  induction n as [|n IH]; intro z; [rewrite !leg_0, !leg_1; split; simpl; ring|]. destruct (IH z) as [A B]. split; auto.
  rewrite !leg_SS, A, B. pose proof (pos_INR n). rewrite <- !tech_pow_Rmult. field. lra.
Qed.
(** the empty rule is exact for v iff the integral of v is 0 *)
Lemma triple_low i j k : (j + k < i)%nat -> is_RInt (fun z => leg i z * leg j z * leg k z) (-1) 1 0.
Proof.
  intro H. cut (leg_exact nil (fun z => leg i z * leg j z * leg k z)); [auto|].
  apply (lexact_ext nil (fun z => (z ^ 0 * leg i z * leg j z) * leg k z)); [intro; simpl; ring|].
  apply (lexact_leg nil (fun m z => z ^ m * leg i z * leg j z) (i - 1 - j)); [intros; simpl; ring| |lia].
  intros m Hm. apply (lexact_leg nil (fun m z => z ^ m * leg i z) (i - 1)); [intros; simpl; ring| |lia].
  intros m' Hm'. apply (x_orth 1 (le_n 1) (0 :: 0 :: nil) eq_refl m'). lia.
Qed.
Lemma m1_even k : Nat.odd k = false -> (-1) ^ k = 1.
Proof.
  intro H. apply Bool.negb_true_iff in H. rewrite Nat.negb_odd in H. apply Nat.even_spec in H. destruct H as [m ->].
  rewrite pow_mult. replace ((-1) ^ 2) with 1 by (simpl; ring). apply pow1.
Qed.
Lemma triple_cont i j k z : continuous (fun z => leg i z * leg j z * leg k z) z.
Proof. apply cmult; [apply cmult|]; apply leg_cont. Qed.
Lemma triple_odd i j k : Nat.odd (i + j + k) = true -> is_RInt (fun z => leg i z * leg j z * leg k z) (-1) 1 0.
Proof.
  intro H. eapply int_eq; [apply int_val; intro; apply triple_cont|].
  apply (odd_int (fun z => leg i z * leg j z * leg k z)); [|apply int_val; intro; apply triple_cont].
  intro z. cbv beta. rewrite (proj1 (leg_opp i z)), (proj1 (leg_opp j z)), (proj1 (leg_opp k z)).
  apply m1_odd in H. rewrite !pow_add in H. 
  transitivity ((-1) ^ i * (-1) ^ j * (-1) ^ k * (leg i z * leg j z * leg k z)); [ring|]. rewrite H. ring.
Qed.
Lemma both_spec i j k : both_even_or_odd i j k = Nat.even (i + j + k).
Proof.
  unfold both_even_or_odd. rewrite <- !Nat.bit0_mod, !Nat.bit0_odd, <- Nat.negb_odd, <- (Nat.add_assoc i), (Nat.odd_add i).
  destruct (Nat.odd i), (Nat.odd (j + k)); reflexivity.
Qed.
Lemma lexact_triple q D i j k : exact_to q D -> (i + j + k <= D)%nat -> leg_exact q (fun z => leg i z * leg j z * leg k z).
Proof.
  intros HE H. apply (lexact_ext q (fun z => (z ^ 0 * leg i z * leg j z) * leg k z)); [intro; simpl; ring|].
  apply (lexact_leg q (fun m z => z ^ m * leg i z * leg j z) (D - i - j)); [intros; simpl; ring| |lia].
  intros m Hm. apply (lexact_leg q (fun m z => z ^ m * leg i z) (D - i)); [intros; simpl; ring| |lia].
  intros m' Hm'. apply (lexact_leg q (fun k z => z ^ k) D); [intros; simpl; ring|exact HE|lia].
Qed.
Lemma AAA_val c D i j k : exact_to (oquad c) D -> (i + j + k <= D)%nat ->
  is_RInt (fun z => sqrt (2 * INR i + 1) * sqrt (2 * INR j + 1) * sqrt (2 * INR k + 1) / 2 * (leg i z * leg j z * leg k z)) (-1) 1 (AAA c i j k).
Proof.
  intros HE H. unfold AAA. destruct ((i <=? j + k)%nat && both_even_or_odd i j k) eqn:E.
  - unfold AAA_entry. cbv zeta. eapply int_eq; [apply int_scal; apply (lexact_triple (oquad c) D); eauto|].
    rewrite (qsum_ext _ (fun z => Pn i ((1 - -1) / 2 * z + (-1 + 1) / 2) * Pn j ((1 - -1) / 2 * z + (-1 + 1) / 2) * Pn k ((1 - -1) / 2 * z + (-1 + 1) / 2)) (fun z => leg i z * leg j z * leg k z)).
    + field.
    + intro z. unfold Pn. replace ((1 - -1) / 2 * z + (-1 + 1) / 2) with z by field. ring.
  - eapply int_eq; [apply int_scal; instantiate (1 := 0)|ring].
    apply andb_false_iff in E. destruct E as [E|E].
    + apply Nat.leb_gt in E. now apply triple_low.
    + rewrite both_spec in E. apply triple_odd. now apply odd_even_false.
Qed.
(** physical triple product on [a,b] *)
Lemma triple_basis c D i j k a b : a < b -> exact_to (oquad c) D -> (i + j + k <= D)%nat ->
  is_RInt (fun x => basis Slab i x a b * basis Slab j x a b * basis Slab k x a b) a b (AAA c i j k / sqrt (b - a)).
Proof.
  intros Hab HE H. assert (S0 : 0 < sqrt (b - a)) by (apply sqrt_lt_R0; lra).
  apply (int_ext (fun x => 2 / ((b - a) * sqrt (b - a)) * (sqrt (2 * INR i + 1) * sqrt (2 * INR j + 1) * sqrt (2 * INR k + 1) / 2 * (leg i (refz x a b) * leg j (refz x a b) * leg k (refz x a b))))).
  - intro x. unfold basis. rewrite !sqrt_quot by lra. replace (b - a) with (sqrt (b - a) * sqrt (b - a)) at 1 by (apply sqrt_sqrt; lra). field. lra.
  - eapply int_eq; [apply int_scal; apply (int_ref (fun z => sqrt (2 * INR i + 1) * sqrt (2 * INR j + 1) * sqrt (2 * INR k + 1) / 2 * (leg i z * leg j z * leg k z))); [auto|apply (AAA_val c D); eauto]|].
    field. lra.
Qed.

(* ------------------------------------------------------------------ absorption and scattering *)
Lemma vectors_step c s edges u space i : f_constant (ofun c) = false -> (i <= oM c)%nat ->
  so_VV (make_vectors c s edges u space) i = so_VV s i + sumn (oM c + 1) (fun j => sumn (oMs c + 1) (fun k =>
    o_t c * so_cs s space k * u j * (AAA c i j k / sqrt (edges (space + 1)%nat - edges space)))).
Proof.
  intros F Hi. unfold make_vectors. cbn [so_VV]. rewrite F. replace (i <? oM c + 1)%nat with true by (symmetry; apply Nat.ltb_lt; lia).
  f_equal. apply sumn_ext. intros j _. apply sumn_ext. intros k _. unfold o_a, Rdiv. ring.
Qed.
(** the triple sum is the Galerkin projection of the product of two expansions *)
Lemma galerkin c M Ms D i a b (s u : nat -> R) : a < b -> exact_to (oquad c) D -> (2 * M + Ms <= D)%nat -> (i <= M)%nat ->
  is_RInt (fun x => basis Slab i x a b * (field Slab Ms s a b x * field Slab M u a b x)) a b
    (sumn (M + 1) (fun j => sumn (Ms + 1) (fun k => s k * u j * (AAA c i j k / sqrt (b - a))))).
Proof.
  intros Hab HE HD Hi.
  apply (int_ext (fun x => sumn (M + 1) (fun j => sumn (Ms + 1) (fun k => s k * u j * (basis Slab i x a b * basis Slab j x a b * basis Slab k x a b))))).
  - intro x. unfold field. rewrite <- sumn_scal.
    rewrite Rmult_comm, <- sumn_scal_r. apply sumn_ext. intros j _.
    rewrite <- sumn_scal_r, <- sumn_scal_r. apply sumn_ext. intros k _. ring.
  - apply (int_sumn (M + 1) (fun j x => sumn (Ms + 1) (fun k => s k * u j * (basis Slab i x a b * basis Slab j x a b * basis Slab k x a b)))
      (fun j => sumn (Ms + 1) (fun k => s k * u j * (AAA c i j k / sqrt (b - a))))). intros j Hj.
    apply (int_sumn (Ms + 1) (fun k x => s k * u j * (basis Slab i x a b * basis Slab j x a b * basis Slab k x a b))
      (fun k => s k * u j * (AAA c i j k / sqrt (b - a)))). intros k Hk.
    apply int_scal. apply (triple_basis c D); auto. lia.
Qed.

(* ------------------------------------------------------------------ moments *)
Lemma changed_spec old new i : cell_changed old new i = true <-> new i <> old i \/ new (i + 1)%nat <> old (i + 1)%nat.
Proof.
  unfold cell_changed. rewrite orb_true_iff, !negb_true_iff.
  destruct (Reqb_spec (new i) (old i)), (Reqb_spec (new (i + 1)%nat) (old (i + 1)%nat)); intuition congruence.
Qed.
Lemma map_result_nth {A B} (f : A -> result B) l d : forall r, map_result f l = Ok r -> forall i a, (i < length l)%nat -> f (nth i l a) = Ok (nth i r d).
Proof.
  induction l as [|x l IH]; intros r H i a Hi; simpl in Hi; [lia|]. simpl in H.
  destruct (f x) as [y|e] eqn:E; simpl in H; [|discriminate].
  destruct (map_result f l) as [ys|e] eqn:E2; simpl in H; [|discriminate]. injection H as <-.
  destruct i as [|i]; [exact E|]. apply (IH ys eq_refl). lia.
Qed.
Lemma moments_cells_spec c s edges t n : forall cs, moments_cells c s edges t n = Ok cs -> forall i j,
  (so_cs s i j = cs i j /\ ((n <= i)%nat \/ (oMs c < j)%nat \/ cell_changed (so_edges s) edges i = false)) \/
  ((i < n)%nat /\ (j <= oMs c)%nat /\ cell_changed (so_edges s) edges i = true /\ integrate_moments c (edges i) (edges (i + 1)%nat) j t = Ok (cs i j)).
Proof.
  induction n as [|n IH]; intros cs H i j; cbn [moments_cells] in H.
  - injection H as <-. left. split; [auto|left; lia].
  - destruct (moments_cells c s edges t n) as [cs0|e]; cbn [bind] in H; [|discriminate].
    specialize (IH cs0 eq_refl i j). destruct (cell_changed (so_edges s) edges n) eqn:E.
    + destruct (map_result _ _) as [row|e] eqn:R in H; cbn [bind] in H; [|discriminate]. injection H as <-.
      destruct (Nat.eqb_spec i n) as [->|Hin]; cbn [andb].
      * destruct (Nat.ltb_spec j (oMs c + 1)).
        -- right. repeat split; [lia|lia|auto|].
           pose proof (map_result_nth _ _ 0 _ R j 0%nat) as K. rewrite seq_length, seq_nth in K by lia. apply K. lia.
        -- destruct IH as [[IH _]|[IH _]]; [|lia]. left. split; [auto|right; left; lia].
      * destruct IH as [[IH1 IH2]|[IH1 IH2]]; [left|right; split; [lia|auto]]. split; auto. destruct IH2 as [IH2|IH2]; [left; lia|auto].
    + injection H as <-. destruct IH as [[IH1 IH2]|[IH1 IH2]]; [left|right; split; [lia|auto]]. split; auto.
      destruct IH2 as [IH2|IH2]; [|auto]. destruct (Nat.eq_dec i n) as [->|]; [auto|left; lia].
Qed.
Lemma Reqb_refl x : Reqb x x = true.
Proof. destruct (Reqb_spec x x); congruence. Qed.
Lemma moments_cells_same c s edges t n : (forall i, (i <= n)%nat -> so_edges s i = edges i) -> moments_cells c s edges t n = Ok (so_cs s).
Proof.
  induction n as [|n IH]; intro E; [reflexivity|]. cbn [moments_cells]. rewrite IH by (intros; apply E; lia). cbn [bind].
  unfold cell_changed. rewrite !E by lia. now rewrite !Reqb_refl.
Qed.
(** calls at the given times, always with the same edges *)
Fixpoint static_calls (c : ocfg) (s : ostate) (edges : nat -> R) (ts : list R) : result ostate :=
  match ts with [] => Ok s | t :: r => s' <- sigma_moments c s edges t ;; static_calls c s' edges r end.
Lemma static_same c edges ts : forall s, so_edges s = edges -> static_calls c s edges ts = Ok s.
Proof.
  induction ts as [|t r IH]; intros s E; [reflexivity|]. cbn [static_calls]. unfold sigma_moments.
  rewrite moments_cells_same by (intros; now rewrite E). cbn [bind]. rewrite <- E. destruct s as [e0 cs0 vv0]. simpl in *. subst. apply IH. reflexivity.
Qed.
Lemma sigma_ok c x t : (f_constant (ofun c) || f_gaussian (ofun c) || f_siewert1 (ofun c) || f_siewert2 (ofun c) || f_sedov (ofun c))%bool = true ->
  exists v, sigma_function c x t = Ok v /\ 0 < v.
Proof.
  unfold sigma_function. cbv zeta. intro H.
  destruct (f_constant (ofun c)); [eexists; split; [reflexivity|lra]|].
  destruct (f_gaussian (ofun c)); [eexists; split; [reflexivity|apply exp_pos]|].
  destruct (f_siewert1 (ofun c)); [eexists; split; [reflexivity|apply exp_pos]|].
  destruct (f_siewert2 (ofun c)); [eexists; split; [reflexivity|apply exp_pos]|].
  destruct (f_sedov (ofun c)); [|discriminate].
  eexists; split; [reflexivity|]. unfold heaviside.
  pose proof (exp_pos (- xi2 x t 0 1 (o_v c) ^ 2 / 2 ^ 2)).
  destruct (Rltb_spec (- xi2 x t 0 1 (o_v c) - 1) 0), (Rltb_spec (xi2 x t 0 1 (o_v c) + 1) 0); lra.
Qed.
(** moments of the unit opacity *)
Lemma moment_one c D a b j t : a < b -> f_constant (ofun c) = true -> exact_to (oquad c) D -> (j <= D)%nat ->
  integrate_moments c a b j t = Ok (if (j =? 0)%nat then sqrt (b - a) else 0).
Proof.
  intros Hab F HE Hj. unfold integrate_moments.
  rewrite (map_result_ok _ (fun p => sqrt ((2 * INR j + 1) / (b - a)) * (snd p * (leg 0 (fst p) * leg j (fst p))))).
  2: { intros [z w]. cbn [fst snd]. unfold sigma_function. rewrite F. cbn [bind]. rewrite normPn_basis by auto. unfold basis. rewrite refz_arg by auto. rewrite leg_0. f_equal. ring. }
  cbn [bind]. f_equal.
  transitivity ((b - a) / 2 * (sqrt ((2 * INR j + 1) / (b - a)) * qsum (oquad c) (fun z => leg 0 z * leg j z))).
  { apply (f_equal (Rmult ((b - a) / 2))). unfold qsum. clear. generalize (sqrt ((2 * INR j + 1) / (b - a))). intro r.
    induction (oquad c) as [|p l IH]; cbn [map rsum fold_right]; [ring|]. unfold rsum in IH. rewrite IH. ring. }
  rewrite (qsum_LL _ D) by (auto; lia). rewrite (Nat.eqb_sym 0 j). destruct (Nat.eqb_spec j 0) as [->|]; [|ring].
  rewrite sqrt_quot by lra. simpl (INR 0). replace (2 * 0 + 1) with 1 by ring. rewrite sqrt_1.
  rewrite <- (sqrt_sqrt (b - a)) at 1 by lra. field. apply Rgt_not_eq, sqrt_lt_R0. lra.
Qed.

(* ------------------------------------------------------------------ emission *)
Lemma quarter_pow x : 0 <= x -> power_quarter x ^ 4 = x.
Proof.
  intro H. unfold power_quarter. destruct (Reqb_spec x 0) as [->|N]; [simpl; ring|].
  rewrite <- Rpower_pow by (apply exp_pos). rewrite Rpower_mult. replace (1 / 4 * INR 4) with 1 by (simpl; lra). apply Rpower_1. lra.
Qed.
Lemma emission_id e : (let '(T, fudge) := su_olson_source e in arad * T ^ 4 * fudge) = e.
Proof.
  unfold su_olson_source. rewrite quarter_pow by apply Rabs_pos. unfold alpha.
  assert (A : 0 < arad) by (unfold arad; lra). replace (4 * e / (4 * arad)) with (e / arad) by (field; lra).
  destruct (Rltb_spec e 0).
  - rewrite Rabs_left; [field; lra|]. apply Rmult_lt_reg_r with arad; [auto|]. unfold Rdiv. rewrite Rmult_assoc, Rinv_l by lra. lra.
  - rewrite Rabs_right; [field; lra|]. apply Rle_ge, Rmult_le_reg_r with arad; [auto|]. unfold Rdiv. rewrite Rmult_assoc, Rinv_l by lra. lra.
Qed.
Lemma H_is_e c e_vec a b j : a < b -> couple_none c = false -> temp0 c = true -> exact_to (tquad c) (2 * tM c) -> (j <= tM c)%nat ->
  make_H_entry c e_vec a b j = Ok (e_vec j).
Proof.
  intros Hab N T HE Hj. unfold make_H_entry. rewrite N. cbn [negb].
  rewrite (map_result_ok _ (fun p => snd p * (field Slab (tM c) e_vec a b ((b - a) / 2 * fst p + (a + b) / 2) * normPn j ((b - a) / 2 * fst p + (a + b) / 2) a b))).
  2: { intros [z w]. cbn [fst snd]. unfold T_func, T_of_e. rewrite T. pose proof (emission_id (make_e c e_vec ((b - a) / 2 * z + (a + b) / 2) a b)) as E.
       destruct (su_olson_source _) as [T0 fudge]. cbn [bind]. rewrite E. f_equal. unfold make_e, field.
       rewrite (sumn_ext _ _ (fun j0 => e_vec j0 * basis Slab j0 ((b - a) / 2 * z + (a + b) / 2) a b)); [ring|]. intros i _. rewrite normPn_basis by auto. ring. }
  cbn [bind]. f_equal. pose proof (proj_slab (tquad c) (tM c) e_vec a b j Hab HE Hj) as P. unfold integrate_quad in P. cbv zeta in P. unfold qsum in P.
  rewrite <- P. field.
Qed.
