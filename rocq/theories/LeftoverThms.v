(** C178: helpers that nothing calls. *)
From Coquelicot Require Import Coquelicot.
From Verif Require Import Py PyLemmas Cheb MeshModel DGModel DGSpec LeftoverModel.

Lemma basis0_is x a b : basis Sphere 0 x a b = sqrt (1 / (PI * (b - a))).
Proof. unfold basis. rewrite cheb_0. cbn [Nat.eqb]. ring. Qed.

Lemma basis0 x a b : a < b -> basis Sphere 0 x a b * basis Sphere 0 x a b = 1 / (PI * (b - a)).
Proof.
  intro H. rewrite basis0_is. pose proof PI_RGT_0. apply sqrt_sqrt.
  apply Rlt_le, Rdiv_lt_0_compat; [lra|]. apply Rmult_lt_0_compat; lra.
Qed.

(** For one moment per cell the four matrices of the abandoned builder are the integrals the sphere
    needs (the mass, the geometric term, the term of the motion of the edges with the basis
    differentiated in time, and the streaming term), once math is imported; as the file stands the
    first three methods fail. *)
Theorem C178_builder_one_moment (rL rR : R -> R) t rLp rRp :
  rL t < rR t -> is_derive rL t rLp -> is_derive rR t rRp ->
  exists m j g,
    b_mass true (rL t) (rR t) = Ok m /\ b_J true (rL t) (rR t) = Ok j /\ b_G true (rL t) (rR t) rLp rRp = Ok g /\
    is_RInt (fun r => r ^ 2 * (basis Sphere 0 r (rL t) (rR t) * basis Sphere 0 r (rL t) (rR t))) (rL t) (rR t) (m 0%nat 0%nat) /\
    is_RInt (fun r => r * (basis Sphere 0 r (rL t) (rR t) * basis Sphere 0 r (rL t) (rR t))) (rL t) (rR t) (j 0%nat 0%nat) /\
    is_RInt (fun r => r ^ 2 * (basis Sphere 0 r (rL t) (rR t) * Derive (fun u => basis Sphere 0 r (rL u) (rR u)) t)) (rL t) (rR t) (g 0%nat 0%nat) /\
    is_RInt (fun r => r ^ 2 * (basis Sphere 0 r (rL t) (rR t) * Derive (fun x => basis Sphere 0 x (rL t) (rR t)) r)) (rL t) (rR t) (b_L 0%nat 0%nat).
Proof.
  intros H DL DR. pose proof PI_RGT_0 as HP. set (a := rL t) in *. set (b := rR t) in *.
  unfold b_mass, b_J, b_G, b_L. cbn [negb]. unfold Reqb. destruct (Req_EM_T (a - b) 0); [lra|].
  eexists _, _, _. split; [reflexivity|]. split; [reflexivity|]. split; [reflexivity|].
  unfold with00. cbn [Nat.eqb andb].
  assert (Q : forall c, is_RInt (fun r => r ^ 2 * c) a b (c * ((b ^ 3 - a ^ 3) / 3))).
  { intro c. replace (c * ((b ^ 3 - a ^ 3) / 3)) with (minus (c * b ^ 3 / 3) (c * a ^ 3 / 3)).
    2: { unfold minus, plus, opp. cbn. field. }
    apply (is_RInt_derive (fun r => c * r ^ 3 / 3)).
    - intros x _. auto_derive; auto. field.
    - intros x _. apply (ex_derive_continuous (V := R_NormedModule)). auto_derive; auto. }
  assert (Q1 : forall c, is_RInt (fun r => r * c) a b (c * ((b ^ 2 - a ^ 2) / 2))).
  { intro c. replace (c * ((b ^ 2 - a ^ 2) / 2)) with (minus (c * b ^ 2 / 2) (c * a ^ 2 / 2)).
    2: { unfold minus, plus, opp. cbn. field. }
    apply (is_RInt_derive (fun r => c * r ^ 2 / 2)).
    - intros x _. auto_derive; auto. field.
    - intros x _. apply (ex_derive_continuous (V := R_NormedModule)). auto_derive; auto. }
  assert (Db : forall r, basis Sphere 0 r a b * Derive (fun u => basis Sphere 0 r (rL u) (rR u)) t = - (rRp - rLp) / (2 * (b - a)) * (1 / (PI * (b - a)))).
  { intro r. assert (Pp : 0 < 1 / (PI * (b - a))) by (apply Rdiv_lt_0_compat; [lra|]; apply Rmult_lt_0_compat; lra).
    assert (Dd : is_derive (fun u => basis Sphere 0 r (rL u) (rR u)) t
        (- (rRp - rLp) / (2 * (b - a)) * sqrt (1 / (PI * (b - a))))).
    { apply (is_derive_ext (fun u => sqrt (1 / (PI * (rR u - rL u))))); [intro u; now rewrite basis0_is|].
      assert (eL : Derive rL t = rLp) by (now apply is_derive_unique).
      assert (eR : Derive rR t = rRp) by (now apply is_derive_unique).
      auto_derive.
      - repeat split; try (eexists; eassumption).
        + fold a b. assert (0 < PI * (b - a)) by (apply Rmult_lt_0_compat; lra). lra.
        + fold a b. replace (b + - a) with (b - a) by ring. replace (1 * / (PI * (b - a))) with (1 / (PI * (b - a))) by reflexivity. lra.
      - fold a b. change (Derive (fun x => rL x) t) with (Derive rL t). change (Derive (fun x => rR x) t) with (Derive rR t).
        rewrite eL, eR. replace (b + - a) with (b - a) by ring.
        set (w := 1 / (PI * (b - a))) in *. change (1 * / (PI * (b - a))) with w.
        assert (Ps : 0 < sqrt w) by (now apply sqrt_lt_R0).
        assert (Es : sqrt w * sqrt w = w) by (apply sqrt_sqrt; lra).
        assert (Ew : w * (PI * (b - a)) = 1) by (unfold w; field; lra).
        assert (Hn : PI * (b - a) <> 0) by (assert (0 < PI * (b - a)) by (apply Rmult_lt_0_compat; lra); lra).
        match goal with |- ?l = ?r => apply (Rmult_eq_reg_r (sqrt w)); [|lra] end.
        replace (- (rRp - rLp) / (2 * (b - a)) * sqrt w * sqrt w) with (- (rRp - rLp) / (2 * (b - a)) * w) by (rewrite <- Es at 1; ring).
        unfold w. field. repeat split; try lra; try exact Hn. fold w. lra. }
    assert (U : Derive (fun u => basis Sphere 0 r (rL u) (rR u)) t = - (rRp - rLp) / (2 * (b - a)) * sqrt (1 / (PI * (b - a)))) by exact (is_derive_unique _ _ _ Dd).
    rewrite U.
    rewrite basis0_is.
    replace (sqrt (1 / (PI * (b - a))) * (- (rRp - rLp) / (2 * (b - a)) * sqrt (1 / (PI * (b - a))))) with
      (- (rRp - rLp) / (2 * (b - a)) * (sqrt (1 / (PI * (b - a))) * sqrt (1 / (PI * (b - a))))) by ring.
    rewrite sqrt_sqrt by lra. reflexivity. }
  split; [|split; [|split]].
  - apply (is_RInt_ext (fun r => r ^ 2 * (1 / (PI * (b - a))))).
    { intros x _. now rewrite basis0. }
    replace ((a ^ 2 + a * b + b ^ 2) / 3 / PI) with (1 / (PI * (b - a)) * ((b ^ 3 - a ^ 3) / 3)) by (field; lra).
    apply Q.
  - apply (is_RInt_ext (fun r => r * (1 / (PI * (b - a))))).
    { intros x _. now rewrite basis0. }
    replace ((a + b) / 2 / PI) with (1 / (PI * (b - a)) * ((b ^ 2 - a ^ 2) / 2)) by (field; lra).
    apply Q1.
  - apply (is_RInt_ext (fun r => r ^ 2 * (- (rRp - rLp) / (2 * (b - a)) * (1 / (PI * (b - a)))))).
    { intros x _. now rewrite Db. }
    match goal with |- is_RInt _ _ _ ?v => replace v with (- (rRp - rLp) / (2 * (b - a)) * (1 / (PI * (b - a))) * ((b ^ 3 - a ^ 3) / 3)) by (field; lra) end.
    apply Q.
  - apply (is_RInt_ext (fun r => r ^ 2 * 0)).
    { intros x _. assert (E : Derive (fun y => basis Sphere 0 y a b) x = 0).
      { rewrite (Derive_ext _ (fun _ => sqrt (1 / (PI * (b - a))))) by (intro; apply basis0_is). apply Derive_const. }
      rewrite E. match goal with |- @eq _ ?p ?q => change (@eq R p q) end. ring. }
    pose proof (Q 0) as Z. replace (0 * ((b ^ 3 - a ^ 3) / 3)) with 0 in Z by ring. exact Z.
Qed.
Print Assumptions C178_builder_one_moment.

Theorem C178_builder_fails rL rR rLp rRp :
  b_mass false rL rR = Err UnboundLocal /\ b_J false rL rR = Err UnboundLocal /\ b_G false rL rR rLp rRp = Err UnboundLocal.
Proof. repeat split. Qed.
Print Assumptions C178_builder_fails.

(** With two moments or more it leaves every other entry zero; the mass matrix of a cell has a
    positive diagonal. *)
Theorem C178_builder_more_moments_refuted :
  exists rL rR m, rL < rR /\ b_mass true rL rR = Ok m /\
    ~ is_RInt (fun r => r ^ 2 * (basis Sphere 1 r rL rR * basis Sphere 1 r rL rR)) rL rR (m 1%nat 1%nat).
Proof.
  exists 0, 1. eexists. split; [lra|]. split; [reflexivity|].
  unfold with00. cbn [Nat.eqb andb]. intro H.
  pose proof PI_RGT_0 as HP.
  assert (K : is_RInt (fun r => r ^ 2 * (basis Sphere 1 r 0 1 * basis Sphere 1 r 0 1)) 0 1 (2 / PI * (4 / 5 - 1 + 1 / 3))).
  { assert (W : 0 < 2 / PI) by (apply Rdiv_lt_0_compat; lra).
    apply (is_RInt_ext (fun r => 2 / PI * (4 * r ^ 4 - 4 * r ^ 3 + r ^ 2))).
    { intros r _. unfold basis, refz. rewrite cheb_1. cbn [Nat.eqb].
      replace (2 / (PI * (1 - 0))) with (2 / PI) by (field; lra).
      replace (sqrt (2 / PI) * ((2 * r - 0 - 1) / (1 - 0)) * (sqrt (2 / PI) * ((2 * r - 0 - 1) / (1 - 0))))
        with (sqrt (2 / PI) * sqrt (2 / PI) * (2 * r - 1) ^ 2) by field.
      rewrite sqrt_sqrt by lra. match goal with |- @eq _ ?p ?q => change (@eq R p q) end. ring. }
    replace (2 / PI * (4 / 5 - 1 + 1 / 3)) with
      (minus (2 / PI * (4 * 1 ^ 5 / 5 - 1 ^ 4 + 1 ^ 3 / 3)) (2 / PI * (4 * 0 ^ 5 / 5 - 0 ^ 4 + 0 ^ 3 / 3))).
    2: { unfold minus, plus, opp. cbn. field. lra. }
    apply (is_RInt_derive (fun r => 2 / PI * (4 * r ^ 5 / 5 - r ^ 4 + r ^ 3 / 3))).
    - intros x _. auto_derive; auto. field. lra.
    - intros x _. apply (ex_derive_continuous (V := R_NormedModule)). auto_derive; auto. }
  pose proof (is_RInt_unique _ _ _ _ H) as U1. pose proof (is_RInt_unique _ _ _ _ K) as U2.
  rewrite U1 in U2.
  assert (0 < 2 / PI) by (apply Rdiv_lt_0_compat; lra). lra.
Qed.
Print Assumptions C178_builder_more_moments_refuted.

(** The function taken out of the mesh class does what the method of the mesh class does that
    replaced it, for a mesh that moves. *)
Theorem C178_outside_is_the_method c s :
  moving s = true ->
  match outside (fake_sedov_v c) (N_space c) (x0 c) (tfinal c) with
  | Ok (e, e0, d) => boundary_source_init c s = Ok (set_edges0 (set_Dedges (set_edges s e) d) e0)
  | Err x => boundary_source_init c s = Err x
  end.
Proof.
  intro Mv. unfold outside, boundary_source_init. cbv zeta. rewrite Mv.
  destruct (vsub _ _) as [diff|x]; cbn [bind]; [|reflexivity].
  destruct (vdivs diff (tfinal c)) as [d|x]; cbn [bind]; reflexivity.
Qed.
Print Assumptions C178_outside_is_the_method.

Lemma setitem_nth {A} (l : list A) k v l' d i : setitem l k v = Ok l' ->
  length l' = length l /\ nth i l' d = if (i =? k)%nat then v else nth i l d.
Proof.
  unfold setitem. destruct (Nat.ltb_spec k (length l)) as [H|H]; [|discriminate]. intro E. assert (E2 : firstn k l ++ v :: skipn (S k) l = l') by congruence. clear E. subst l'.
  split.
  - rewrite app_length, firstn_length. change (length (v :: skipn (S k) l)) with (S (length (skipn (S k) l))). rewrite skipn_length. lia.
  - destruct (Nat.lt_trichotomy i k) as [C|[->|C]].
    + destruct (Nat.eqb_spec i k); [lia|]. rewrite app_nth1 by (rewrite firstn_length; lia).
      rewrite <- (firstn_skipn k l) at 2. rewrite app_nth1 by (rewrite firstn_length; lia). reflexivity.
    + rewrite Nat.eqb_refl. rewrite app_nth2 by (rewrite firstn_length; lia). rewrite firstn_length, Nat.min_l by lia.
      now rewrite Nat.sub_diag.
    + destruct (Nat.eqb_spec i k); [lia|]. rewrite app_nth2 by (rewrite firstn_length; lia).
      rewrite firstn_length, Nat.min_l by lia. destruct (i - k)%nat as [|m] eqn:E; [lia|]. cbn [nth].
      rewrite <- (firstn_skipn (S k) l) at 2. rewrite app_nth2 by (rewrite firstn_length; lia).
      rewrite firstn_length, Nat.min_l by lia. f_equal. lia.
Qed.

(** set_func writes each listed position and speed at its index, the later of two for the same
    index, and touches nothing else. *)
Theorem C178_set_func xs loc speed edges D e d : set_func xs loc speed 0 edges D = Ok (e, d) ->
  length e = length edges /\ length d = length D /\
  (forall i, ~ In i xs -> nth i e 0 = nth i edges 0 /\ nth i d 0 = nth i D 0) /\
  (forall n, (n < length xs)%nat -> ~ In (nth n xs 0%nat) (skipn (S n) xs) ->
     nth (nth n xs 0%nat) e 0 = nth n loc 0 /\ nth (nth n xs 0%nat) d 0 = nth n speed 0).
Proof.
  assert (G : forall xs c edges D, set_func xs loc speed c edges D = Ok (e, d) ->
    length e = length edges /\ length d = length D /\
    (forall i, ~ In i xs -> nth i e 0 = nth i edges 0 /\ nth i d 0 = nth i D 0) /\
    (forall n, (n < length xs)%nat -> ~ In (nth n xs 0%nat) (skipn (S n) xs) ->
       nth (nth n xs 0%nat) e 0 = nth (c + n) loc 0 /\ nth (nth n xs 0%nat) d 0 = nth (c + n) speed 0)).
  { clear. induction xs as [|k xs IH]; intros c edges D; cbn [set_func].
    - intro H. injection H as -> ->. split; [reflexivity|]. split; [reflexivity|]. split; [auto|]. intros n Hn. cbn in Hn. lia.
    - unfold getitem. destruct (nth_error loc c) as [l|] eqn:El; cbn [bind]; [|discriminate].
      destruct (setitem edges k l) as [e1|x] eqn:Ee; cbn [bind]; [|discriminate].
      destruct (nth_error speed c) as [v|] eqn:Ev; cbn [bind]; [|discriminate].
      destruct (setitem D k v) as [d1|x] eqn:Ed; cbn [bind]; [|discriminate].
      intro H. destruct (IH _ _ _ H) as (L1 & L2 & Un & At).
      pose proof (fun i => setitem_nth edges k l e1 0 i Ee) as Se. pose proof (fun i => setitem_nth D k v d1 0 i Ed) as Sd.
      split. { rewrite L1. apply (Se 0%nat). } split. { rewrite L2. apply (Sd 0%nat). }
      split.
      + intros i Hi. cbn [In] in Hi. destruct (Un i) as [A B]; [tauto|]. rewrite A, B.
        destruct (Se i) as [_ ->]. destruct (Sd i) as [_ ->]. destruct (Nat.eqb_spec i k); [subst; tauto|auto].
      + intros [|n] Hn Hni; cbn [nth skipn] in *.
        * destruct (Un k Hni) as [A B]. rewrite A, B. destruct (Se k) as [_ ->]. destruct (Sd k) as [_ ->].
          rewrite Nat.eqb_refl, Nat.add_0_r. split; symmetry; now apply nth_error_nth.
        * replace (c + S n)%nat with (c + 1 + n)%nat by lia. apply At; [cbn [length] in Hn; lia|exact Hni]. }
  intro H. destruct (G _ _ _ _ H) as (A & B & C & E). repeat split; auto; apply E || apply C; auto.
Qed.
Print Assumptions C178_set_func.

(** The Su-Olson benchmark: the first three columns of the file at the time one, nothing otherwise. *)
Theorem C178_su_olson table tf :
  (tf <> 1 -> su_olson table tf = Ok None) /\
  (forall c0 c1 c2, tf = 1 -> su_olson table tf = Ok (Some (c0, c1, c2)) ->
     length c0 = length table /\ length c1 = length table /\ length c2 = length table /\
     forall i, (i < length table)%nat -> nth i c0 0 = nth 0 (nth i table []) 0 /\ nth i c1 0 = nth 1 (nth i table []) 0 /\
       nth i c2 0 = nth 2 (nth i table []) 0) /\
  (tf = 1 -> (forall r, In r table -> (3 <= length r)%nat) -> exists c, su_olson table tf = Ok (Some c)).
Proof.
  set (col := fun k => (fix go rows := match rows with
       | [] => Ok [] | r :: rows' => x <- getitem (A := R) r k ;; xs <- go rows' ;; Ok (x :: xs) end)).
  assert (Col : forall k t c, col k t = Ok c -> length c = length t /\ forall i, (i < length t)%nat -> nth i c 0 = nth k (nth i t []) 0).
  { intros k t. induction t as [|r t IH]; intros c; cbn.
    - intros [= <-]. split; [reflexivity|]. intros i Hi. lia.
    - unfold getitem at 1. destruct (nth_error r k) as [x|] eqn:E; cbn [bind]; [|discriminate].
      fold (col k). destruct (col k t) as [xs|] eqn:E2; cbn [bind]; [|discriminate]. intros [= <-].
      destruct (IH _ eq_refl) as [A B]. split; [cbn; now rewrite A|]. intros [|i] Hi; cbn.
      + symmetry. now apply nth_error_nth.
      + apply B. lia. }
  assert (Tot : forall k t, (forall r, In r t -> (k < length r)%nat) -> exists c, col k t = Ok c).
  { intros k t. induction t as [|r t IH]; intro H; cbn; [eauto|].
    unfold getitem at 1. destruct (nth_error r k) as [x|] eqn:E.
    2: { apply nth_error_None in E. specialize (H r (or_introl eq_refl)). lia. }
    cbn [bind]. fold (col k). destruct IH as [c ->]; [intros r' Hr; apply H; now right|]. cbn [bind]. eauto. }
  split; [|split].
  - intro H. unfold su_olson. now rewrite Reqb_false.
  - intros c0 c1 c2 -> H. unfold su_olson in H. rewrite Reqb_refl in H. cbv zeta in H.
    fold (col 0%nat) in H. fold (col 1%nat) in H. fold (col 2%nat) in H.
    destruct (col 0%nat table) as [d0|] eqn:E0; cbn [bind] in H; [|discriminate].
    destruct (col 1%nat table) as [d1|] eqn:E1; cbn [bind] in H; [|discriminate].
    destruct (col 2%nat table) as [d2|] eqn:E2; cbn [bind] in H; [|discriminate].
    injection H as <- <- <-.
    destruct (Col _ _ _ E0), (Col _ _ _ E1), (Col _ _ _ E2). repeat split; auto.
  - intros -> H. unfold su_olson. rewrite Reqb_refl. cbv zeta.
    fold (col 0%nat). fold (col 1%nat). fold (col 2%nat).
    destruct (Tot 0%nat table) as [c0 ->]; [intros r Hr; specialize (H r Hr); lia|].
    destruct (Tot 1%nat table) as [c1 ->]; [intros r Hr; specialize (H r Hr); lia|].
    destruct (Tot 2%nat table) as [c2 ->]; [intros r Hr; specialize (H r Hr); lia|]. cbn [bind]. eauto.
Qed.
Print Assumptions C178_su_olson.

(** mesh_cluster_blast_wave never returns, positivize ignores its argument. *)
Theorem C178_stubs x0 n v0 t w : cluster x0 n v0 t = Err UnboundLocal /\ positivize w = 0.
Proof. split; reflexivity. Qed.
Print Assumptions C178_stubs.

Example C178_example :
  b_mass true 0 1 = Ok (with00 ((0 ^ 2 + 0 * 1 + 1 ^ 2) / 3 / PI)) /\
  set_func [2; 0]%nat [5; 6] [1; -1] 0 [0; 0; 0] [0; 0; 0] = Ok ([6; 0; 5], [-1; 0; 1]) /\
  su_olson [[1; 2; 3]; [4; 5; 6]] 1 = Ok (Some ([1; 4], [2; 5], [3; 6])).
Proof. repeat split. unfold su_olson. rewrite Reqb_refl. reflexivity. Qed.
